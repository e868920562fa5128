(** Lemmas about HttpSend.v *)
From Verif Require Import SpecSend TextProofs RequestProofs WireProofs ConnectProofs.
Open Scope N_scope.

(** ** connecting *)
Lemma race_steps ok c r : race ok c r -> steps ok c (Returned r).
Proof. induction 1; [constructor|econstructor; eauto]. Qed.
Lemma tcp_outcome n h p r : connect_tcp n h p r ->
  match r with
  | inl a => exists addrs, nw_resolve n h p = Some addrs /\ In a addrs /\ nw_accepts n a = true /\ nw_timeout_ok n a = true
  | inr HostNotFound => nw_resolve n h p = None
  | inr NoConnectionAvailable => nw_resolve n h p = Some []
  | inr TcpConnectFailed => exists addrs, nw_resolve n h p = Some addrs /\ addrs <> [] /\ Forall (fun a => nw_accepts n a = false) addrs
  | inr SetReadTimeoutFailed => exists addrs a, nw_resolve n h p = Some addrs /\ In a addrs /\ nw_accepts n a = true /\ nw_timeout_ok n a = false
  | inr _ => False
  end.
Proof.
  intros [E|addrs e E R|addrs a E R T|addrs a E R T]; auto; apply race_steps, race_result in R.
  - destruct R as (F & N1 & N2). destruct addrs as [|x addrs]; [rewrite N1; auto|]. rewrite N2 by discriminate. exists (x :: addrs). split; auto. split; [discriminate|auto].
  - destruct R. eauto 6.
  - destruct R. eauto 6.
Qed.
Theorem connect_outcome n u r : connect n u r ->
  match r with
  | inl (t, a) => t = transport_for u /\ exists addrs, nw_resolve n (u_host u) (u_port u) = Some addrs /\ In a addrs /\ nw_accepts n a = true
  | inr e => unconnected n u e
  end.
Proof.
  intros C. destruct C as [h p path a T|h p path e T|h p path N|h p path N S|h p path a N S T|h p path e N S T]; cbn [u_host u_port u_scheme transport_for unconnected]; auto;
    apply tcp_outcome in T; try (destruct T as (addrs & ? & ? & ? & ?); split; [reflexivity|eauto]; fail); destruct e; cbn [unconnected u_host u_port u_scheme]; tauto.
Qed.
Theorem never_in_clear n u t a : connect n u (inl (t, a)) -> u_scheme u = Https -> t = Cipher (u_host u).
Proof. intros C S. apply connect_outcome in C. destruct C as [-> _]. unfold transport_for. now rewrite S. Qed.

Lemma race_finishes ok c : exists r, race ok c r.
Proof.
  induction (race_ends ok c) as [c _ IH]. destruct c as [todo fl e|fl e|r].
  - destruct (race_goes_on ok (Racing todo fl e)) as [c' S]; [intros [r Q]; discriminate|]. destruct (IH c' S) as [r R]. exists r. econstructor; eauto.
  - destruct (race_goes_on ok (Draining fl e)) as [c' S]; [intros [r Q]; discriminate|]. destruct (IH c' S) as [r R]. exists r. econstructor; eauto.
  - exists r. constructor.
Qed.
Lemma tcp_finishes n h p : exists r, connect_tcp n h p r.
Proof.
  destruct (nw_resolve n h p) as [addrs|] eqn:E; [|eexists; now constructor].
  destruct (race_finishes (nw_accepts n) (conn_start (nw_accepts n) addrs)) as [[a|e] R].
  - destruct (nw_timeout_ok n a) eqn:T; eexists; [eapply ct_done|eapply ct_timeout]; eauto.
  - eexists; eapply ct_failed; eauto.
Qed.
Theorem connect_finishes n u : exists r, connect n u r.
Proof.
  destruct u as [[|] h p path]; destruct (tcp_finishes n h p) as [[a|e] T]; try (eexists; eapply cn_plain; eassumption); try (eexists; eapply cn_plain_failed; eassumption).
  - destruct (nw_name_ok n h) eqn:N; [|eexists; now apply cn_name]. destruct (nw_session_ok n h) eqn:S; [|eexists; now apply cn_session]. eexists; eapply cn_cipher; eassumption.
  - destruct (nw_name_ok n h) eqn:N; [|eexists; now apply cn_name]. destruct (nw_session_ok n h) eqn:S; [|eexists; now apply cn_session]. eexists; eapply cn_cipher_failed; eassumption.
Qed.

(** ** writing *)
Lemma hand_over_inv zero answers : forall bs taken r rem taken' answers', hand_over zero bs taken answers = (r, rem, taken', answers') ->
  taken' ++ rem = taken ++ bs /\ (r = WDone -> rem = []).
Proof.
  induction answers as [|x answers IH]; intros bs taken r rem taken' answers' H; destruct bs as [|b bs]; cbn [hand_over] in H; try (inversion H; subst; split; auto; discriminate).
  destruct x as [[|n]| |e]; try (inversion H; subst; split; auto; discriminate).
  - apply IH in H. destruct H as [E D]. split; auto. rewrite E, <- app_assoc. f_equal. apply (firstn_skipn (S n) (b :: bs)).
  - apply IH in H. auto.
Qed.
Lemma flush_inv b r b' : flush_buf b = (r, b') -> bw_taken b' ++ bw_kept b' = bw_taken b ++ bw_kept b /\ (r = WDone -> bw_kept b' = []).
Proof.
  unfold flush_buf. destruct (hand_over _ _ _ _) as [[[r1 rem] tk] an] eqn:E. intros [= <- <-]. apply hand_over_inv in E. exact E.
Qed.
Lemma write_all_inv cap bs b r b' : write_all cap bs b = (r, b') ->
  starts_with (bw_taken b' ++ bw_kept b') (bw_taken b ++ bw_kept b ++ bs) /\ (r = WDone -> bw_taken b' ++ bw_kept b' = bw_taken b ++ bw_kept b ++ bs).
Proof.
  assert (Whole : forall x y : bytes, x = y -> starts_with x y) by (intros x y ->; exists []; now rewrite app_nil_r).
  assert (D : forall b0 r0 b1, ((cap <= length bs)%nat -> bw_kept b0 = [] \/ bs = []) ->
    (if (cap <=? length bs)%nat
     then let '(r, _, taken, answers) := hand_over write_zero_all bs (bw_taken b0) (bw_answers b0) in (r, Bw (bw_kept b0) taken answers)
     else (WDone, Bw (bw_kept b0 ++ bs) (bw_taken b0) (bw_answers b0))) = (r0, b1) ->
    starts_with (bw_taken b1 ++ bw_kept b1) (bw_taken b0 ++ bw_kept b0 ++ bs) /\ (r0 = WDone -> bw_taken b1 ++ bw_kept b1 = bw_taken b0 ++ bw_kept b0 ++ bs)).
  { intros b0 r0 b1 K H. destruct (Nat.leb_spec cap (length bs)) as [L|L].
    - destruct (hand_over _ _ _ _) as [[[r1 rem] tk] an] eqn:E. inversion H; subst. cbn. destruct (K L) as [Q|Q].
      + rewrite Q. rewrite app_nil_r. cbn. apply hand_over_inv in E. destruct E as [E1 E2]. split; [exists rem; auto|]. intros W. rewrite (E2 W), app_nil_r in E1. auto.
      + subst bs. replace (hand_over write_zero_all [] (bw_taken b0) (bw_answers b0)) with (WDone, @nil byte, bw_taken b0, bw_answers b0) in E by (destruct (bw_answers b0); reflexivity).
        inversion E; subst. rewrite app_nil_r. split; auto.
    - inversion H; subst. cbn. split; auto. }
  unfold write_all. cbv zeta. intros H. destruct (Nat.ltb_spec (length bs) (cap - length (bw_kept b))) as [L|L].
  - inversion H; subst. cbn. split; auto.
  - destruct (Nat.ltb_spec (cap - length (bw_kept b)) (length bs)) as [L2|L2].
    + destruct (flush_buf b) as [rf bf] eqn:F. pose proof (flush_inv _ _ _ F) as [F1 F2]. destruct rf.
      * apply D in H; [|auto]. rewrite !app_assoc in H. rewrite F1 in H. rewrite <- !app_assoc in H. exact H.
      * inversion H; subst. split; [|discriminate]. rewrite F1. exists bs. now rewrite <- app_assoc.
      * inversion H; subst. split; [|discriminate]. rewrite F1. exists bs. now rewrite <- app_assoc.
    + apply D in H; auto. intros L3. assert (cap = 0 \/ length (bw_kept b) = 0)%nat as [Q|Q] by (clear - L L2 L3; revert L L2 L3; generalize (length bs); generalize (length (bw_kept b)); intros; lia).
      * right. destruct bs; auto. cbn in *. lia.
      * left. destruct (bw_kept b); auto. discriminate.
Qed.
Lemma pieces_inv cap ps : forall b r b', write_pieces cap ps b = (r, b') ->
  starts_with (bw_taken b' ++ bw_kept b') (bw_taken b ++ bw_kept b ++ List.concat ps) /\ (r = WDone -> bw_taken b' ++ bw_kept b' = bw_taken b ++ bw_kept b ++ List.concat ps).
Proof.
  induction ps as [|p ps IH]; intros b r b' H.
  - cbn in *. inversion H; subst. rewrite app_nil_r. split; auto. exists []. now rewrite app_nil_r.
  - cbn [write_pieces] in H. destruct (write_all cap p b) as [r1 b1] eqn:E. pose proof (write_all_inv _ _ _ _ _ E) as [W1 W2].
    assert (Stop : r1 <> WDone -> (r, b') = (r1, b1) -> starts_with (bw_taken b' ++ bw_kept b') (bw_taken b ++ bw_kept b ++ List.concat (p :: ps)) /\
        (r = WDone -> bw_taken b' ++ bw_kept b' = bw_taken b ++ bw_kept b ++ List.concat (p :: ps))).
    { intros N [= -> ->]. split; [|congruence]. destruct W1 as [x W1]. exists (x ++ List.concat ps). cbn [List.concat].
      transitivity ((bw_taken b ++ bw_kept b ++ p) ++ List.concat ps); [rewrite <- !app_assoc; reflexivity|]. rewrite W1, <- !app_assoc. reflexivity. }
    destruct r1; try (apply Stop; [discriminate|auto]; fail). clear Stop. apply IH in H.
    assert (Q : bw_taken b1 ++ bw_kept b1 ++ List.concat ps = bw_taken b ++ bw_kept b ++ List.concat (p :: ps)).
    { rewrite app_assoc, W2 by auto. cbn [List.concat]. rewrite <- !app_assoc. reflexivity. }
    rewrite Q in H. exact H.
Qed.
Lemma starts_trans {A} (a b c : list A) : starts_with (a ++ b) c -> starts_with a c.
Proof. intros [r ->]. exists (b ++ r). now rewrite app_assoc. Qed.
Lemma starts_self {A} (a : list A) : starts_with a a.
Proof. exists []. now rewrite app_nil_r. Qed.
Lemma starts_more {A} (a b c : list A) : starts_with a b -> starts_with a (b ++ c).
Proof. intros [r ->]. exists (r ++ c). now rewrite app_assoc. Qed.
(** what a writing step does to the bytes: [more] are the bytes asked for *)
Definition writes (more : bytes) (b b' : bufwriter) (r : wresult) : Prop :=
  starts_with (bw_taken b' ++ bw_kept b') (bw_taken b ++ bw_kept b ++ more) /\
  (r = WDone -> bw_taken b' ++ bw_kept b' = bw_taken b ++ bw_kept b ++ more).
Lemma writes_then m1 m2 b b1 b2 r : writes m1 b b1 WDone -> writes m2 b1 b2 r -> writes (m1 ++ m2) b b2 r.
Proof.
  intros [_ D] [P2 D2]. specialize (D eq_refl). rewrite app_assoc, D in P2, D2. rewrite <- !app_assoc in P2, D2. split; auto.
Qed.
Lemma writes_stop m1 m2 b b1 r : r <> WDone -> writes m1 b b1 r -> writes (m1 ++ m2) b b1 r.
Proof. intros N [P _]. split; [|congruence]. apply (starts_more _ _ m2) in P. rewrite <- !app_assoc in P. exact P. Qed.
Lemma writes_flush b r b' : flush_buf b = (r, b') -> writes [] b b' r.
Proof. intros F. apply flush_inv in F. destruct F as [F _]. unfold writes. rewrite app_nil_r, F. split; auto. apply starts_self. Qed.
Lemma writes_keep b c : writes c b (Bw (bw_kept b ++ c) (bw_taken b) (bw_answers b)) WDone.
Proof. split; intros; cbn; [apply starts_self|reflexivity]. Qed.
Lemma copy_buffered_inv cap f cs : forall b r b', copy_buffered cap cs f b = (r, b') ->
  writes (List.concat cs) b b' r /\ (r = WDone -> f = None).
Proof.
  induction cs as [|c cs IH]; intros b r b' H; cbn [copy_buffered] in H;
    destruct (if (_ <? buf_capacity)%nat then flush_buf b else (WDone, b)) as [r1 b1] eqn:E;
    assert (W : writes [] b b1 r1) by (destruct (_ <? buf_capacity)%nat; [now apply writes_flush|]; inversion E; subst; split; rewrite ?app_nil_r; auto; apply starts_self).
  - destruct r1; [|inversion H; subst; split; [auto|discriminate]|inversion H; subst; split; [auto|discriminate]].
    inversion H; subst. destruct f; split; auto; try discriminate. destruct W as [P D]. split; [auto|discriminate].
  - cbn [List.concat]. destruct r1; [|inversion H; subst; split; [apply (writes_stop [] (c ++ List.concat cs)); [discriminate|auto]|discriminate]..].
    apply IH in H. destruct H as [H F]. split; auto. apply (writes_then [] (c ++ List.concat cs) b b1); auto.
    eapply writes_then; [apply writes_keep|exact H].
Qed.
Lemma copy_inv cap c b r b' : copy cap c b = (r, b') -> writes (List.concat (cp_chunks c)) b b' r /\ (r = WDone -> cp_failure c = None).
Proof.
  unfold copy. destruct (buf_capacity <=? cap)%nat; [apply copy_buffered_inv|].
  destruct (write_pieces cap (cp_chunks c) b) as [r1 b1] eqn:E. apply pieces_inv in E. destruct r1.
  - destruct (cp_failure c) eqn:F; intros [= <- <-]; [|split; auto]. split; [|discriminate]. destruct E as [E _]. split; [exact E|discriminate].
  - intros [= <- <-]. split; [exact E|discriminate].
  - intros [= <- <-]. split; [exact E|discriminate].
Qed.
Lemma all_of_inv cap ps body b r b' : write_all_of cap ps body b = (r, b') -> writes (whole ps body) b b' r /\ (r = WDone -> intact body).
Proof.
  unfold write_all_of, whole. destruct (write_pieces cap ps b) as [r1 b1] eqn:E. apply pieces_inv in E. fold (writes (List.concat ps) b b1 r1) in E. destruct r1.
  - destruct body as [c|]; intros H.
    + apply copy_inv in H. destruct H as [H F]. split; [eapply writes_then; eauto|]. intros Q c' [= <-]. auto.
    + inversion H; subst. split; [rewrite app_nil_r; exact E|]. intros _ c' Q. discriminate.
  - intros [= <- <-]. split; [apply writes_stop; [discriminate|exact E]|discriminate].
  - intros [= <- <-]. split; [apply writes_stop; [discriminate|exact E]|discriminate].
Qed.
Theorem write_prefix cap flushes answers ps body o bs : request_write cap flushes answers ps body = (o, bs) ->
  starts_with bs (whole ps body) /\ (o = Some None -> bs = whole ps body /\ intact body).
Proof.
  unfold request_write. cbv zeta. destruct (write_all_of cap ps body (Bw [] [] answers)) as [r b] eqn:E.
  apply all_of_inv in E. destruct E as [[P D] I]. cbn [bw_taken bw_kept app] in P, D.
  assert (Dr : forall b1, starts_with (bw_taken b1 ++ bw_kept b1) (whole ps body) -> starts_with (bw_taken (snd (flush_buf b1))) (whole ps body)).
  { intros b1 Q. destruct (flush_buf b1) as [rf bf] eqn:F. apply flush_inv in F. destruct F as [F _]. cbn. eapply starts_trans. rewrite F. exact Q. }
  destruct r.
  - destruct (flush_buf b) as [rf bf] eqn:F. apply flush_inv in F. destruct F as [F K]. specialize (D eq_refl). destruct rf.
    + intros [= <- <-]. rewrite (K eq_refl), app_nil_r, D in F. rewrite F. split; [apply starts_self|auto].
    + intros [= <- <-]. split; [|discriminate]. apply Dr. rewrite F, D. apply starts_self.
    + intros [= <- <-]. split; [|discriminate]. eapply starts_trans. rewrite F, D. apply starts_self.
  - intros [= <- <-]. split; [|discriminate]. now apply Dr.
  - intros [= <- <-]. split; [|discriminate]. eapply starts_trans; eauto.
Qed.

(** a connection that takes bytes now and then gets everything *)
Definition useful (l : list answer) : nat := length (filter takes l).
Lemma hand_over_goes zero answers : forall bs taken, Forall willing answers -> (length bs <= useful answers)%nat ->
  exists taken' answers', hand_over zero bs taken answers = (WDone, [], taken', answers') /\ Forall willing answers' /\ (useful answers <= length bs + useful answers')%nat.
Proof.
  induction answers as [|x answers IH]; intros bs taken W U; destruct bs as [|b bs]; try (do 2 eexists; split; [reflexivity|]; split; [auto|cbn; lia]).
  - cbn in U. lia.
  - inversion W; subst. destruct x as [[|n]| |e]; try contradiction; cbn [hand_over].
    + assert (L : (length (skipn (S n) (b :: bs)) <= length bs)%nat) by (cbn [skipn]; rewrite skipn_length; lia).
      unfold useful in *. cbn [filter takes length] in *. destruct (IH (skipn (S n) (b :: bs)) (taken ++ firstn (S n) (b :: bs)) H2) as (t & a & E & W' & U'); [cbn in *; lia|].
      exists t, a. split; auto. split; auto. cbn in *; lia.
    + unfold useful in *. cbn [filter takes] in *. apply IH; auto.
Qed.
Lemma flush_goes b : Forall willing (bw_answers b) -> (length (bw_kept b) <= useful (bw_answers b))%nat ->
  exists b', flush_buf b = (WDone, b') /\ Forall willing (bw_answers b') /\ (useful (bw_answers b) <= length (bw_kept b) + useful (bw_answers b'))%nat /\ bw_kept b' = [].
Proof.
  intros W U. unfold flush_buf. destruct (hand_over_goes write_zero_buf _ _ (bw_taken b) W U) as (t & a & -> & W' & U'). eexists. split; [reflexivity|]. auto.
Qed.
Ltac ln := unfold bytes, byte in *; lia.
Lemma write_all_goes cap bs b : Forall willing (bw_answers b) -> (length (bw_kept b) + length bs <= useful (bw_answers b))%nat ->
  exists b', write_all cap bs b = (WDone, b') /\ Forall willing (bw_answers b') /\
    (useful (bw_answers b) + length (bw_kept b') <= length (bw_kept b) + length bs + useful (bw_answers b'))%nat.
Proof.
  intros W U. unfold write_all. cbv zeta.
  assert (D : forall b0, Forall willing (bw_answers b0) -> (length bs <= useful (bw_answers b0))%nat -> exists b',
    (if (cap <=? length bs)%nat
     then let '(r, _, taken, answers) := hand_over write_zero_all bs (bw_taken b0) (bw_answers b0) in (r, Bw (bw_kept b0) taken answers)
     else (WDone, Bw (bw_kept b0 ++ bs) (bw_taken b0) (bw_answers b0))) = (WDone, b') /\ Forall willing (bw_answers b') /\
    (useful (bw_answers b0) + length (bw_kept b') <= length (bw_kept b0) + length bs + useful (bw_answers b'))%nat).
  { intros b0 W0 U0. destruct (Nat.leb_spec cap (length bs)).
    - destruct (hand_over_goes write_zero_all _ _ (bw_taken b0) W0 U0) as (t & a & -> & W' & U'). eexists. split; [reflexivity|]. cbn [bw_answers bw_kept]. split; auto. ln.
    - eexists. split; [reflexivity|]. cbn [bw_answers bw_kept]. split; auto. rewrite ?app_length. ln. }
  destruct (Nat.ltb_spec (length bs) (cap - length (bw_kept b))).
  - eexists. split; [reflexivity|]. cbn [bw_answers bw_kept]. split; auto. rewrite ?app_length. ln.
  - destruct (Nat.ltb_spec (cap - length (bw_kept b)) (length bs)).
    + destruct (flush_goes b W) as (b1 & -> & W1 & U1 & K1); [ln|]. destruct (D b1 W1) as (b2 & E & W2 & U2); [ln|]. exists b2. split; auto. split; auto.
      rewrite K1 in U2. cbn in U2. ln.
    + apply D; auto. ln.
Qed.
Lemma pieces_go cap ps : forall b, Forall willing (bw_answers b) -> (length (bw_kept b) + length (List.concat ps) <= useful (bw_answers b))%nat ->
  exists b', write_pieces cap ps b = (WDone, b') /\ Forall willing (bw_answers b') /\
    (useful (bw_answers b) + length (bw_kept b') <= length (bw_kept b) + length (List.concat ps) + useful (bw_answers b'))%nat.
Proof.
  induction ps as [|p ps IH]; intros b W U.
  - exists b. split; auto. split; auto. cbn. ln.
  - cbn [write_pieces List.concat] in *. rewrite app_length in U. destruct (write_all_goes cap p b W) as (b1 & -> & W1 & U1); [ln|].
    destruct (IH b1 W1) as (b2 & -> & W2 & U2); [ln|]. exists b2. split; auto. split; auto. rewrite ?app_length. ln.
Qed.
Lemma copy_buffered_goes cap cs : forall b, Forall willing (bw_answers b) -> (length (bw_kept b) + length (List.concat cs) <= useful (bw_answers b))%nat ->
  exists b', copy_buffered cap cs None b = (WDone, b') /\ Forall willing (bw_answers b') /\
    (useful (bw_answers b) + length (bw_kept b') <= length (bw_kept b) + length (List.concat cs) + useful (bw_answers b'))%nat.
Proof.
  assert (R : forall b, Forall willing (bw_answers b) -> (length (bw_kept b) <= useful (bw_answers b))%nat -> exists b1,
    (if (cap - length (bw_kept b) <? buf_capacity)%nat then flush_buf b else (WDone, b)) = (WDone, b1) /\ Forall willing (bw_answers b1) /\
    (useful (bw_answers b) + length (bw_kept b1) <= length (bw_kept b) + useful (bw_answers b1))%nat).
  { intros b W U. destruct (_ <? buf_capacity)%nat; [|exists b; split; auto; split; auto; ln].
    destruct (flush_goes b W U) as (b1 & -> & W1 & U1 & K1). exists b1. split; auto. split; auto. rewrite K1. cbn [length]. ln. }
  induction cs as [|c cs IH]; intros b W U; cbn [copy_buffered List.concat] in *.
  - cbn [length] in *. destruct (R b W) as (b1 & -> & W1 & U1); [ln|]. exists b1. split; auto. split; auto. ln.
  - rewrite app_length in *. destruct (R b W) as (b1 & -> & W1 & U1); [ln|].
    destruct (IH (Bw (bw_kept b1 ++ c) (bw_taken b1) (bw_answers b1))) as (b2 & -> & W2 & U2); cbn [bw_kept bw_answers] in *; rewrite ?app_length in *; auto; [ln|].
    exists b2. split; auto. split; auto. ln.
Qed.
Lemma all_of_goes cap ps body b : intact body -> Forall willing (bw_answers b) -> (length (bw_kept b) + length (whole ps body) <= useful (bw_answers b))%nat ->
  exists b', write_all_of cap ps body b = (WDone, b') /\ Forall willing (bw_answers b') /\
    (useful (bw_answers b) + length (bw_kept b') <= length (bw_kept b) + length (whole ps body) + useful (bw_answers b'))%nat.
Proof.
  unfold whole, write_all_of. rewrite app_length. intros I W U. destruct (pieces_go cap ps b W) as (b1 & -> & W1 & U1); [ln|].
  destruct body as [c|]; [|exists b1; split; auto; split; auto; ln]. unfold copy. rewrite (I c eq_refl).
  destruct (buf_capacity <=? cap)%nat.
  - destruct (copy_buffered_goes cap (cp_chunks c) b1 W1) as (b2 & -> & W2 & U2); [ln|]. exists b2. split; auto. split; auto. ln.
  - destruct (pieces_go cap (cp_chunks c) b1 W1) as (b2 & -> & W2 & U2); [ln|]. exists b2. split; auto. split; auto. ln.
Qed.
Theorem write_goes cap answers ps body : intact body -> Forall willing answers -> (length (whole ps body) <= length (filter takes answers))%nat ->
  request_write cap true answers ps body = (Some None, whole ps body).
Proof.
  intros I W U. destruct (request_write cap true answers ps body) as [o bs] eqn:E. pose proof (write_prefix _ _ _ _ _ _ _ E) as [_ P].
  unfold request_write in E. cbv zeta in E. destruct (all_of_goes cap ps body (Bw [] [] answers) I W U) as (b & E1 & W1 & U1). rewrite E1 in E. cbn [bw_kept bw_answers length] in U1.
  destruct (flush_goes b W1) as (b2 & E2 & _); [unfold useful in *; ln|]. rewrite E2 in E. inversion E; subst. destruct P as [-> _]; auto.
Qed.

(** failures come from the connection *)
Lemma hand_over_fails zero answers : In zero [lit "failed to write whole buffer"; lit "failed to write the buffered data"] -> forall bs taken r rem taken' answers', hand_over zero bs taken answers = (r, rem, taken', answers') ->
  (forall x, In x answers' -> In x answers) /\ forall e, r = WFail e -> refusal e answers.
Proof.
  intros Z.
  induction answers as [|x answers IH]; intros bs taken r rem taken' answers' H; destruct bs as [|b bs]; cbn [hand_over] in H; try (inversion H; subst; split; auto; discriminate).
  assert (K : forall y e, refusal e answers -> refusal e (y :: answers)) by (intros y e [?|[? ?]]; [left|right; split]; auto; now right).
  destruct x as [[|n]| |e].
  - inversion H; subst. split; [intros; now right|]. intros e [= <-]. right. split; [now left|exact Z].
  - apply IH in H. destruct H as [H1 H2]. split; [intros y I; right; auto|]. auto.
  - apply IH in H. destruct H as [H1 H2]. split; [intros y I; right; auto|]. auto.
  - inversion H; subst. split; [intros; now right|]. intros e' [= <-]. left. now left.
Qed.
Lemma refusal_in e a b : (forall x, In x a -> In x b) -> refusal e a -> refusal e b.
Proof. intros I [H|[H J]]; [left|right]; auto. Qed.
Lemma flush_fails b r b' : flush_buf b = (r, b') -> (forall x, In x (bw_answers b') -> In x (bw_answers b)) /\ forall e, r = WFail e -> refusal e (bw_answers b).
Proof. unfold flush_buf. destruct (hand_over _ _ _ _) as [[[r1 rem] tk] an] eqn:E. intros [= <- <-]. refine (hand_over_fails _ _ _ _ _ _ _ _ _ E). right. now left. Qed.
Lemma write_all_fails cap bs b r b' : write_all cap bs b = (r, b') -> (forall x, In x (bw_answers b') -> In x (bw_answers b)) /\ forall e, r = WFail e -> refusal e (bw_answers b).
Proof.
  assert (D : forall b0 r0 b1,
    (if (cap <=? length bs)%nat
     then let '(r, _, taken, answers) := hand_over write_zero_all bs (bw_taken b0) (bw_answers b0) in (r, Bw (bw_kept b0) taken answers)
     else (WDone, Bw (bw_kept b0 ++ bs) (bw_taken b0) (bw_answers b0))) = (r0, b1) ->
    (forall x, In x (bw_answers b1) -> In x (bw_answers b0)) /\ forall e, r0 = WFail e -> refusal e (bw_answers b0)).
  { intros b0 r0 b1 H. destruct (cap <=? length bs)%nat.
    - destruct (hand_over _ _ _ _) as [[[r1 rem] tk] an] eqn:E. inversion H; subst. refine (hand_over_fails _ _ _ _ _ _ _ _ _ E). now left.
    - inversion H; subst. split; auto. discriminate. }
  unfold write_all. cbv zeta. destruct (length bs <? _)%nat; [intros [= <- <-]; split; auto; discriminate|].
  destruct (_ <? length bs)%nat; [|apply D].
  destruct (flush_buf b) as [rf bf] eqn:F. apply flush_fails in F. destruct F as [F1 F2]. destruct rf; intros H.
  - apply D in H. destruct H as [H1 H2]. split; auto. intros e E. eapply refusal_in; [exact F1|auto].
  - inversion H; subst. auto.
  - inversion H; subst. auto.
Qed.
Lemma pieces_fail cap ps : forall b r b', write_pieces cap ps b = (r, b') -> (forall x, In x (bw_answers b') -> In x (bw_answers b)) /\ forall e, r = WFail e -> refusal e (bw_answers b).
Proof.
  induction ps as [|p ps IH]; intros b r b' H; cbn [write_pieces] in H; [inversion H; subst; split; auto; discriminate|].
  destruct (write_all cap p b) as [r1 b1] eqn:E. apply write_all_fails in E. destruct E as [F1 F2].
  destruct r1; [|inversion H; subst; auto|inversion H; subst; auto].
  apply IH in H. destruct H as [H1 H2]. split; auto. intros e E. eapply refusal_in; [exact F1|auto].
Qed.
Definition to_blame (e : str) (answers : list answer) (body : option copied) : Prop := refusal e answers \/ cut_short e body.
Lemma copy_buffered_fails cap f cs : forall b r b', copy_buffered cap cs f b = (r, b') -> (forall x, In x (bw_answers b') -> In x (bw_answers b)) /\
  forall e, r = WFail e -> refusal e (bw_answers b) \/ f = Some e.
Proof.
  induction cs as [|c cs IH]; intros b r b' H; cbn [copy_buffered] in H;
    destruct (if (_ <? buf_capacity)%nat then flush_buf b else (WDone, b)) as [r1 b1] eqn:E;
    assert (W : (forall x, In x (bw_answers b1) -> In x (bw_answers b)) /\ forall e, r1 = WFail e -> refusal e (bw_answers b))
      by (destruct (_ <? buf_capacity)%nat; [now apply flush_fails in E|inversion E; subst; split; auto; discriminate]); destruct W as [W1 W2].
  - destruct r1; inversion H; subst; split; auto; try discriminate. destruct f; [|discriminate]. intros e [= <-]. now right.
  - destruct r1; [|inversion H; subst; split; auto..]; try discriminate.
    apply IH in H. cbn [bw_answers] in H. destruct H as [H1 H2]. split; auto. intros e Q. destruct (H2 e Q) as [R|R]; auto. left. eapply refusal_in; eauto.
Qed.
Lemma all_of_fails cap ps body b r b' : write_all_of cap ps body b = (r, b') -> (forall x, In x (bw_answers b') -> In x (bw_answers b)) /\
  forall e, r = WFail e -> to_blame e (bw_answers b) body.
Proof.
  unfold write_all_of, to_blame. destruct (write_pieces cap ps b) as [r1 b1] eqn:E. apply pieces_fail in E. destruct E as [E1 E2].
  destruct r1; [|intros [= <- <-]; split; auto..].
  destruct body as [[cs f]|]; [|intros [= <- <-]; split; auto; discriminate]. unfold copy. cbn [cp_chunks cp_failure].
  assert (K : forall e, refusal e (bw_answers b1) \/ f = Some e -> refusal e (bw_answers b) \/ cut_short e (Some (Copied cs f)))
    by (intros e [R|R]; [left; eapply refusal_in; eauto|right; exists cs; congruence]).
  destruct (buf_capacity <=? cap)%nat; intros H.
  - apply copy_buffered_fails in H. destruct H as [H1 H2]. split; auto.
  - destruct (write_pieces cap cs b1) as [r2 b2] eqn:E3. apply pieces_fail in E3. destruct E3 as [E3 E4].
    destruct r2; [destruct f|..]; inversion H; subst; split; auto; intros e0 [= <-]; auto.
Qed.
Theorem write_failure cap flushes answers ps body e bs : request_write cap flushes answers ps body = (Some (Some e), bs) ->
  match e with
  | WriteFailed t => refusal t answers \/ cut_short t body
  | WriteFlushFailed => flushes = false \/ exists t, refusal t answers
  | _ => False
  end.
Proof.
  unfold request_write. cbv zeta. destruct (write_all_of cap ps body (Bw [] [] answers)) as [r b] eqn:E. apply all_of_fails in E. destruct E as [E1 E2]. cbn [bw_answers] in *.
  destruct r; [|intros [= <- _]; eapply E2; reflexivity|discriminate].
  destruct (flush_buf b) as [rf bf] eqn:F. apply flush_fails in F. destruct F as [F1 F2]. destruct rf; [| |discriminate].
  - destruct flushes; [discriminate|]. intros [= <- _]. auto.
  - intros [= <- _]. right. exists e0. eapply refusal_in; [exact E1|auto].
Qed.
Theorem write_cut cap flushes answers ps body : ~ intact body -> forall bs, request_write cap flushes answers ps body <> (Some None, bs).
Proof. intros N bs H. apply write_prefix in H. destruct H as [_ H]. destruct (H eq_refl) as [_ I]. contradiction. Qed.

(** ** small requests *)
Lemma pieces_kept cap ps : forall kept taken answers, kept <> [] -> (length kept + length (List.concat ps) <= cap)%nat ->
  write_pieces cap ps (Bw kept taken answers) = (WDone, Bw (kept ++ List.concat ps) taken answers).
Proof.
  induction ps as [|p ps IH]; intros kept taken answers K L; cbn [List.concat write_pieces] in *; [now rewrite app_nil_r|].
  rewrite app_length in L. unfold write_all. cbn [bw_kept bw_taken bw_answers]. assert (0 < length kept)%nat by (destruct kept; [congruence|cbn; lia]).
  replace (cap - length kept <? length p)%nat with false by (symmetry; apply Nat.ltb_ge; lia).
  replace (cap <=? length p)%nat with false by (symmetry; apply Nat.leb_gt; lia).
  assert (K' : kept ++ p <> []) by (destruct kept; [congruence|discriminate]).
  destruct (length p <? cap - length kept)%nat; rewrite IH by (auto; rewrite app_length; lia); now rewrite app_assoc.
Qed.
Lemma first_kept p taken answers : (length p < buf_capacity)%nat -> write_all buf_capacity p (Bw [] taken answers) = (WDone, Bw p taken answers).
Proof.
  intros L. unfold write_all. cbn [bw_kept bw_taken bw_answers length app].
  now replace (length p <? buf_capacity - 0)%nat with true by (symmetry; apply Nat.ltb_lt; lia).
Qed.
(** nothing more is taken *)
Lemma pieces_stuck cap ps : forall kept taken, kept <> [] -> exists b, (write_pieces cap ps (Bw kept taken []) = (WBlocked, b) \/
  write_pieces cap ps (Bw kept taken []) = (WDone, b)) /\ bw_kept b <> [] /\ bw_answers b = [].
Proof.
  induction ps as [|p ps IH]; intros kept taken K; cbn [write_pieces]; [eexists; split; [right; reflexivity|auto]|].
  assert (K' : kept ++ p <> []) by (destruct kept; [congruence|discriminate]).
  unfold write_all, flush_buf. cbn [bw_kept bw_taken bw_answers].
  assert (H : hand_over write_zero_buf kept taken [] = (WBlocked, kept, taken, [])) by (destruct kept; [congruence|reflexivity]). rewrite H. clear H.
  destruct (length p <? cap - length kept)%nat; [now apply IH|]. destruct (cap - length kept <? length p)%nat; [eexists; split; [left; reflexivity|auto]|].
  destruct (cap <=? length p)%nat; [|now apply IH]. destruct p as [|x p]; [cbn; apply IH; auto|]. cbn [hand_over]. eexists. split; [left; reflexivity|auto].
Qed.
Lemma pieces_over cap ps n : forall kept taken, kept <> [] -> (length kept <= cap)%nat -> (cap < length kept + length (List.concat ps))%nat -> (length kept + length (List.concat ps) <= n)%nat ->
  exists b, (write_pieces cap ps (Bw kept taken [Took n]) = (WBlocked, b) \/
  write_pieces cap ps (Bw kept taken [Took n]) = (WDone, b)) /\ (write_pieces cap ps (Bw kept taken [Took n]) = (WDone, b) -> bw_kept b <> []) /\ bw_answers b = [].
Proof.
  induction ps as [|p ps IH]; intros kept taken K C L G; cbn [write_pieces List.concat] in *; [cbn in L; lia|]. rewrite app_length in *.
  assert (K' : kept ++ p <> []) by (destruct kept; [congruence|discriminate]). assert (0 < length kept)%nat by (destruct kept; [congruence|cbn; lia]).
  unfold write_all, flush_buf. cbn [bw_kept bw_taken bw_answers]. destruct (Nat.ltb_spec (length p) (cap - length kept)) as [X|X]; [apply IH; auto; rewrite app_length; lia|].
  destruct (Nat.ltb_spec (cap - length kept) (length p)) as [Y|Y].
  - assert (H0 : hand_over write_zero_buf kept taken [Took n] = (WDone, [], taken ++ kept, [])).
    { destruct kept as [|x kept]; [congruence|]. cbn [hand_over]. destruct n as [|n]; [cbn in G; lia|]. rewrite skipn_all2, firstn_all2 by lia. reflexivity. }
    rewrite H0. clear H0. cbn [bw_kept bw_taken bw_answers app]. assert (P : p <> []) by (intros ->; cbn in Y; lia). destruct (cap <=? length p)%nat.
    + destruct p as [|x p]; [congruence|]. cbn [hand_over]. eexists. split; [left; reflexivity|]. split; [discriminate|reflexivity].
    + destruct (pieces_stuck cap ps p (taken ++ kept) P) as (b & A & B & D). exists b. auto.
  - destruct (Nat.leb_spec cap (length p)); [lia|]. apply IH; auto; rewrite app_length; lia.
Qed.
Theorem write_once p ps n : p <> [] -> N.of_nat (length p) < 8192 -> (length (List.concat (p :: ps)) <= n)%nat ->
  (N.of_nat (length (List.concat (p :: ps))) <= 8192 -> request_write buf_capacity true [Took n] (p :: ps) None = (Some None, List.concat (p :: ps))) /\
  (8192 < N.of_nat (length (List.concat (p :: ps))) -> exists bs, request_write buf_capacity true [Took n] (p :: ps) None = (None, bs)).
Proof.
  intros P L G. unfold request_write, write_all_of. cbv zeta. cbn [write_pieces]. rewrite first_kept by (unfold buf_capacity; lia).
  cbn [List.concat] in *. rewrite app_length in *. split; intros B.
  - rewrite pieces_kept by (auto; unfold buf_capacity; lia). unfold flush_buf. cbn [bw_kept bw_taken bw_answers]. rewrite <- app_length in G.
    destruct (p ++ List.concat ps) as [|c r] eqn:E; [destruct p; [congruence|discriminate]|]. cbn [hand_over]. destruct n as [|n]; [cbn in G; lia|].
    rewrite skipn_all2 by exact G. cbn [hand_over app]. now rewrite firstn_all2 by exact G.
  - destruct (pieces_over buf_capacity ps n p [] P) as (b & [A|A] & K & D); try (unfold buf_capacity; lia); rewrite A; [eauto|].
    specialize (K A). unfold flush_buf. rewrite D. destruct b as [[|x k] t a]; [cbn in K; congruence|]. cbn. eauto.
Qed.
Theorem write_failure_complete : exists flushes answers ps e, ps <> [] /\
  request_write buf_capacity flushes answers ps None = (Some (Some e), List.concat ps).
Proof.
  exists true, [Failed (lit "timed out"); Took 5], [lit "hello"], WriteFlushFailed. split; [discriminate|].
  unfold request_write, write_all_of, write_pieces, write_all, buf_capacity. cbn [bw_kept length].
  destruct (Nat.ltb_spec (length (lit "hello")) (N.to_nat 8192 - 0)) as [H|H]; [reflexivity|]. exfalso. assert (length (lit "hello") = 5)%nat by reflexivity. lia.
Qed.
Theorem write_copy_apart p ps c cs f n : p <> [] -> N.of_nat (length p) < 8192 -> N.of_nat (length (List.concat (p :: ps))) <= 8192 ->
  (length (List.concat (p :: ps)) <= n)%nat -> c <> [] ->
  request_write buf_capacity true [Took n] (p :: ps) (Some (Copied (c :: cs) f)) = (None, List.concat (p :: ps)).
Proof.
  intros P F L G N. unfold request_write, write_all_of, copy. cbv zeta. cbn [write_pieces List.concat] in *. rewrite first_kept by (unfold buf_capacity; lia).
  rewrite pieces_kept by (auto; rewrite app_length in L; unfold buf_capacity; lia).
  rewrite Nat.leb_refl. cbn [cp_chunks cp_failure copy_buffered bw_kept].
  destruct (p ++ List.concat ps) as [|x r] eqn:E; [destruct p; [congruence|discriminate]|].
  replace (buf_capacity - length (x :: r) <? buf_capacity)%nat with true by (symmetry; apply Nat.ltb_lt; unfold buf_capacity; cbn [length]; lia).
  unfold flush_buf at 1. cbn [bw_kept bw_taken bw_answers].
  cbn [hand_over]. destruct n as [|n]; [cbn in G; lia|].
  rewrite skipn_all2 by exact G. cbn [hand_over app]. rewrite firstn_all2 by exact G. cbn [bw_kept bw_taken bw_answers app].
  assert (B : flush_buf (Bw c (x :: r) []) = (WBlocked, Bw c (x :: r) [])) by (destruct c; [congruence|reflexivity]).
  assert (T : (buf_capacity - length c <? buf_capacity)%nat = true) by (apply Nat.ltb_lt; unfold buf_capacity; destruct c; [congruence|cbn [length]; lia]).
  destruct cs; cbn [copy_buffered bw_kept bw_taken bw_answers]; rewrite T, B; reflexivity.
Qed.

(** ** one exchange *)
Lemma utf8_concat l : List.concat (map utf8 l) = utf8 (List.concat l).
Proof. induction l as [|x l IH]; [reflexivity|]. cbn [map List.concat]. rewrite IH. symmetry. apply flat_map_app. Qed.
Lemma pieces_bytes encode r c : whole (request_pieces r c) (request_copied encode c) = request_bytes (fun ps => List.concat (cp_chunks (encode ps))) r c.
Proof.
  unfold whole, request_pieces, request_bytes, request_head. rewrite concat_app, utf8_concat, <- app_assoc. f_equal.
  - f_equal. cbn [app List.concat]. rewrite concat_app. unfold crlf. cbn [List.concat]. rewrite app_nil_r.
    assert (Q : List.concat (flat_map (fun h : header => [fst h; [58; 32]; snd h; [13; 10]]) (rq_headers r)) = flat_map (fun hd : header => fst hd ++ [58; 32] ++ snd hd ++ [13; 10]) (rq_headers r)).
    { induction (rq_headers r) as [|h hs IH]; [reflexivity|]. cbn [flat_map]. rewrite concat_app, IH. cbn [List.concat]. rewrite app_nil_r. reflexivity. }
    exact (f_equal (fun z : str => method_text (rq_method r) ++ [32] ++ u_path (rq_url r) ++ [32] ++ version_text (rq_version r) ++ [13; 10] ++ z ++ [13; 10]) Q).
  - destruct c; cbn; rewrite ?app_nil_r; reflexivity.
Qed.
Lemma method_starts m : utf8 (method_text m) <> [] /\ N.of_nat (length (utf8 (method_text m))) < 8192.
Proof. destruct m; (split; [discriminate|cbn; lia]). Qed.
Theorem request_once encode r c n : (forall ps, c <> CMultipart ps) -> let bs := request_bytes encode r c in (length bs <= n)%nat ->
  (N.of_nat (length bs) <= 8192 -> request_write buf_capacity true [Took n] (request_pieces r c) None = (Some None, bs)) /\
  (8192 < N.of_nat (length bs) -> exists taken, request_write buf_capacity true [Took n] (request_pieces r c) None = (None, taken)).
Proof.
  intros C bs. assert (E : List.concat (request_pieces r c) = bs).
  { pose proof (pieces_bytes (fun ps => Copied [encode ps] None) r c) as P. unfold whole in P. unfold bs.
    destruct c as [|b|ps]; cbn [request_copied] in P; [..|destruct (C ps eq_refl)]; rewrite app_nil_r in P; exact P. }
  rewrite <- E. unfold request_pieces. cbn [map app]. destruct (method_starts (rq_method r)) as [M1 M2]. intros G. apply write_once; auto.
Qed.
Theorem request_apart r ps c cs f n : let head := utf8 (request_head r) in N.of_nat (length head) <= 8192 -> (length head <= n)%nat -> c <> [] ->
  request_write buf_capacity true [Took n] (request_pieces r (CMultipart ps)) (Some (Copied (c :: cs) f)) = (None, head).
Proof.
  intros head. assert (E : List.concat (request_pieces r (CMultipart ps)) = head).
  { pose proof (pieces_bytes (fun _ => Copied [] None) r CEmpty) as P. unfold whole, request_bytes in P. cbn [request_copied content_bytes] in P. rewrite !app_nil_r in P. exact P. }
  rewrite <- E. unfold request_pieces. cbn [map app]. destruct (method_starts (rq_method r)) as [M1 M2]. intros G. apply write_copy_apart; auto.
Qed.
Theorem exchange_seen n encode r c x l : happens n encode r c x l ->
  (l = [] /\ exists e, x_connect x = inr e /\ unconnected n (rq_url r) e) \/
  exists a addrs bs, l = [Opened (transport_for (rq_url r)) a; Received bs] /\
    nw_resolve n (u_host (rq_url r)) (u_port (rq_url r)) = Some addrs /\ In a addrs /\ nw_accepts n a = true /\
    starts_with bs (request_bytes (fun ps => List.concat (cp_chunks (encode ps))) r c) /\
    (x_write x = None -> bs = request_bytes (fun ps => List.concat (cp_chunks (encode ps))) r c).
Proof.
  intros [e C E|t a answers flushes w bs d C E W X].
  - left. split; auto. exists e. split; auto. exact (connect_outcome _ _ _ C).
  - right. apply connect_outcome in C. destruct C as [-> (addrs & R & I & A)]. exists a, addrs, bs. apply write_prefix in W. destruct W as [W1 W2].
    rewrite pieces_bytes in *. split; auto. split; auto. split; auto. split; auto. split; auto. intros Q. apply W2. congruence.
Qed.
Theorem answered_received n encode prepare m x l rq rs t er : happens n encode (fst (request_from prepare m)) (snd (request_from prepare m)) x l ->
  client_send prepare x m = Ok (rq, rs, t, er) -> rs <> response_default ->
  exists a addrs, l = [Opened (transport_for (rq_url rq)) a; Received (request_bytes (fun ps => List.concat (cp_chunks (encode ps))) rq (snd (request_from prepare m)))] /\
    nw_resolve n (u_host (rq_url rq)) (u_port (rq_url rq)) = Some addrs /\ In a addrs /\ nw_accepts n a = true.
Proof.
  intros H C T. apply exchange_seen in H. unfold client_send in C. destruct (request_from prepare m) as [rq' c]. cbn [fst snd] in *. cbv zeta in C.
  assert (X : rq' = rq /\ x_write x = None /\ exists d, x_connect x = inl d).
  { destruct (x_connect x) as [d|e] eqn:E; [|inversion C; congruence].
    destruct (dur_sub _ d); [|discriminate]. destruct (x_write x) as [e|] eqn:W; [inversion C; congruence|].
    split; [|eauto]. destruct (response_from (x_reply x)); [|inversion C; auto].
    repeat (match type of C with context [match dur_sub ?a ?b with _ => _ end] => destruct (dur_sub a b) end; try discriminate). inversion C; auto. }
  destruct X as (-> & W & d & E). destruct H as [(_ & e & E' & _)|(a & addrs & bs & -> & R & I & A & _ & P)]; [congruence|].
  rewrite (P W). eauto 7.
Qed.
