(** Connection attempts with a clock *)
From Verif Require Import SpecRace ConnectProofs.
From Coq Require Import Permutation Lia.
Open Scope N_scope.

Section Race.
Variables (timeout : option N) (net : addr -> N -> reply) (addrs : list addr).
Notation ans := (answer timeout net).
Notation acc := (accepted timeout net).
Notation ref := (refused timeout net).

Lemma ans_acc x t : ans x = Some (t, true) <-> acc x t.
Proof.
  unfold answer, attempt, accepted. destruct (net (fst x) (snd x)) as [[d r]|]; destruct timeout as [l|].
  - destruct (N.ltb_spec d l); split; intros H0.
    + injection H0 as <- ->. eauto.
    + destruct H0 as (d' & E & -> & _). injection E as <- ->. reflexivity.
    + discriminate.
    + destruct H0 as (d' & E & -> & L). injection E as <- ->. lia.
  - split; intros H0; [injection H0 as <- ->; eauto|]. destruct H0 as (d' & E & -> & _). injection E as <- ->. reflexivity.
  - split; intros H0; [discriminate|]. destruct H0 as (d' & E & _). discriminate.
  - split; intros H0; [discriminate|]. destruct H0 as (d' & E & _). discriminate.
Qed.
Lemma ans_ref x t : ans x = Some (t, false) <-> ref x t.
Proof.
  unfold answer, attempt, refused. destruct (net (fst x) (snd x)) as [[d r]|]; destruct timeout as [l|].
  - destruct (N.ltb_spec d l); split; intros H0.
    + injection H0 as <- ->. left. eauto.
    + destruct H0 as [(d' & E & -> & _)|(l' & E & -> & L)]; [injection E as <- ->; reflexivity|injection E as <-; lia].
    + injection H0 as <-. right. eauto.
    + destruct H0 as [(d' & E & -> & L)|(l' & E & -> & L)]; [injection E as <- ->; lia|injection E as <-; reflexivity].
  - split; intros H0; [injection H0 as <- ->; left; eauto|]. destruct H0 as [(d' & E & -> & _)|(l' & E & _)]; [injection E as <- ->; reflexivity|discriminate].
  - split; intros H0; [injection H0 as <-; right; eauto|]. destruct H0 as [(d' & E & _)|(l' & E & -> & _)]; [discriminate|injection E as <-; reflexivity].
  - split; intros H0; [discriminate|]. destruct H0 as [(d' & E & _)|(l' & E & _)]; discriminate.
Qed.
Lemma ans_none x : ans x = None <-> silent timeout net x.
Proof.
  unfold answer, attempt, silent. destruct (net (fst x) (snd x)) as [[d r]|]; destruct timeout as [l|]; try destruct (d <? l); split; try discriminate; try (intros [? ?]; discriminate); auto.
Qed.
Lemma ans_after x t r : ans x = Some (t, r) -> snd x <= t.
Proof. unfold answer. destruct (attempt _ _) as [[d b]|]; [|discriminate]. intros E. injection E as <- _. lia. Qed.

(** ** the invariant *)
Definition held (now : N) (fl : list try) (e : option http_err) (tr : list try) : Prop :=
  (exists gone, Permutation (gone ++ fl) tr /\ Forall (fun x => exists t, t <= now /\ ans x = Some (t, false)) gone /\
    e = match gone with [] => None | _ => Some TcpConnectFailed end) /\
  (forall x t r, In x fl -> ans x = Some (t, r) -> now <= t) /\
  (fl = [] -> (tr = [] /\ now = 0) \/ exists x, In x tr /\ ans x = Some (now, false)) /\
  (forall x, In x tr -> snd x <= now).
Definition linked (now : N) (tr : list try) : Prop :=
  (tr = [] /\ now = 0) \/ exists l a s, tr = l ++ [(a, s)] /\ s <= now <= s + delay /\ (now = s + delay \/ exists x, In x tr /\ ans x = Some (now, false)).
Definition inv (r : contest) : Prop :=
  match r with
  | Alone a => addrs = [a]
  | Races now todo fl e tr => map fst tr ++ todo = attempt_order addrs /\ paced timeout net tr /\ now <= N.of_nat (length tr) * delay /\ linked now tr /\ held now fl e tr
  | Drains now fl e tr => map fst tr = attempt_order addrs /\ paced timeout net tr /\ held now fl e tr
  | Over now r tr => paced timeout net tr /\ (forall x, In x tr -> snd x <= now) /\ (exists rest, map fst tr ++ rest = attempt_order addrs) /\
      match r with
      | inl a => (exists x, In x tr /\ fst x = a /\ ans x = Some (now, true)) /\ (forall y t, In y tr -> ans y = Some (t, true) -> now <= t) /\
          (now <= N.of_nat (length tr) * delay \/ map fst tr = attempt_order addrs)
      | inr e => map fst tr = attempt_order addrs /\ Forall (fun x => exists t, t <= now /\ ans x = Some (t, false)) tr /\
          (tr = [] -> e = NoConnectionAvailable /\ now = 0) /\ (tr <> [] -> e = TcpConnectFailed /\ exists x, In x tr /\ ans x = Some (now, false))
      end
  end.

Lemma snoc_nth {A} (l : list A) x k y : nth_error (l ++ [x]) k = Some y -> (k < length l)%nat /\ nth_error l k = Some y \/ k = length l /\ y = x.
Proof.
  intros H. destruct (Nat.lt_ge_cases k (length l)) as [L|L]; [rewrite nth_error_app1 in H by auto; auto|].
  rewrite nth_error_app2 in H by auto. destruct (k - length l)%nat as [|n] eqn:E; cbn in H; [injection H as <-; right; split; [lia|auto]|destruct n; discriminate].
Qed.
Lemma paced_snoc tr now a : paced timeout net tr -> linked now tr -> paced timeout net (tr ++ [(a, now)]).
Proof.
  intros [P0 P1] L. split.
  - intros b s H. apply snoc_nth in H. destruct H as [[_ H]|[E H]]; [eauto|]. injection H as -> ->. destruct L as [[-> ->]|(l & a0 & s0 & -> & _)]; auto. rewrite app_length in E. cbn in E. lia.
  - intros k b s c s' H H'. apply snoc_nth in H'. destruct H' as [[K H']|[E H']].
    + apply snoc_nth in H. destruct H as [[_ H]|[E _]]; [|lia]. destruct (P1 _ _ _ _ _ H H') as [A B]. split; auto. destruct B as [B|(x & X & B)]; auto. right. exists x. split; auto.
      rewrite firstn_app. apply in_app_iff. now left.
    + injection H' as -> ->. apply snoc_nth in H. destruct H as [[K H]|[E' _]]; [|lia]. destruct L as [[-> ->]|(l & a0 & s0 & -> & B & C)]; [cbn in K; lia|].
      rewrite app_length in E. cbn in E. assert (k = length l) by lia. subst k. rewrite nth_error_app2, Nat.sub_diag in H by auto. injection H as -> ->. split; auto.
      destruct C as [C|(x & X & C)]; auto. right. exists x. split; [|now apply ans_ref].
      rewrite firstn_app, firstn_all2 by (rewrite app_length; cbn; lia). apply in_app_iff. now left.
Qed.
Lemma single_order a : attempt_order [a] = [a].
Proof. unfold attempt_order. cbn. destruct (a_v6 a); reflexivity. Qed.
Lemma inv_start : inv (race_start addrs).
Proof.
  assert (R : inv (Races 0 (attempt_order addrs) [] None [])).
  { repeat split; auto; try (intros [|?]; discriminate); try (intros ? ? ?; discriminate); try lia; try easy; try (left; auto; fail). exists []. repeat split; auto. }
  assert (C : forall l, (exists a, l = [a] /\ race_start l = Alone a) \/ race_start l = Races 0 (attempt_order l) [] None []) by (intros [|a [|b l]]; cbn; eauto).
  destruct (C addrs) as [(a & E & ->)| ->]; auto.
Qed.
Lemma race_delay_is : race_delay = delay.
Proof. reflexivity. Qed.
Lemma held_in now fl e tr x t : held now fl e tr -> In x tr -> ans x = Some (t, true) -> In x fl.
Proof.
  intros [(gone & P & G & _) _] I A. apply (Permutation_in x (Permutation_sym P)) in I. apply in_app_iff in I. destruct I as [I|I]; auto.
  rewrite Forall_forall in G. destruct (G _ I) as (t' & _ & E). congruence.
Qed.
Lemma held_err now fl e tr l1 x l2 t : held now fl e tr -> fl = l1 ++ x :: l2 -> next_answer timeout net fl x t false ->
  held (N.max now t) (l1 ++ l2) (keep e TcpConnectFailed) tr /\ N.max now t = t /\ In x tr.
Proof.
  intros ((gone & P & G & E) & A & _ & B) -> [N1 N2].
  assert (L : now <= t) by (eapply A; [|exact N1]; apply in_app_iff; right; now left). rewrite N.max_r by auto.
  assert (I : In x tr) by (eapply Permutation_in; [exact P|]; rewrite !in_app_iff; cbn; auto).
  split; [|auto]. split; [|split; [|split]].
  - exists (gone ++ [x]). split; [|split].
    + rewrite <- P, <- app_assoc. apply Permutation_app_head. cbn. apply Permutation_middle.
    + apply Forall_app. split; [eapply Forall_impl; [|exact G]; intros y (u & U & V); exists u; split; [lia|auto]|]. constructor; [exists t; split; [lia|auto]|constructor].
    + rewrite E. destruct gone; reflexivity.
  - intros y u r Y. apply N2. apply in_app_iff in Y. apply in_app_iff. cbn. tauto.
  - intros _. right. eauto.
  - intros y Y. specialize (B _ Y). lia.
Qed.
Lemma held_snoc now fl e tr a : held now fl e tr -> 
  (exists gone, Permutation (gone ++ (fl ++ [(a, now)])) (tr ++ [(a, now)]) /\ Forall (fun x => exists t, t <= now /\ ans x = Some (t, false)) gone /\
    e = match gone with [] => None | _ => Some TcpConnectFailed end) /\
  (forall x t r, In x (fl ++ [(a, now)]) -> ans x = Some (t, r) -> now <= t) /\
  (fl ++ [(a, now)] = [] -> (tr ++ [(a, now)] = [] /\ now = 0) \/ exists x, In x (tr ++ [(a, now)]) /\ ans x = Some (now, false)) /\
  (forall x, In x (tr ++ [(a, now)]) -> snd x <= now).
Proof.
  intros ((gone & P & G & E) & A & _ & B). split; [|split; [|split]].
  - exists gone. split; auto. rewrite app_assoc. now apply Permutation_app_tail.
  - intros x t r I X. apply in_app_iff in I. destruct I as [I|[<-|[]]]; [eauto|]. now apply ans_after in X.
  - intros X. symmetry in X. now apply app_cons_not_nil in X.
  - intros x I. apply in_app_iff in I. destruct I as [I|[<-|[]]]; [eauto|]. cbn. lia.
Qed.
Lemma inv_step r r' : race_step timeout net r r' -> inv r -> inv r'.
Proof.
  intros S I. destruct S as [a t r A|now a todo fl e tr H|now a todo fl e tr l1 x l2 t F X L|now a todo fl e tr l1 x l2 t F X L|now fl e tr|now e tr l1 x l2 t X|now e tr l1 x l2 t X|now e tr]; cbn [inv] in *.
  - rewrite I, single_order. split; [|split; [|split]].
    + split; [intros b s H; injection H as _ <-; reflexivity|]. intros k b s c s' _ H. destruct k; discriminate.
    + intros y [<-|[]]. cbn. lia.
    + exists []. reflexivity.
    + destruct r.
      * split; [exists (a, 0); cbn; auto|]. split; [|right; reflexivity]. intros y u [<-|[]] U. rewrite A in U. injection U as <-. lia.
      * split; auto. split; [constructor; [exists t; split; [lia|auto]|constructor]|]. split; [discriminate|]. intros _. split; auto. exists (a, 0). cbn. auto.
  - destruct I as (O & P & B & L & Hd). split; [rewrite map_app, <- app_assoc; exact O|]. split; [now apply paced_snoc|]. rewrite app_length. cbn [length].
    split; [rewrite race_delay_is; unfold delay in *; lia|]. split.
    + right. exists tr, a, now. rewrite race_delay_is. split; auto. split; [unfold delay; lia|auto].
    + apply (held_snoc _ _ _ _ a) in Hd. destruct Hd as ((gone & P1 & G & E) & A & _ & C). split; [|split; [|split]].
      * exists gone. split; auto. split; auto. eapply Forall_impl; [|exact G]. intros y (u & U & V). exists u. split; [lia|auto].
      * intros y u r Y V. eapply H; eauto.
      * intros Z. symmetry in Z. now apply app_cons_not_nil in Z.
      * intros y Y. specialize (C _ Y). lia.
  - destruct I as (O & P & B & Lk & Hd). pose proof (held_snoc _ _ _ _ a Hd) as Hs. assert (H1 : held now (fl ++ [(a, now)]) e (tr ++ [(a, now)])) by exact Hs. clear Hs.
    destruct X as [X1 X2]. assert (I : In x (fl ++ [(a, now)])) by (rewrite F; apply in_app_iff; right; now left).
    assert (N1 : now <= t) by (destruct H1 as (_ & A & _); eauto). rewrite N.max_r by auto.
    split; [now apply paced_snoc|]. split; [|split; [|split; [|split]]].
    + intros y Y. destruct H1 as (_ & _ & _ & C). specialize (C _ Y). lia.
    + exists todo. now rewrite map_app, <- app_assoc.
    + exists x. split; auto. destruct H1 as ((gone & P1 & _) & _). eapply Permutation_in; [exact P1|]. apply in_app_iff. auto.
    + intros y u Y U. eapply X2; [|exact U]. eapply held_in; eauto.
    + left. rewrite app_length. cbn [length]. rewrite race_delay_is in L. unfold delay in *. lia.
  - destruct I as (O & P & B & Lk & Hd). pose proof (held_snoc _ _ _ _ a Hd) as Hs. assert (H1 : held now (fl ++ [(a, now)]) e (tr ++ [(a, now)])) by exact Hs. clear Hs.
    destruct (held_err _ _ _ _ l1 x l2 t H1 F X) as (H2 & M & I). rewrite M in *. assert (N1 : now <= t) by lia.
    split; [rewrite map_app, <- app_assoc; exact O|]. split; [now apply paced_snoc|]. rewrite app_length. cbn [length].
    split; [rewrite race_delay_is in L; unfold delay in *; lia|]. split; auto.
    right. exists tr, a, now. split; auto. rewrite race_delay_is in L. split; [lia|]. right. exists x. split; auto. apply X.
  - destruct I as (O & P & _ & _ & Hd). rewrite app_nil_r in O. auto.
  - destruct I as (O & P & Hd). destruct X as [X1 X2]. assert (I : In x (l1 ++ x :: l2)) by (apply in_app_iff; right; now left).
    assert (N1 : now <= t) by (destruct Hd as (_ & A & _); eauto). rewrite N.max_r by auto. split; auto. split; [|split; [|split; [|split]]].
    + intros y Y. destruct Hd as (_ & _ & _ & C). specialize (C _ Y). lia.
    + exists []. now rewrite app_nil_r.
    + exists x. split; auto. destruct Hd as ((gone & P1 & _) & _). eapply Permutation_in; [exact P1|]. apply in_app_iff. auto.
    + intros y u Y U. eapply X2; [|exact U]. eapply held_in; eauto.
    + auto.
  - destruct I as (O & P & Hd). destruct (held_err _ _ _ _ l1 x l2 t Hd eq_refl X) as (H2 & M & I). auto.
  - destruct I as (O & P & ((gone & P1 & G & E) & A & Z & C)). rewrite app_nil_r in P1. split; auto. split; auto. split; [exists []; now rewrite app_nil_r|]. split; auto.
    split; [eapply Permutation_Forall; eauto|]. split.
    + intros ->. apply Permutation_sym, Permutation_nil in P1. subst gone. subst e. split; auto. destruct (Z eq_refl) as [[_ ?]|(x & [] & _)]; auto.
    + intros T. destruct gone as [|g gone]; [apply Permutation_nil in P1; contradiction|]. subst e. split; auto. destruct (Z eq_refl) as [[? _]|?]; [contradiction|auto].
Qed.
Lemma inv_racing r : racing timeout net addrs r -> inv r.
Proof. induction 1; [apply inv_start|eapply inv_step; eauto]. Qed.

(** ** going on *)
Lemma earliest (fl : list try) : (forall x, In x fl -> ans x = None) \/ exists l1 x l2 t r, fl = l1 ++ x :: l2 /\ next_answer timeout net fl x t r.
Proof.
  induction fl as [|y fl IH]; [left; intros x []|]. destruct (ans y) as [[u b]|] eqn:Y.
  - right. destruct IH as [IH|(l1 & x & l2 & t & r & E & X1 & X2)].
    + exists [], y, fl, u, b. split; auto. split; auto. intros z t' r' [<-|Z] T; [rewrite Y in T; injection T as <- _; lia|]. rewrite (IH _ Z) in T. discriminate.
    + destruct (N.le_gt_cases u t) as [L|L].
      * exists [], y, fl, u, b. split; auto. split; auto. intros z t' r' [<-|Z] T; [rewrite Y in T; injection T as <- _; lia|]. specialize (X2 _ _ _ Z T). lia.
      * exists (y :: l1), x, l2, t, r. split; [cbn; now f_equal|]. split; auto. intros z t' r' [<-|Z] T; [rewrite Y in T; injection T as <- _; lia|eauto].
  - destruct IH as [IH|(l1 & x & l2 & t & r & E & X1 & X2)].
    + left. intros x [<-|X]; auto.
    + right. exists (y :: l1), x, l2, t, r. split; [cbn; now f_equal|]. split; auto. intros z t' r' [<-|Z] T; [congruence|eauto].
Qed.
Lemma onward r : racing timeout net addrs r -> (exists r', race_step timeout net r r') \/ (exists t x tr, r = Over t x tr) \/
  map fst (attempts r) = attempt_order addrs /\ (forall x, In x (attempts r) -> silent timeout net x \/ exists t, refused timeout net x t) /\ exists x, In x (attempts r) /\ silent timeout net x.
Proof.
  intros R. apply inv_racing in R. destruct r as [a|now todo fl e tr|now fl e tr|t x tr]; cbn [inv attempts] in *.
  - rewrite R, single_order. destruct (ans (a, 0)) as [[t b]|] eqn:A.
    + left. eexists. eapply rs_alone; eauto.
    + right. right. apply ans_none in A. cbn. split; auto. split; eauto. intros x [<-|[]]. auto.
  - left. destruct todo as [|a todo]; [eexists; apply rs_drain|]. destruct (earliest (fl ++ [(a, now)])) as [H|(l1 & x & l2 & t & b & E & X)].
    + eexists. apply rs_timeout. intros y t r Y T. rewrite (H _ Y) in T. discriminate.
    + destruct (N.le_gt_cases t (now + race_delay)) as [L|L].
      * destruct b; eexists; [eapply rs_ok; eauto|eapply rs_err; eauto].
      * eexists. apply rs_timeout. intros y t' r Y T. destruct X as [_ X]. specialize (X _ _ _ Y T). lia.
  - destruct fl as [|y fl'] eqn:I_.
    + left. eexists. apply rs_give_up.
    + destruct (earliest (y :: fl')) as [H|(l1 & x & l2 & t & b & E & X)].
      * right. right. destruct R as (O & _ & ((gone & P & G & _) & _)). split; auto. split.
        -- intros x X. apply (Permutation_in x (Permutation_sym P)) in X. apply in_app_iff in X. destruct X as [X|X].
           ++ rewrite Forall_forall in G. destruct (G _ X) as (t & _ & T). right. exists t. now apply ans_ref.
           ++ left. apply ans_none. auto.
        -- exists y. split; [|apply ans_none, H; now left]. eapply Permutation_in; [exact P|]. rewrite in_app_iff. cbn. auto.
      * left. rewrite E in X |- *. destruct b; eexists; [eapply rs_drain_ok; eauto|eapply rs_drain_err; eauto].
  - right. left. eauto.
Qed.
Definition size (r : contest) : nat :=
  match r with Alone _ => 1 | Races _ todo fl _ _ => 2 * length todo + length fl + 2 | Drains _ fl _ _ => length fl + 1 | Over _ _ _ => 0 end.
Lemma size_step r r' : race_step timeout net r r' -> (size r' < size r)%nat.
Proof.
  destruct 1 as [a t r A|now a todo fl e tr H|now a todo fl e tr l1 x l2 t F X L|now a todo fl e tr l1 x l2 t F X L|now fl e tr|now e tr l1 x l2 t X|now e tr l1 x l2 t X|now e tr];
    cbn [size length]; try apply (f_equal (@length (addr * N))) in F; rewrite ?app_length in *; cbn [length] in *; lia.
Qed.
End Race.

(** ** what users can rely on *)
Theorem race_pace timeout net addrs r : racing timeout net addrs r ->
  (exists rest, map fst (attempts r) ++ rest = attempt_order addrs) /\ paced timeout net (attempts r).
Proof.
  intros R. apply inv_racing in R. destruct r as [a|now todo fl e tr|now fl e tr|t x tr]; cbn [inv attempts] in *.
  - subst addrs. rewrite single_order. split; [exists []; reflexivity|]. split; [intros b s H; injection H as _ <-; reflexivity|]. intros [|k] b s c s' _ H; [discriminate|destruct k; discriminate].
  - destruct R as (O & P & _). eauto.
  - destruct R as (O & P & _). split; auto. exists []. now rewrite app_nil_r.
  - destruct R as (P & _ & O & _). auto.
Qed.
Theorem paced_by timeout net tr k a s : paced timeout net tr -> nth_error tr k = Some (a, s) -> s <= N.of_nat k * delay.
Proof.
  intros [P0 P1]. revert a s. induction k as [|k IH]; intros a s H; [rewrite (P0 _ _ H); lia|].
  destruct (nth_error tr k) as [[b u]|] eqn:E; [|apply nth_error_None in E; assert (nth_error tr (S k) <> None) by congruence; apply nth_error_Some in H0; lia].
  destruct (P1 _ _ _ _ _ E H) as [B _]. specialize (IH _ _ eq_refl). unfold delay in *. lia.
Qed.
Theorem race_connected timeout net addrs t a tr : racing timeout net addrs (Over t (inl a) tr) ->
  (exists s, In (a, s) tr /\ accepted timeout net (a, s) t) /\ (forall y u, In y tr -> accepted timeout net y u -> t <= u) /\ (forall y, In y tr -> snd y <= t).
Proof.
  intros R. apply inv_racing in R. destruct R as (_ & B & _ & ((b & s) & I & <- & A) & M & _). split; [exists s; split; [exact I|now apply ans_acc in A]|].
  split; auto. intros y u Y U. apply ans_acc in U. eauto.
Qed.
Theorem race_failed timeout net addrs t e tr : racing timeout net addrs (Over t (inr e) tr) ->
  map fst tr = attempt_order addrs /\ (forall y, In y tr -> exists u, u <= t /\ refused timeout net y u) /\
  (addrs = [] -> e = NoConnectionAvailable /\ t = 0) /\ (addrs <> [] -> e = TcpConnectFailed /\ exists y, In y tr /\ refused timeout net y t).
Proof.
  intros R. apply inv_racing in R. destruct R as (_ & _ & _ & O & F & A & B).
  assert (L : length tr = length addrs).
  { rewrite <- (map_length fst), O. apply Permutation_length, attempts_order. }
  split; auto. split; [|split].
  - intros y Y. rewrite Forall_forall in F. destruct (F _ Y) as (u & U & V). exists u. split; auto. now apply ans_ref.
  - intros ->. apply A. destruct tr; [auto|discriminate].
  - intros N. destruct B as (E & y & Y & V); [intros ->; destruct addrs; [auto|discriminate]|]. split; auto. exists y. split; auto. now apply ans_ref.
Qed.
Theorem race_deadline timeout net addrs t r tr k a d : racing timeout net addrs (Over t r tr) -> nth_error (attempt_order addrs) k = Some a ->
  (forall s, exists u, accepted timeout net (a, s) u /\ u <= s + d) -> (exists b, r = inl b) /\ t <= N.of_nat k * delay + d.
Proof.
  intros R K G. pose proof (race_pace _ _ _ _ R) as [(rest & O) P]. cbn [attempts] in *. apply inv_racing in R. cbn [inv] in R. destruct R as (_ & B & _ & R).
  destruct (Nat.lt_ge_cases k (length tr)) as [L|L].
  - destruct (nth_error tr k) as [[b s]|] eqn:E; [|apply nth_error_None in E; lia]. assert (b = a).
    { rewrite <- O, nth_error_app1 in K by now rewrite map_length. rewrite nth_error_map, E in K. now injection K. }
    subst b. destruct (G s) as (u & A & U). apply ans_acc in A. assert (I : In (a, s) tr) by (eapply nth_error_In; eauto). pose proof (paced_by _ _ _ _ _ _ P E) as S.
    destruct r as [b|e].
    + split; eauto. destruct R as (_ & M & _). specialize (M _ _ I A). lia.
    + destruct R as (_ & F & _). rewrite Forall_forall in F. destruct (F _ I) as (v & _ & V). congruence.
  - assert (N : map fst tr <> attempt_order addrs). { intros E. rewrite <- E in K. assert (H : nth_error (map fst tr) k <> None) by congruence. apply nth_error_Some in H. rewrite map_length in H. lia. }
    destruct r as [b|e]; [|destruct R as (E & _); contradiction]. split; eauto. destruct R as (_ & _ & [H|H]); [|contradiction]. unfold delay in *. nia.
Qed.
Theorem race_first timeout net addrs r a rest d : racing timeout net addrs r -> attempt_order addrs = a :: rest -> accepted timeout net (a, 0) d -> d < delay ->
  (attempts r = [] \/ attempts r = [(a, 0)]) /\ (forall t x tr, r = Over t x tr -> x = inl a /\ t = d).
Proof.
  intros R O A D. pose proof (race_pace _ _ _ _ R) as [(rest' & O') [P0 P1]]. apply inv_racing in R. pose proof A as A'. apply ans_acc in A.
  assert (F : forall x tr, attempts r = x :: tr -> x = (a, 0)).
  { intros [b s] tr E. rewrite E in O', P0. cbn [map app fst] in O'. rewrite O in O'. injection O' as -> _. f_equal. eapply P0. reflexivity. }
  assert (N2 : forall x y tr, attempts r = x :: y :: tr -> snd y = delay).
  { intros x [b s'] tr E. pose proof (F _ _ E). subst x. rewrite E in P1. destruct (P1 0%nat a 0 b s' eq_refl eq_refl) as [_ [Q|(z & [<-|[]] & Z)]]; [cbn; lia|]. apply ans_ref in Z. congruence. }
  assert (H : forall now fl e tr, attempts r = tr -> held timeout net now fl e tr -> tr = [] \/ now <= d).
  { intros now fl e tr E Hd. destruct tr as [|x tr]; auto. right. pose proof (F _ _ E). subst x. pose proof (proj1 (proj2 Hd)) as L. eapply L; [|exact A]. eapply (held_in timeout net now fl e); [exact Hd| |exact A]. now left. }
  assert (Small : forall now, (forall x, In x (attempts r) -> snd x <= now) -> attempts r = [] \/ now <= d -> attempts r = [] \/ attempts r = [(a, 0)]).
  { intros now L [E|E]; auto. destruct (attempts r) as [|x [|y tr]] eqn:T; auto; [right; f_equal; eapply F; reflexivity|].
    specialize (N2 _ _ _ eq_refl). specialize (L y). cbn in L. assert (snd y <= now) by tauto. lia. }
  destruct r as [b|now todo fl e tr|now fl e tr|t x tr]; cbn [inv attempts] in *.
  - split; [|discriminate]. right. f_equal. eapply F. reflexivity.
  - split; [|discriminate]. destruct R as (_ & _ & _ & _ & Hd). apply (Small now); [apply Hd|]. eapply H; eauto.
  - split; [|discriminate]. destruct R as (_ & _ & Hd). apply (Small now); [apply Hd|]. eapply H; eauto.
  - destruct R as (_ & L & _ & R).
    assert (T : tr = [(a, 0)] /\ x = inl a /\ t = d); [|destruct T as (-> & -> & ->); split; auto; intros ? ? ? E; injection E as <- <- _; auto].
    destruct x as [b|e].
    + destruct R as ((z & Z & <- & V) & M & _). destruct tr as [|x tr]; [destruct Z|]. pose proof (F _ _ eq_refl). subst x. assert (t <= d) by (eapply M; [now left|exact A]).
      destruct (Small t L) as [E|E]; [auto|discriminate|]. injection E as ->. destruct Z as [<-|[]]. rewrite A in V. injection V as <-. auto.
    + destruct R as (E & G & _). destruct tr as [|x tr]; [rewrite O in E; discriminate|]. pose proof (F _ _ eq_refl). subst x. inversion_clear G as [|? ? Q _]. destruct Q as (u & _ & U). congruence.
Qed.
Theorem race_onward timeout net addrs r : racing timeout net addrs r -> (exists r', race_step timeout net r r') \/ (exists t x tr, r = Over t x tr) \/
  map fst (attempts r) = attempt_order addrs /\ (forall x, In x (attempts r) -> silent timeout net x \/ exists t, refused timeout net x t) /\ exists x, In x (attempts r) /\ silent timeout net x.
Proof. apply onward. Qed.
Theorem race_finite timeout net r : Acc (fun r' r => race_step timeout net r r') r.
Proof.
  assert (H : forall n r, (size r < n)%nat -> Acc (fun r' r => race_step timeout net r r') r); [|eapply H; constructor].
  induction n as [|n IH]; intros q L; [lia|]. constructor. intros q' S. apply IH. apply size_step in S. lia.
Qed.
(** with a timeout *)
Theorem race_timeout l net addrs t r tr : racing (Some l) net addrs (Over t r tr) -> t <= N.of_nat (length addrs - 1) * delay + l.
Proof.
  intros R. pose proof (race_pace _ _ _ _ R) as [(rest & O) P]. cbn [attempts] in *.
  assert (Len : (length tr <= length addrs)%nat).
  { rewrite <- (map_length fst). rewrite <- (Permutation_length (proj1 (attempts_order addrs))), <- O, app_length. lia. }
  assert (B : forall x, In x tr -> snd x <= N.of_nat (length addrs - 1) * delay).
  { intros [a s] I. apply In_nth_error in I. destruct I as (k & K). pose proof (paced_by _ _ _ _ _ _ P K). assert (k < length tr)%nat by (apply nth_error_Some; congruence). cbn. unfold delay in *. nia. }
  destruct r as [a|e].
  - apply race_connected in R. destruct R as ((s & I & d & _ & -> & D) & _). specialize (B _ I). cbn in *. lia.
  - apply race_failed in R. destruct R as (_ & _ & E1 & E2). destruct addrs as [|a0 addrs]; [destruct (E1 eq_refl) as [_ ->]; apply N.le_0_l|].
    destruct E2 as (_ & y & I & V); [discriminate|]. specialize (B _ I). destruct V as [(d & _ & -> & D)|(l' & E & -> & _)]; [cbv beta iota in D; lia|]. injection E as <-. lia.
Qed.
(** forgetting the time *)
Definition untimed (ok : addr -> bool) (r : contest) : conn :=
  match r with
  | Alone a => Returned (if ok a then inl a else inr TcpConnectFailed)
  | Races _ todo fl e _ => Racing todo (map fst fl) e
  | Drains _ fl e _ => Draining (map fst fl) e
  | Over _ r _ => Returned r
  end.
Theorem race_untimed net addrs ok r : (forall a s d b, net a s = Some (d, b) -> b = ok a) -> racing None net addrs r -> SpecHttp.steps ok (conn_start ok addrs) (untimed ok r).
Proof.
  intros Ok. assert (A : forall x t b, answer None net x = Some (t, b) -> ok (fst x) = b).
  { intros x t b. unfold answer. cbn. destruct (net (fst x) (snd x)) as [[d b']|] eqn:E; [|discriminate]. intros H. injection H as _ <-. symmetry. eapply Ok; eauto. }
  assert (App : forall a b c, SpecHttp.steps ok a b -> conn_step ok b c -> SpecHttp.steps ok a c).
  { intros a b c S T. induction S; [eapply SpecHttp.st_step; [exact T|apply SpecHttp.st_refl]|eapply SpecHttp.st_step; eauto]. }
  assert (St : forall q q', race_step None net q q' -> conn_step ok (untimed ok q) (untimed ok q') \/ untimed ok q = untimed ok q').
  { intros q q' [a t b X|now a todo fl e tr H|now a todo fl e tr l1 x l2 t F X L|now a todo fl e tr l1 x l2 t F X L|now fl e tr|now e tr l1 x l2 t X|now e tr l1 x l2 t X|now e tr]; cbn [untimed].
    - right. apply A in X. cbn in X. now rewrite X.
    - left. rewrite map_app. apply step_timeout.
    - left. apply (f_equal (map fst)) in F. rewrite !map_app in F. cbn in F. eapply step_race_ok; [exact F|]. destruct X as [X _]. eauto.
    - left. apply (f_equal (map fst)) in F. rewrite !map_app in *. cbn in F. eapply step_race_err; [exact F|]. destruct X as [X _]. eauto.
    - left. constructor.
    - left. rewrite map_app. cbn. apply step_drain_ok. destruct X as [X _]. eauto.
    - left. rewrite !map_app. cbn. apply step_drain_err. destruct X as [X _]. eauto.
    - left. constructor. }
  induction 1 as [|q q' R IH S].
  - destruct addrs as [|a [|b l]]; apply SpecHttp.st_refl.
  - destruct (St _ _ S) as [C|C]; [eauto|now rewrite <- C].
Qed.
