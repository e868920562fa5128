(** The interactive session on bytes *)
From Verif Require Import SpecSession TextProofs TextMore ResponseProofs WireProofs Utf8Proofs ReadProofs RunMore EvaluatorProofs.
From Coq Require Import Lia.
Open Scope N_scope.

(** ** lines *)
Lemma cut_inv_line l bs ls r : ~ In 10 l -> cut_lines (l ++ 10 :: bs) ls r -> exists ls', ls = l :: ls' /\ cut_lines bs ls' r.
Proof.
  intros N H. remember (l ++ 10 :: bs) as x eqn:E. destruct H as [r' N'|l' bs' ls' r' N' C]; subst.
  - exfalso. apply N'. apply in_app_iff. right. now left.
  - assert (X : forall (a b : bytes) c d, ~ In 10 a -> ~ In 10 b -> a ++ 10 :: c = b ++ 10 :: d -> a = b /\ c = d).
    { clear. induction a as [|x a IH]; intros [|y b] c d A B Q; cbn in Q; injection Q; intros; subst; auto.
      - elim B. now left.
      - elim A. now left.
      - destruct (IH b c d) as [-> ->]; auto; intros I; [apply A|apply B]; now right. }
    destruct (X _ _ _ _ N' N E) as [-> ->]. eauto.
Qed.
Lemma cut_inv_rest bs ls r : ~ In 10 bs -> cut_lines bs ls r -> ls = [] /\ r = bs.
Proof. intros N H. inversion H; subst; auto. exfalso. apply N. apply in_app_iff. right. now left. Qed.
Lemma inputs_line l bs e ts : ~ In 10 l -> inputs (l ++ 10 :: bs) e ts -> exists t ts', ts = t :: ts' /\ entered l t /\ inputs bs e ts'.
Proof.
  intros N H. destruct H as [ls r ts C F O|ls r ts t C F O R L]; destruct (cut_inv_line _ _ _ _ N C) as (ls' & -> & C'); inversion F as [|? t0 ? ts0 E0 F0]; subst.
  - exists t0, ts0. split; auto. split; auto. eapply in_open; eauto.
  - exists t0, (ts0 ++ [t]). split; auto. split; auto. eapply in_closed; eauto.
Qed.
Lemma inputs_rest bs e ts : ~ In 10 bs -> inputs bs e ts -> ts = [] /\ (e <> Closed \/ bs = []) \/ exists t, ts = [t] /\ e = Closed /\ bs <> [] /\ entered_last bs t.
Proof.
  intros N H. destruct H as [ls r ts C F O|ls r ts t C F O R L]; destruct (cut_inv_rest _ _ _ N C) as [-> ->]; inversion F; subst; [left; auto|]. right. exists t. auto.
Qed.
Lemma cut_total bs : exists ls r, cut_lines bs ls r.
Proof.
  assert (H : forall n bs, (length bs < n)%nat -> exists ls r, cut_lines bs ls r); [|eapply (H (S (length bs))); lia].
  induction n as [|n IH]; intros b L; [lia|]. destruct (span (fun c => negb (c =? 10)) b) as [a rest] eqn:E. destruct (span_spec _ _ _ _ E) as (Q & A & B).
  assert (NA : ~ In 10 a). { intros I. rewrite Forall_forall in A. apply A in I. discriminate. }
  destruct rest as [|c rest].
  - rewrite app_nil_r in Q. subst b. exists [], a. now constructor.
  - assert (c = 10) by (specialize (B c rest eq_refl); destruct (N.eqb_spec c 10); [auto|discriminate]). subst c.
    destruct (IH rest) as (ls & r & C); [subst b; rewrite app_length in L; cbn [length] in L; unfold str, char, bytes, byte in *; lia|]. exists (a :: ls), r. subst b. now constructor.
Qed.
Lemma entered_total l : exists t, entered l t.
Proof.
  destruct (utf8_decode l) as [t|] eqn:D.
  - apply decode_iff in D. destruct D as [S <-]. destruct (rev t) as [|c r] eqn:R.
    + exists (Some t). apply en_text; auto. intros t' E. subst t. rewrite rev_app_distr in R. discriminate.
    + apply (f_equal (@rev _)) in R. rewrite rev_involutive in R. cbn [rev] in R. subst t. destruct (N.eq_dec c 13) as [->|N].
      * exists (Some (rev r)). rewrite utf8_app. apply en_cr. apply Forall_app in S. apply S.
      * exists (Some (rev r ++ [c])). apply en_text; auto. intros t' E. apply app_inj_tail in E. destruct E as [_ ?]. auto.
  - exists None. constructor. intros t S E. rewrite <- E, decode_encode in D by auto. discriminate.
Qed.
Lemma entered_last_total l : exists t, entered_last l t.
Proof.
  destruct (utf8_decode l) as [t|] eqn:D; [apply decode_iff in D; destruct D as [S <-]; eexists; constructor; auto|].
  exists None. constructor. intros t S E. rewrite <- E, decode_encode in D by auto. discriminate.
Qed.
Theorem inputs_total bs e : exists ts, inputs bs e ts.
Proof.
  destruct (cut_total bs) as (ls & r & C). assert (F : exists ts, Forall2 entered ls ts).
  { clear. induction ls as [|l ls (ts & IH)]; [exists []; constructor|]. destruct (entered_total l) as (t & T). exists (t :: ts). now constructor. }
  destruct F as (ts & F). destruct r as [|c r]; [exists ts; eapply in_open; eauto|]. destruct e as [|k x|]; try (exists ts; eapply in_open; eauto; left; discriminate).
  destruct (entered_last_total (c :: r)) as (t & T). exists (ts ++ [t]). eapply in_closed; eauto. discriminate.
Qed.
Lemma entered_unique l t t' : entered l t -> entered l t' -> t = t'.
Proof.
  assert (I : forall a b, scalars a -> scalars b -> utf8 a = utf8 b -> a = b) by apply utf8_inj.
  assert (C : forall a b, scalars a -> scalars b -> utf8 a = utf8 b ++ [13] -> a = b ++ [13]).
  { intros a b A B E. apply I; auto; [apply Forall_app; split; auto; repeat constructor|]. rewrite utf8_app. exact E. }
  intros H H'. destruct H as [t S N|t S|bs N]; inversion H' as [u S' N' E|u S' E|bs' N' E]; subst; auto.
  - f_equal. auto.
  - exfalso. symmetry in E. apply C in E; auto. eapply N; eauto.
  - exfalso. eapply N'; eauto.
  - exfalso. apply C in E; auto. eapply N'; eauto.
  - f_equal. apply app_inj_tail in E. destruct E as [E _]. auto.
  - exfalso. apply (N' (t ++ [13])); [apply Forall_app; split; auto; repeat constructor|apply utf8_app].
  - exfalso. eapply N; eauto.
  - exfalso. apply (N (u ++ [13])); [apply Forall_app; split; auto; repeat constructor|apply utf8_app].
Qed.

Lemma cut_unique bs ls r ls' r' : cut_lines bs ls r -> cut_lines bs ls' r' -> ls = ls' /\ r = r'.
Proof.
  intros H. revert ls' r'. induction H as [r N|l bs ls r N C IH]; intros ls' r' H'.
  - apply cut_inv_rest in H'; auto. destruct H' as [-> ->]. auto.
  - apply cut_inv_line in H'; auto. destruct H' as (ls2 & -> & C'). destruct (IH _ _ C') as [-> ->]. auto.
Qed.
Lemma entered_last_unique l t t' : entered_last l t -> entered_last l t' -> t = t'.
Proof.
  intros H H'. destruct H as [t S|bs N]; inversion H' as [u S' E|bs' N' E]; subst; auto.
  - f_equal. symmetry. now apply utf8_inj.
  - elim (N' t S eq_refl).
  - elim (N u S' eq_refl).
Qed.
Lemma all_entered_unique ls ts ts' : Forall2 entered ls ts -> Forall2 entered ls ts' -> ts = ts'.
Proof.
  intros H. revert ts'. induction H as [|l t ls ts E F IH]; intros ts' H'; inversion H'; subst; auto. f_equal; auto. eapply entered_unique; eauto.
Qed.
Theorem inputs_unique bs e ts ts' : inputs bs e ts -> inputs bs e ts' -> ts = ts'.
Proof.
  intros [ls r us C F O|ls r us t C F O R L] [ls2 r2 us2 C2 F2 O2|ls2 r2 us2 t2 C2 F2 O2 R2 L2]; destruct (cut_unique _ _ _ _ _ C C2) as [-> ->]; rewrite (all_entered_unique _ _ _ F F2); auto.
  - destruct O; contradiction.
  - destruct O2; contradiction.
  - now rewrite (entered_last_unique _ _ _ L L2).
Qed.

(** ** one line *)
Lemma chomp_lf (t : str) : (forall t', t <> t' ++ [13]) -> chomp (t ++ [10]) = t.
Proof.
  intros N. unfold chomp. rewrite rev_app_distr. cbn [rev app]. change (10 =? 10) with true. cbv iota. destruct (rev t) as [|d r] eqn:R; [apply (f_equal (@rev _)) in R; rewrite rev_involutive in R; now subst|].
  apply (f_equal (@rev _)) in R. rewrite rev_involutive in R. cbn [rev] in R. destruct (N.eqb_spec d 13) as [->|E]; [elim (N _ R)|]. subst t. reflexivity.
Qed.
Lemma chomp_crlf t : chomp (t ++ [13; 10]) = t.
Proof. unfold chomp. rewrite rev_app_distr. cbn. apply rev_involutive. Qed.
Lemma chomp_no (t : str) : ~ In 10 t -> chomp t = t.
Proof.
  intros N. unfold chomp. destruct (rev t) as [|d r] eqn:R; auto. destruct (N.eqb_spec d 10) as [->|E]; auto. elim N. apply in_rev. unfold str, char in *. rewrite R. now left.
Qed.
Definition taken (t : option str) : fetched := match t with Some t => ALine t | None => BadLine end.
Lemma line_entered l t : entered l t -> match utf8_decode (l ++ [10]) with Some u => ALine (chomp u) | None => BadLine end = taken t.
Proof.
  intros [u S N|u S|bs N].
  - change [10] with (utf8 [10]). rewrite <- utf8_app, decode_encode by (apply Forall_app; split; auto; repeat constructor). rewrite chomp_lf by auto. reflexivity.
  - rewrite <- app_assoc. change ([13] ++ [10]) with (utf8 [13; 10]). rewrite <- utf8_app, decode_encode by (apply Forall_app; split; auto; repeat constructor). rewrite chomp_crlf. reflexivity.
  - destruct (utf8_decode (bs ++ [10])) as [u|] eqn:D; auto. apply decode_iff in D. destruct D as [S E]. apply utf8_split in E. destruct E as (x & y & -> & E1 & _).
    exfalso. apply (N x); auto. apply Forall_app in S. apply S.
Qed.
Lemma utf8_lf t : In 10 t -> In 10 (utf8 t).
Proof. intros I. apply in_split in I. destruct I as (a & b & ->). rewrite utf8_app. apply in_app_iff. right. now left. Qed.
Lemma last_entered l t : ~ In 10 l -> entered_last l t -> match utf8_decode l with Some u => ALine (chomp u) | None => BadLine end = taken t.
Proof.
  intros NL H. revert NL. destruct H as [u S|bs N]; intros NL.
  - rewrite decode_encode by auto. rewrite chomp_no; auto. intros I. apply NL. now apply utf8_lf.
  - destruct (utf8_decode bs) as [u|] eqn:D; auto. apply decode_iff in D. destruct D as [S E]. elim (N u S E).
Qed.
Section Session.
Variables (w : env) (cap : nat).
Hypothesis Hcap : (0 < cap)%nat.
Lemma next_cases b : let e := w_ending (br_wire b) in
  (exists l bs b', ~ In 10 l /\ content b = l ++ 10 :: bs /\ content b' = bs /\ w_ending (br_wire b') = e /\ (left_over b' < left_over b)%nat /\
     next_line cap b = (match utf8_decode (l ++ [10]) with Some u => ALine (chomp u) | None => BadLine end, b')) \/
  (~ In 10 (content b) /\
    match e with
    | Silent => next_line cap b = (NeverLine, b)
    | Broke _ _ => next_line cap b = (BadLine, Br [] (Incoming [] e))
    | Closed => exists b', next_line cap b = (match content b with [] => NoLine | _ => match utf8_decode (content b) with Some u => ALine (chomp u) | None => BadLine end end, b') /\
        content b' = [] /\ w_ending (br_wire b') = e /\ left_over b' = 0%nat
    end).
Proof.
  intros e. pose proof (until_sim Plain None cap Hcap (S (S (left_over b))) [] b ltac:(lia)) as U. unfold next_line.
  destruct (span (fun c => negb (c =? 10)) (content b)) as [a rest] eqn:E. destruct (span_spec _ _ _ _ E) as (Q & A & B).
  assert (NA : ~ In 10 a). { intros I. rewrite Forall_forall in A. apply A in I. discriminate. }
  destruct rest as [|c rest].
  - right. rewrite app_nil_r in Q. rewrite Q. split; auto. fold e in U. destruct e as [|k x|] eqn:En; cbn [fin] in U.
    + destruct U as (b' & -> & C & S1 & S2). cbn [app]. exists b'. split; [destruct a; reflexivity|]. split; auto. split; auto. unfold same_end in S1. subst e. congruence.
    + rewrite U. subst e. now rewrite En.
    + now rewrite U.
  - left. assert (c = 10) by (specialize (B c rest eq_refl); destruct (N.eqb_spec c 10); [auto|discriminate]). subst c.
    destruct U as (b' & -> & C & S1 & S2). exists a, rest, b'. repeat split; auto. cbn [app]. destruct a; reflexivity.
Qed.
Lemma spun : forall fuel b s, content b = [] -> left_over b = 0%nat -> match w_ending (br_wire b) with Silent => False | _ => True end -> interact fuel w cap b s = (Spins, s).
Proof.
  induction fuel as [|f IH]; intros b s C L E; [reflexivity|]. cbn [interact]. destruct (next_cases b) as [(l & bs & b' & _ & X & _)|(_ & H)].
  - rewrite C in X. destruct l; discriminate.
  - destruct (w_ending (br_wire b)) as [|k x|] eqn:En; [| |contradiction].
    + destruct H as (b' & -> & _). rewrite C. reflexivity.
    + rewrite H. apply IH; auto.
Qed.
Lemma interact_spec : forall ts fuel b s, inputs (content b) (w_ending (br_wire b)) ts -> (left_over b + 1 < fuel)%nat ->
  exists pre rest s0, ts = pre ++ rest /\ session w pre s s0 /\
  ((rest = [] /\ interact fuel w cap b s = (used_up (w_ending (br_wire b)), s0)) \/
   (exists more, rest = Some (lit "exit") :: more /\ interact fuel w cap b s = (Exited, s0)) \/
   (exists l more s1, rest = Some l :: more /\ ~ blank l /\ l <> lit "exit" /\
     ((line_done w l s0 (LPanic s1) /\ interact fuel w cap b s = (Died, s1)) \/ (line_done w l s0 (LHang s1) /\ interact fuel w cap b s = (Endless, s1))))).
Proof.
  assert (Step : forall t ts f b b' s, inputs (content b') (w_ending (br_wire b')) ts -> next_line cap b = (taken t, b') -> w_ending (br_wire b') = w_ending (br_wire b) ->
    (forall s, exists pre rest s0, ts = pre ++ rest /\ session w pre s s0 /\
      ((rest = [] /\ interact f w cap b' s = (used_up (w_ending (br_wire b')), s0)) \/
       (exists more, rest = Some (lit "exit") :: more /\ interact f w cap b' s = (Exited, s0)) \/
       (exists l more s1, rest = Some l :: more /\ ~ blank l /\ l <> lit "exit" /\
         ((line_done w l s0 (LPanic s1) /\ interact f w cap b' s = (Died, s1)) \/ (line_done w l s0 (LHang s1) /\ interact f w cap b' s = (Endless, s1)))))) ->
    exists pre rest s0, t :: ts = pre ++ rest /\ session w pre s s0 /\
      ((rest = [] /\ interact (S f) w cap b s = (used_up (w_ending (br_wire b)), s0)) \/
       (exists more, rest = Some (lit "exit") :: more /\ interact (S f) w cap b s = (Exited, s0)) \/
       (exists l more s1, rest = Some l :: more /\ ~ blank l /\ l <> lit "exit" /\
         ((line_done w l s0 (LPanic s1) /\ interact (S f) w cap b s = (Died, s1)) \/ (line_done w l s0 (LHang s1) /\ interact (S f) w cap b s = (Endless, s1)))))).
  { intros t ts f b b' s I Nx En IH. cbn [interact]. rewrite Nx, <- En. destruct t as [l|]; cbn [taken].
    - destruct (str_eqb l (lit "exit")) eqn:E.
      + apply str_eqb_eq in E. subst l. exists [], (Some (lit "exit") :: ts), s. split; auto. split; [constructor|]. right. left. eauto.
      + assert (NE : l <> lit "exit") by (intros ->; now rewrite str_eqb_refl in E). destruct (trim l) as [|x xs] eqn:T.
        * apply trim_blank in T. destruct (IH s) as (pre & rest & s0 & -> & S & H). exists (Some l :: pre), rest, s0. split; auto. split; [now apply se_blank|exact H].
        * assert (NB : ~ blank l) by (intros B; apply trim_blank in B; congruence). pose proof (line_spec w l s) as L. destruct (command_eval w l s) as [[[]|e| |] s1] eqn:CE.
          -- destruct (IH s1) as (pre & rest & s0 & -> & S & H). exists (Some l :: pre), rest, s0. split; auto. split; [eapply se_line; eauto|exact H].
          -- exfalso. clear -CE. unfold command_eval in CE. destruct (parse l); try discriminate. destruct (eval_block _ _ _) as [[| | |] ?]; discriminate.
          -- exists [], (Some l :: ts), s. split; auto. split; [constructor|]. right. right. exists l, ts, s1. repeat split; auto.
          -- exists [], (Some l :: ts), s. split; auto. split; [constructor|]. right. right. exists l, ts, s1. repeat split; auto.
    - destruct (IH s) as (pre & rest & s0 & -> & S & H). exists (None :: pre), rest, s0. split; auto. split; [now apply se_unreadable|exact H]. }
  intros ts fuel. revert ts. induction fuel as [|f IH]; intros ts b s I L; [lia|].
  destruct (next_cases b) as [(l & bs & b' & N & C & C' & En & LO & Nx)|(N & H)].
  - rewrite C in I. destruct (inputs_line _ _ _ _ N I) as (t & ts' & -> & Et & I'). assert (Nx2 : next_line cap b = (taken t, b')) by (rewrite Nx; f_equal; exact (line_entered _ _ Et)). clear Nx. rename Nx2 into Nx. eapply Step; [|exact Nx|exact En|].
    + rewrite C', En. exact I'.
    + intros s2. apply IH; [rewrite C', En; exact I'|lia].
  - destruct (inputs_rest _ _ _ N I) as [[-> O]|(t & -> & Ec & NE & El)].
    + exists [], [], s. split; auto. split; [constructor|]. left. split; auto. cbn [interact]. destruct (w_ending (br_wire b)) as [|k x|] eqn:En.
      * destruct H as (b' & -> & _). destruct O as [O|O]; [congruence|]. rewrite O. reflexivity.
      * rewrite H. rewrite spun; cbn; auto.
      * now rewrite H.
    + rewrite Ec in H. destruct H as (b' & Nx & C' & En & LO). assert (Nx' : next_line cap b = (taken t, b')) by (rewrite Nx; destruct (content b) eqn:Z; [now elim NE|]; f_equal; exact (last_entered _ _ N El)).
      eapply (Step t []); [|exact Nx'|now rewrite En, Ec|].
      * rewrite C', En. eapply (in_open [] _ [] []); [constructor; auto|constructor|auto].
      * intros s2. apply IH; [|pose proof (left_content cap Hcap b); destruct (content b); [now elim NE|cbn [length] in *; lia]]. rewrite C', En. eapply (in_open [] _ [] []); [constructor; auto|constructor|auto].
Qed.
End Session.
(** ** the whole session *)
Theorem session_result w input ts : inputs (arrived (w_arrivals input)) (w_ending input) ts ->
  exists pre rest s0, ts = pre ++ rest /\ session w pre (St ctx_new []) s0 /\
  ((rest = [] /\ repl_main w input = (used_up (w_ending input), s0)) \/
   (exists more, rest = Some (lit "exit") :: more /\ repl_main w input = (Exited, s0)) \/
   (exists l more s1, rest = Some l :: more /\ ~ blank l /\ l <> lit "exit" /\
     ((line_done w l s0 (LPanic s1) /\ repl_main w input = (Died, s1)) \/ (line_done w l s0 (LHang s1) /\ repl_main w input = (Endless, s1))))).
Proof. intros I. apply (interact_spec w (N.to_nat 8192) ltac:(lia) ts (S (S (left_over (Br [] input)))) (Br [] input) (St ctx_new [])); [exact I|lia]. Qed.
Definition ends (w : env) (ts : list (option str)) (s : st) (e : ending) (r : session_end * st) : Prop :=
  exists pre rest s0, ts = pre ++ rest /\ session w pre s s0 /\
  ((rest = [] /\ r = (used_up e, s0)) \/
   (exists more, rest = Some (lit "exit") :: more /\ r = (Exited, s0)) \/
   (exists l more s1, rest = Some l :: more /\ ~ blank l /\ l <> lit "exit" /\
     ((line_done w l s0 (LPanic s1) /\ r = (Died, s1)) \/ (line_done w l s0 (LHang s1) /\ r = (Endless, s1))))).
Definition opening (w : env) (t : option str) (ts : list (option str)) (s : st) (e : ending) (r : session_end * st) : Prop :=
  match t with
  | None => ends w ts s e r
  | Some l => (blank l /\ ends w ts s e r) \/ (l = lit "exit" /\ r = (Exited, s)) \/
      (~ blank l /\ l <> lit "exit" /\ exists o, line_done w l s o /\ match o with LPrinted s1 => ends w ts s1 e r | LPanic s1 => r = (Died, s1) | LHang s1 => r = (Endless, s1) end)
  end.
Lemma ends_opening w t ts s e r : ends w (t :: ts) s e r -> opening w t ts s e r.
Proof.
  intros (pre & rest & s0 & E & S & H). destruct pre as [|u pre].
  - cbn [app] in E. subst rest. inversion S; subst. destruct H as [[? _]|[(more & X & ->)|(l & more & s1 & X & NB & NE & H)]]; [discriminate|injection X as -> ->; cbn; auto|].
    injection X as -> ->. right. right. split; auto. split; auto. destruct H as [[L ->]|[L ->]]; [exists (LPanic s1)|exists (LHang s1)]; auto.
  - injection E as <- ->. inversion S; subst.
    + exists pre, rest, s0. auto.
    + left. split; auto. exists pre, rest, s0. auto.
    + right. right. split; auto. split; auto. eexists. split; eauto. exists pre, rest, s0. auto.
Qed.
Lemma ends_unique w e : forall ts s r r', ends w ts s e r -> ends w ts s e r' -> r = r'.
Proof.
  induction ts as [|t ts IH]; intros s r r' H H'.
  - assert (X : forall r, ends w [] s e r -> r = (used_up e, s)).
    { clear. intros r (pre & rest & s0 & E & S & H). symmetry in E. apply app_eq_nil in E. destruct E as [-> ->]. inversion S; subst. destruct H as [[_ ?]|[(more & X & _)|(l & more & s1 & X & _)]]; try discriminate. auto. }
    rewrite (X _ H), (X _ H'). reflexivity.
  - apply ends_opening in H. apply ends_opening in H'. destruct t as [l|]; cbn in H, H'; [|eauto].
    destruct H as [[B H]|[[X H]|(NB & NE & o & L & H)]]; destruct H' as [[B' H']|[[X' H']|(NB' & NE' & o' & L' & H')]]; subst; try contradiction; auto; try (now apply exit_not_blank in B); try (now apply exit_not_blank in B'); eauto.
    rewrite (line_unique _ _ _ _ _ L' L) in H'. destruct o; subst; eauto.
Qed.
Theorem session_pieces w i i' : arrived (w_arrivals i) = arrived (w_arrivals i') -> w_ending i = w_ending i' -> repl_main w i = repl_main w i'.
Proof.
  intros A E. destruct (inputs_total (arrived (w_arrivals i)) (w_ending i)) as (ts & I). pose proof I as I'. rewrite A, E in I'. pose proof (session_result w i ts I) as H. pose proof (session_result w i' ts I') as H'.
  rewrite <- E in H'. eapply ends_unique; [exact H|exact H'].
Qed.
Theorem eval_result w text : exists o, line_done w text (St ctx_new []) o /\ eval_main w text =
  match o with LPrinted s => (Some true, s_trace s) | LPanic s => (Some false, s_trace s) | LHang s => (None, s_trace s) end.
Proof.
  exists (match command_eval w text (St ctx_new []) with (Ok _, s') => LPrinted s' | (Panic, s') => LPanic s' | (Diverge, s') => LHang s' | (Err _, s') => LHang s' end).
  split; [apply line_spec|]. unfold eval_main. destruct (command_eval w text (St ctx_new [])) as [[| | |] s]; reflexivity.
Qed.
