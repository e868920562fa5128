(** Well-formed token streams and elementary steps of the parser *)
From Verif Require Import Parser SpecSyntax TextProofs LexOneProofs LexerProofs.
Open Scope N_scope.

Definition spelled (t : token) : Prop := exists w, spells w t.

(** what [segment] returns: spelled tokens, then one end marker *)
Inductive wf : toks -> Prop :=
| wf_eof l : wf [Tok KEof l]
| wf_cons t r : spelled t -> wf r -> wf (t :: r).

(** a stream whose current token is not the end marker *)
Definition live (ts : toks) : Prop := exists t r, ts = t :: r /\ spelled t /\ wf r.

Lemma spelled_not_eof t : spelled t -> tkind t <> KEof.
Proof. intros [w H]. eapply spells_not_eof; eauto. Qed.

Lemma live_wf ts : live ts -> wf ts.
Proof. intros (t & r & -> & S & W). now constructor. Qed.

Lemma wf_live ts : wf ts -> tkind (current ts) <> KEof -> live ts.
Proof. intros [l|t r S W] H; [simpl in H; congruence|]. exists t, r; auto. Qed.

Lemma wf_nonempty ts : wf ts -> exists t r, ts = t :: r.
Proof. intros [l|t r S W]; eauto. Qed.

Lemma wf_segment s : wf (segment s).
Proof.
  destruct (segment_shape s) as (ts & -> & L). induction L; simpl; auto.
  - constructor.
  - constructor; auto. now exists w.
  - constructor; [|constructor]. exists (d :: body ++ [d]). now apply sp_quoted.
Qed.

Lemma live_next ts : live ts -> wf (next ts) /\ exists t, ts = t :: next ts /\ spelled t.
Proof.
  intros (t & r & -> & S & W). destruct (wf_nonempty _ W) as (t' & r' & ->). simpl. split; auto. exists t; auto.
Qed.

Lemma next_cons t t' r : next (t :: t' :: r) = t' :: r.
Proof. reflexivity. Qed.

Lemma kind_eqb_eq a b : kind_eqb a b = true <-> a = b.
Proof. unfold kind_eqb. destruct (kind_eq_dec a b); split; congruence. Qed.

Lemma kind_eqb_refl k : kind_eqb k k = true.
Proof. now apply kind_eqb_eq. Qed.

Lemma kind_eqb_neq a b : kind_eqb a b = false <-> a <> b.
Proof. unfold kind_eqb. destruct (kind_eq_dec a b); split; congruence. Qed.

Fixpoint nodup_kinds (l : list kind) : bool :=
  match l with [] => true | k :: l => negb (existsb (kind_eqb k) l) && nodup_kinds l end.

Lemma unique_by_kind {B} (l : list (kind * B)) k a b :
  nodup_kinds (map fst l) = true -> In (k, a) l -> In (k, b) l -> a = b.
Proof.
  assert (X : forall (l : list (kind * B)) k a, In (k, a) l -> existsb (kind_eqb k) (map fst l) = true).
  { clear. intros l k a H. apply existsb_exists. exists k. split; [|apply kind_eqb_refl]. now apply (in_map fst) in H. }
  induction l as [|[k' b'] l IH]; simpl; [contradiction|]. intros N A B0.
  apply andb_true_iff in N. destruct N as [N1 N2]. apply negb_true_iff in N1.
  destruct A as [A|A], B0 as [B0|B0].
  - congruence.
  - inversion A; subst. apply X in B0. congruence.
  - inversion B0; subst. apply X in A. congruence.
  - eauto.
Qed.

(** a spelled token of a fixed kind has the fixed literal *)
Lemma spelled_op t k s : spelled t -> tkind t = k -> In (k, s) (operators ++ keywords) -> t = Tok k s.
Proof.
  intros [w H] E I. subst k.
  assert (U : forall a b, In (tkind t, a) (operators ++ keywords) -> In (tkind t, b) (operators ++ keywords) -> a = b).
  { intros a b. apply unique_by_kind. reflexivity. }
  assert (NK : forall k, In (k, s) (operators ++ keywords) -> ~ In k [KInteger; KFloat; KIdent; KString; KTemplate; KIllegal]).
  { clear. intros k I J. apply (in_map fst) in I. simpl fst in I.
    assert (X : forallb (fun k => negb (existsb (kind_eqb k) (map fst (operators ++ keywords)))) [KInteger; KFloat; KIdent; KString; KTemplate; KIllegal] = true) by reflexivity.
    rewrite forallb_forall in X. specialize (X _ J). apply negb_true_iff in X.
    assert (Y : existsb (kind_eqb k) (map fst (operators ++ keywords)) = true) by (apply existsb_exists; exists k; split; auto; apply kind_eqb_refl).
    congruence. }
  specialize (NK _ I).
  inversion H as [k s' A|c s' A B|c s' A B D|k s' A|c s' A B D|k d body A B|c A B D F G]; subst; cbn [tkind] in *.
  - f_equal. apply U; auto. apply in_or_app; auto.
  - exfalso. apply NK. simpl; tauto.
  - exfalso. apply NK. simpl; tauto.
  - f_equal. apply U; auto. apply in_or_app; auto.
  - exfalso. apply NK. simpl; tauto.
  - exfalso. apply NK. destruct A as [A|[A|[]]]; inversion A; subst; simpl; tauto.
  - exfalso. apply NK. simpl; tauto.
Qed.

(** [expect k] steps onto a token of kind [k] *)
Lemma expect_ok k ts u ts' : live ts -> k <> KEof -> expect k ts = POk u ts' ->
  exists t0 t r, ts = t0 :: t :: r /\ ts' = t :: r /\ tkind t = k /\ spelled t /\ wf r.
Proof.
  intros (t0 & r0 & -> & S & W) N E. unfold expect in E.
  destruct r0 as [|t r]; simpl in E; [discriminate|].
  destruct (kind_eqb k (tkind t)) eqn:K; [|discriminate]. apply kind_eqb_eq in K. inversion E; subst.
  exists t0, t, r. repeat split; auto; inversion W; subst; simpl in *; congruence.
Qed.

Lemma peek_is_ok k ts : live ts -> k <> KEof -> peek_is k ts = true ->
  exists t0 t r, ts = t0 :: t :: r /\ tkind t = k /\ spelled t /\ wf r /\ spelled t0.
Proof.
  intros (t0 & r0 & -> & S & W) N E. unfold peek_is in E.
  destruct r0 as [|t r]; simpl in E; [discriminate|]. apply kind_eqb_eq in E.
  exists t0, t, r. repeat split; auto; inversion W; subst; simpl in *; congruence.
Qed.

Lemma rank_precedence k n : rank k n <-> is_binop k = true /\ precedence k = N.of_nat (S n).
Proof.
  split.
  - intros (l & E & I). do 10 (destruct n as [|n]; [simpl in E; inversion E; subst; simpl in I;
      repeat match goal with H : _ \/ _ |- _ => destruct H end; try contradiction; subst; split; reflexivity|]).
    destruct n; discriminate.
  - intros [B P]. destruct k; try discriminate B; simpl in P;
    match type of P with ?x = _ => assert (n = N.to_nat x - 1)%nat by lia end; subst n; simpl;
      eexists; (split; [reflexivity|simpl; tauto]).
Qed.

Lemma binary_iff k : binary k <-> is_binop k = true.
Proof.
  split.
  - intros [n R]. now apply rank_precedence in R.
  - intros B. exists (N.to_nat (precedence k) - 1)%nat. apply rank_precedence. split; auto.
    destruct k; try discriminate B; reflexivity.
Qed.

Lemma looser_iff k k' : looser k k' <-> is_binop k = true /\ is_binop k' = true /\ precedence k < precedence k'.
Proof.
  split.
  - intros (n & n' & R & R' & L). apply rank_precedence in R, R'. destruct R, R'. repeat split; auto. lia.
  - intros (B & B' & L). apply binary_iff in B, B'. destruct B as [n R], B' as [n' R']. exists n, n'.
    repeat split; auto. apply rank_precedence in R, R'. lia.
Qed.

Lemma binop_range k : is_binop k = true -> 1 <= precedence k <= 10.
Proof. destruct k; intros B; try discriminate B; cbn [precedence]; lia. Qed.

Lemma precedence_range k : precedence k <= 13.
Proof. destruct k; cbn [precedence]; lia. Qed.

Lemma precedence_cases k : 0 < precedence k -> is_binop k = true \/ k = KNot \/ k = KLp \/ k = KLs \/ k = KDot.
Proof. destruct k; cbn [precedence is_binop]; intros; auto 6; lia. Qed.

Lemma peek_precedence_range ts : peek_precedence ts <= 13.
Proof. unfold peek_precedence. destruct (peek ts); [apply precedence_range|lia]. Qed.

Lemma digits_val_digits l : forall a n, digits_val a l = Some n -> Forall digit l.
Proof.
  induction l as [|c l IH]; intros a n H; constructor; simpl in H; destruct (is_digit c) eqn:D; try discriminate.
  - now apply is_digit_iff.
  - eauto.
Qed.

Lemma digits_val_fold l : Forall digit l -> forall a, digits_val a l = Some (fold_left (fun a c => 10 * a + (c - 48)) l a).
Proof.
  induction 1; intros a; simpl; auto. replace (is_digit x) with true by (symmetry; now apply is_digit_iff).
  rewrite IHForall. replace (a * 10 + (x - 48)) with (10 * a + (x - 48)) by lia. reflexivity.
Qed.

Lemma digits_val_decimal l : Forall digit l -> digits_val 0 l = Some (decimal l).
Proof. intros H. now rewrite digits_val_fold. Qed.
