(** The float operations of the model are those of SpecFloat64 *)
From Coq Require Import Lqa Qpower QArith Qabs.
From Verif Require Import SpecFloat64 FloatProofs FloatUnique.
Open Scope Z_scope.
Local Opaque too_large scaled.

Lemma finite_value s m e : value_of (S754_finite s m e) = Some (scaled (if s then Zneg m else Zpos m) e).
Proof. reflexivity. Qed.
Lemma finite_nonzero s m e : ~ (scaled (if (s : bool) then Zneg m else Zpos m) e == 0)%Q.
Proof. intros E. apply scaled_zero_inv in E. destruct s; discriminate. Qed.
Lemma no_value f : value_of f = None -> f = S754_nan \/ exists s, f = S754_infinity s.
Proof. destruct f; cbn; try discriminate; eauto. Qed.

Ltac zero_case := apply (rounded_wd 0%Q); [ring|apply rounded_0].
Ltac self_case B := eapply rounded_wd; [|apply (rounded_self _ _ B eq_refl)]; ring.

Lemma add_op a b : binary64 a -> binary64 b -> float_op KAdd a b (SFadd 53 1024 a b).
Proof.
  intros Ba Bb. destruct a as [s|s| |s m e], b as [t|t| |t n f];
    try (apply fo_nan; unfold is_nan_op; solve [auto]).
  - cbn [SFadd]. eapply fo_add; [reflexivity|reflexivity| |].
    + destruct s, t; cbn [Bool.eqb]; zero_case.
    + intros _. destruct s, t; reflexivity.
  - apply fo_add_inf_r; discriminate.
  - cbn [SFadd]. eapply fo_add; [reflexivity|apply finite_value| |].
    + self_case Bb.
    + intros E. exfalso. apply (finite_nonzero t n f). lra.
  - apply fo_add_inf_l; discriminate.
  - cbn [SFadd]. destruct s, t; cbn [Bool.eqb].
    + apply fo_add_inf_l; discriminate.
    + apply fo_nan. right; right. exists true. split; reflexivity.
    + apply fo_nan. right; right. exists false. split; reflexivity.
    + apply fo_add_inf_l; discriminate.
  - apply fo_add_inf_l; discriminate.
  - cbn [SFadd]. eapply fo_add; [apply finite_value|reflexivity| |].
    + self_case Ba.
    + intros E. exfalso. apply (finite_nonzero s m e). lra.
  - apply fo_add_inf_r; discriminate.
  - destruct (SFadd_finite s m e t n f) as [R Z0]. eapply fo_add; [apply finite_value|apply finite_value|exact R|exact Z0].
Qed.
Lemma sub_op a b : binary64 a -> binary64 b -> float_op KSub a b (SFsub 53 1024 a b).
Proof.
  intros Ba Bb. destruct a as [s|s| |s m e], b as [t|t| |t n f];
    try (apply fo_nan; unfold is_nan_op; solve [auto]).
  - cbn [SFsub]. eapply fo_sub; [reflexivity|reflexivity| |].
    + destruct s, t; cbn [Bool.eqb negb]; zero_case.
    + intros _. destruct s, t; reflexivity.
  - apply fo_sub_inf_r; discriminate.
  - cbn [SFsub]. eapply fo_sub; [reflexivity|apply finite_value| |].
    + eapply rounded_wd; [|apply (rounded_self (S754_finite (negb t) n f) _ Bb eq_refl)].
      destruct t; cbn [negb]; rewrite <- signed_neg; cbn [signed]; ring.
    + intros E. exfalso. apply (finite_nonzero t n f). lra.
  - apply fo_sub_inf_l; discriminate.
  - cbn [SFsub]. destruct s, t; cbn [Bool.eqb negb].
    + apply fo_nan. right; right. exists true. split; reflexivity.
    + apply fo_sub_inf_l; discriminate.
    + apply fo_sub_inf_l; discriminate.
    + apply fo_nan. right; right. exists false. split; reflexivity.
  - apply fo_sub_inf_l; discriminate.
  - cbn [SFsub]. eapply fo_sub; [apply finite_value|reflexivity| |].
    + self_case Ba.
    + intros E. exfalso. apply (finite_nonzero s m e). lra.
  - apply fo_sub_inf_r; discriminate.
  - destruct (SFsub_finite s m e t n f) as [R Z0]. eapply fo_sub; [apply finite_value|apply finite_value|exact R|exact Z0].
Qed.
Lemma mul_op a b : binary64 a -> binary64 b -> float_op KMul a b (SFmul 53 1024 a b).
Proof.
  intros Ba Bb. destruct a as [s|s| |s m e], b as [t|t| |t n f];
    try (apply fo_nan; unfold is_nan_op; solve [eauto 7]).
  - cbn [SFmul]. eapply fo_mul; [reflexivity|reflexivity|zero_case|reflexivity].
  - cbn [SFmul]. eapply fo_mul; [reflexivity|apply finite_value|zero_case|reflexivity].
  - apply fo_mul_inf_l; discriminate.
  - apply (fo_mul_inf_l s (S754_finite t n f)); discriminate.
  - cbn [SFmul]. eapply fo_mul; [apply finite_value|reflexivity|zero_case|reflexivity].
  - apply (fo_mul_inf_r (S754_finite s m e) t); discriminate.
  - destruct (SFmul_finite s m e t n f Ba Bb) as [R S1]. eapply fo_mul; [apply finite_value|apply finite_value|exact R|exact S1].
Qed.
Lemma div_op a b : binary64 a -> binary64 b -> float_op KDiv a b (SFdiv 53 1024 a b).
Proof.
  intros Ba Bb. destruct a as [s|s| |s m e], b as [t|t| |t n f];
    try (apply fo_nan; unfold is_nan_op; solve [eauto 7]).
  - cbn [SFdiv]. apply (fo_div_inf_r (S754_zero s) t 0%Q). reflexivity.
  - cbn [SFdiv]. eapply fo_div; [reflexivity|apply finite_value|apply finite_nonzero| |reflexivity].
    apply (rounded_wd 0%Q); [|apply rounded_0]. field. apply finite_nonzero.
  - apply (fo_div_inf_l s (S754_zero t) 0%Q). reflexivity.
  - eapply (fo_div_inf_l s (S754_finite t n f)). reflexivity.
  - eapply (fo_div_zero (S754_finite s m e)); [apply finite_value|apply finite_nonzero].
  - eapply (fo_div_inf_r (S754_finite s m e) t). reflexivity.
  - destruct (SFdiv_finite s m e t n f) as [R S1]. eapply fo_div; [apply finite_value|apply finite_value|apply finite_nonzero|exact R|exact S1].
Qed.
Lemma rem_op a b : binary64 a -> binary64 b -> float_op KRem a b (f64_rem a b).
Proof.
  intros Ba Bb. destruct a as [s|s| |s m e], b as [t|t| |t n f];
    try (apply fo_nan; unfold is_nan_op; solve [eauto 7]).
  - apply (fo_rem_inf (S754_zero s) t 0%Q). reflexivity.
  - cbn [f64_rem]. pose proof (finite_nonzero t n f) as N.
    assert (P : (0 < Qabs (scaled (if t then Zneg n else Zpos n) f))%Q).
    { apply (Qabs_case (scaled (if t then Zneg n else Zpos n) f) (fun a => 0 < a)%Q); intros L.
      * destruct (Qlt_le_dec 0 (scaled (if t then Z.neg n else Z.pos n) f)) as [L2|L2]; [exact L2|exfalso; apply N; lra].
      * destruct (Qlt_le_dec (scaled (if t then Z.neg n else Z.pos n) f) 0) as [L2|L2]; [lra|exfalso; apply N; lra]. }
    apply (fo_rem (S754_zero s) (S754_finite t n f) 0%Q _ (S754_zero s) 0%Q 0 eq_refl (finite_value t n f) N eq_refl I); [|exact P| |reflexivity].
    + change (inject_Z 0) with 0%Q. ring.
    + lra.
  - eapply (fo_rem_inf (S754_finite s m e) t). reflexivity.
  - destruct (f64_rem_finite s m e t n f Ba Bb) as (v & k & V & B & E & L & Sg & S1).
    eapply fo_rem; [apply finite_value|apply finite_value|apply finite_nonzero|exact V|exact B|exact E|exact L|exact Sg|exact S1].
Qed.

Definition op_of (k : kind) : option (f64 -> f64 -> f64) :=
  match k with
  | KAdd => Some f64_add | KSub => Some f64_sub | KMul => Some f64_mul | KDiv => Some f64_div | KRem => Some f64_rem
  | _ => None
  end.
Lemma op_sound k o a b : op_of k = Some o -> binary64 a -> binary64 b -> float_op k a b (o a b).
Proof.
  intros H Ba Bb. destruct k; inversion H; subst; [apply add_op|apply sub_op|apply mul_op|apply div_op|apply rem_op]; assumption.
Qed.

(** ** the prescribed result is unique *)
Lemma rounded_binary64 x f : rounded x f -> binary64 f.
Proof. intros H. apply H. Qed.
Lemma sum_unique x a b : (x == 0 -> exists s, a = S754_zero s /\ b = S754_zero s)%Q -> rounded x a -> rounded x b -> a = b.
Proof.
  intros Z0 Ra Rb. destruct (Qeq_dec x 0) as [E|N].
  - destruct (Z0 E) as (s & -> & ->). reflexivity.
  - exact (rounded_unique_nonzero x a b N Ra Rb).
Qed.
Lemma rem_unique x y n v n' v' : (~ y == 0)%Q -> (x == inject_Z n * y + v)%Q -> (Qabs v < Qabs y)%Q -> (0 <= x * v)%Q ->
  (x == inject_Z n' * y + v')%Q -> (Qabs v' < Qabs y)%Q -> (0 <= x * v')%Q -> (v == v')%Q.
Proof.
  intros Ny E L S1 E' L' S1'.
  assert (D : (v - v' == inject_Z (n' - n) * y)%Q).
  { unfold Z.sub. rewrite inject_Z_plus, inject_Z_opp. lra. }
  assert (LD : (Qabs (v - v') < Qabs y \/ (v == v'))%Q).
  { destruct (Q_dec x 0) as [[Lx|Gx]|Zx].
    - left. assert (v <= 0)%Q by nra. assert (v' <= 0)%Q by nra.
      rewrite Qabs_neg in L, L' by assumption. apply (Qabs_case (v - v') (fun a => a < _)%Q); intros; lra.
    - left. assert (0 <= v)%Q by nra. assert (0 <= v')%Q by nra.
      rewrite Qabs_pos in L, L' by assumption. apply (Qabs_case (v - v') (fun a => a < _)%Q); intros; lra.
    - right.
      assert (Z0 : forall k u, (x == inject_Z k * y + u)%Q -> (Qabs u < Qabs y)%Q -> (u == 0)%Q).
      { intros k u Ek Lk. assert (Eu : (u == inject_Z (- k) * y)%Q) by (rewrite inject_Z_opp; lra).
        rewrite Eu, Qabs_Qmult in Lk. destruct (Z.eq_dec k 0) as [->|Nk]; [rewrite Eu; change (inject_Z (- 0)) with 0%Q; ring|exfalso].
        assert (1 <= Qabs (inject_Z (- k)))%Q.
        { change (Qabs (inject_Z (- k))) with (inject_Z (Z.abs (- k))). change 1%Q with (inject_Z 1). rewrite <- Zle_Qle. lia. }
        pose proof (Qabs_nonneg y). nra. }
      rewrite (Z0 _ _ E L), (Z0 _ _ E' L'). reflexivity. }
  destruct LD as [LD|LD]; [|exact LD]. rewrite D, Qabs_Qmult in LD.
  destruct (Z.eq_dec (n' - n) 0) as [Z0|N0]; [rewrite Z0 in D; change (inject_Z 0) with 0%Q in D; lra|exfalso].
  assert (1 <= Qabs (inject_Z (n' - n)))%Q.
  { change (Qabs (inject_Z (n' - n))) with (inject_Z (Z.abs (n' - n))). change 1%Q with (inject_Z 1). rewrite <- Zle_Qle. lia. }
  pose proof (Qabs_nonneg y). nra.
Qed.

Lemma value_not_nan a x : value_of a = Some x -> a <> S754_nan.
Proof. destruct a; discriminate. Qed.
Lemma value_not_inf a x s : value_of a = Some x -> a <> S754_infinity s.
Proof. destruct a; discriminate. Qed.
Ltac novalue := match goal with
  | H : value_of S754_nan = Some _ |- _ => discriminate H
  | H : value_of (S754_infinity _) = Some _ |- _ => discriminate H
  end.

Lemma nan_op_result k a b r : is_nan_op k a b -> float_op k a b r -> r = S754_nan.
Proof.
  intros N H. destruct N as [N|[N|N]].
  - subst a. inversion H; subst; try reflexivity; try novalue; congruence.
  - subst b. inversion H; subst; try reflexivity; try novalue; congruence.
  - inversion H; subst; try reflexivity; cbn [is_nan_op] in N;
      repeat match goal with
        | H : _ \/ _ |- _ => destruct H
        | H : exists _, _ |- _ => destruct H
        | H : _ /\ _ |- _ => destruct H
        end; subst; try novalue; try discriminate; try congruence.
    all: try (match goal with H : S754_infinity _ = S754_infinity _ |- _ => inversion H; subst end; congruence).
    all: try (exfalso; match goal with H : value_of _ = Some _, K : ~ _ |- _ => cbn in H; inversion H; subst; apply K; reflexivity end).
    all: try (exfalso; match goal with H : forall t, S754_zero ?z <> _ |- _ => exact (H z eq_refl) end).
    all: match goal with
      | H3 : S754_infinity ?s = S754_infinity (negb ?x), H1 : S754_infinity ?x <> S754_infinity (negb ?s) |- _ =>
          inversion H3; subst; destruct x; exfalso; apply H1; reflexivity
      end.
Qed.

Lemma is_nan_dec k a b : is_nan_op k a b \/ ~ is_nan_op k a b.
Proof.
  unfold is_nan_op.
  destruct a as [s|s| |s m e], b as [t|t| |t n f]; try (left; solve [auto]);
    destruct k; try (left; solve [eauto 7]);
    try (right; intros [E|[E|E]]; [discriminate|discriminate|];
         repeat match goal with
           | H : _ \/ _ |- _ => destruct H
           | H : exists _, _ |- _ => destruct H
           | H : _ /\ _ |- _ => destruct H
           end; solve [discriminate|contradiction]).
  all: destruct s, t.
  all: try (left; right; right; eexists; split; reflexivity).
  all: right; intros [E|[E|(u & E & E')]]; [discriminate|discriminate|]; destruct u; discriminate.
Qed.

Lemma float_op_unique k a b r r' : float_op k a b r -> float_op k a b r' -> r = r'.
Proof.
  intros H H'.
  destruct (is_nan_dec k a b) as [N|N].
  { rewrite (nan_op_result k a b r N H), (nan_op_result k a b r' N H'). reflexivity. }
  inversion H; subst; try (exfalso; apply N; assumption);
    inversion H'; subst; try (exfalso; apply N; assumption); try novalue; try reflexivity;
    repeat match goal with
      | E : value_of ?a = Some ?x, E' : value_of ?a = Some ?y |- _ =>
          let F := fresh "F" in assert (F : x = y) by congruence; first [subst x|subst y]; clear E'
      end.
  - eapply sum_unique; [|eassumption|eassumption]. intros E. eauto.
  - eapply sum_unique; [|eassumption|eassumption]. intros E. eauto.
  - eapply rounded_unique; [eassumption|eassumption|congruence].
  - eapply rounded_unique; [eassumption|eassumption|congruence].
  - exfalso. cbn in *. match goal with H : Some _ = Some _ |- _ => inversion H; subst end. auto with qarith.
  - match goal with E1 : (_ == inject_Z ?n * _ + ?v)%Q, E2 : (_ == inject_Z ?n' * _ + ?v')%Q |- _ =>
      tryif constr_eq v v' then fail else assert (EV : (v == v')%Q) by (eapply (rem_unique _ _ n v n' v'); eassumption) end.
    eapply same_value; [| | | |exact EV|]; try eassumption. congruence.
  - exfalso. cbn in *. match goal with H : Some _ = Some _ |- _ => inversion H; subst end. auto with qarith.
  - destruct s, s0; try reflexivity; exfalso; cbn [negb] in *; congruence.
  - destruct s, s0; try reflexivity; exfalso; cbn [negb] in *; congruence.
  - destruct s, s0; try reflexivity; exfalso; cbn [negb] in *; congruence.
  - destruct s, s0; try reflexivity; exfalso; cbn [negb] in *; congruence.
Qed.
Theorem float_op_iff k o a b r : op_of k = Some o -> binary64 a -> binary64 b -> (float_op k a b r <-> r = o a b).
Proof.
  intros H Ba Bb. pose proof (op_sound k o a b H Ba Bb) as S1. split; [intros H'; exact (float_op_unique _ _ _ _ _ H' S1)|intros ->; exact S1].
Qed.
Lemma op_binary64 k o a b : op_of k = Some o -> binary64 a -> binary64 b -> binary64 (o a b).
Proof.
  intros H Ba Bb. pose proof (op_sound k o a b H Ba Bb) as S1. revert S1. generalize (o a b). intros r S1. inversion S1; subst; try exact I; try (eapply rounded_binary64; eassumption); try assumption.
Qed.

(** ** comparison *)
Lemma scaled_compare_pos m e n f : -1074 <= e -> Zpos m < 2 ^ 53 -> (2 ^ 52 <= Zpos m \/ e = -1074) ->
  -1074 <= f -> Zpos n < 2 ^ 53 -> (2 ^ 52 <= Zpos n \/ f = -1074) ->
  (scaled (Zpos m) e ?= scaled (Zpos n) f)%Q = match e ?= f with Eq => Pos.compare m n | c => c end.
Proof.
  assert (W : forall m e n f, -1074 <= e -> Zpos m < 2 ^ 53 -> (2 ^ 52 <= Zpos n \/ f = -1074) -> e < f ->
     (scaled (Zpos m) e < scaled (Zpos n) f)%Q).
  { intros m0 e0 n0 f0 He Hm HK L. replace f0 with (e0 + (f0 - e0)) by lia. rewrite scaled_shift by lia. apply scaled_lt.
    assert (2 ^ 1 <= 2 ^ (f0 - e0)) by (apply Z.pow_le_mono_r; lia). change (2 ^ 1) with 2 in *. change (2 ^ 53) with (2 ^ 52 * 2) in *. nia. }
  intros He Hm HKm Hf Hn HKn. destruct (Z.compare_spec e f) as [E|L|L].
  - subst f. destruct (Pos.compare_spec m n) as [E|L|L].
    + subst n. rewrite <- Qeq_alt. reflexivity.
    + rewrite <- Qlt_alt. apply scaled_lt. lia.
    + rewrite <- Qgt_alt. apply scaled_lt. lia.
  - rewrite <- Qlt_alt. apply W; assumption.
  - rewrite <- Qgt_alt. apply W; assumption.
Qed.
Lemma Qcompare_opp x y : ((- x ?= - y) = CompOpp (x ?= y))%Q.
Proof.
  destruct (Q_dec x y) as [[L|L]|E].
  - assert ((x ?= y)%Q = Lt) as -> by (rewrite <- Qlt_alt; exact L). cbn [CompOpp]. rewrite <- Qgt_alt. lra.
  - assert ((x ?= y)%Q = Gt) as -> by (rewrite <- Qgt_alt; exact L). cbn [CompOpp]. rewrite <- Qlt_alt. lra.
  - assert ((x ?= y)%Q = Eq) as -> by (rewrite <- Qeq_alt; exact E). cbn [CompOpp]. rewrite <- Qeq_alt. lra.
Qed.
Lemma cmp_finite s m e t n f : binary64 (S754_finite s m e) -> binary64 (S754_finite t n f) ->
  SFcompare (S754_finite s m e) (S754_finite t n f) =
  Some (scaled (if s then Zneg m else Zpos m) e ?= scaled (if t then Zneg n else Zpos n) f)%Q.
Proof.
  intros (Be & Bm & Bk) (Ce & Cn & Ck). pose proof (scaled_pos (Zpos m) e ltac:(lia)) as P1. pose proof (scaled_pos (Zpos n) f ltac:(lia)) as P2.
  pose proof (scaled_compare_pos m e n f ltac:(lia) Bm Bk ltac:(lia) Cn Ck) as C.
  pose proof (signed_neg m e) as E1. pose proof (signed_neg n f) as E2. cbn [signed] in E1, E2. cbn [SFcompare]. f_equal.
  destruct s, t.
  - rewrite <- E1, <- E2, Qcompare_opp, C. destruct (e ?= f); reflexivity.
  - symmetry. rewrite <- Qlt_alt. lra.
  - symmetry. rewrite <- Qgt_alt. lra.
  - rewrite C. destruct (e ?= f); reflexivity.
Qed.
Lemma zero_cmp t n f : (0 ?= scaled (if (t : bool) then Zneg n else Zpos n) f)%Q = if t then Gt else Lt.
Proof.
  pose proof (scaled_pos (Zpos n) f ltac:(lia)) as P. pose proof (signed_neg n f) as E. cbn [signed] in E.
  destruct t; [rewrite <- Qgt_alt|rewrite <- Qlt_alt]; lra.
Qed.
Lemma cmp_zero t n f : (scaled (if (t : bool) then Zneg n else Zpos n) f ?= 0)%Q = if t then Lt else Gt.
Proof. rewrite <- Qcompare_antisym, zero_cmp. destruct t; reflexivity. Qed.

Theorem compare_iff a b c : binary64 a -> binary64 b -> (float_cmp a b c <-> SFcompare a b = Some c).
Proof.
  intros Ba Bb. destruct a as [s|s| |s m e], b as [t|t| |t n f]; split; intros H;
    try (inversion H; subst; cbn in *; repeat match goal with H : Some _ = Some _ |- _ => inversion H; subst; clear H end; try discriminate; try reflexivity; fail).
  - inversion H; subst. apply (fc_finite (S754_zero s) (S754_zero t) 0%Q 0%Q); reflexivity.
  - inversion H; subst. apply (fc_inf_r (S754_zero s) t 0%Q). reflexivity.
  - inversion H; subst. cbn in H0, H1. inversion H0; inversion H1; subst. cbn [SFcompare]. rewrite zero_cmp. reflexivity.
  - inversion H; subst. rewrite <- (zero_cmp t n f). apply (fc_finite (S754_zero s) (S754_finite t n f)); reflexivity.
  - inversion H; subst. apply (fc_inf_l s (S754_zero t) 0%Q). reflexivity.
  - cbn in H. injection H as <-. pose proof (fc_inf s t) as F. destruct s, t; exact F.
  - inversion H; subst. eapply (fc_inf_l s (S754_finite t n f)). reflexivity.
  - inversion H; subst. cbn in H0, H1. inversion H0; inversion H1; subst. cbn [SFcompare]. rewrite cmp_zero. reflexivity.
  - inversion H; subst. rewrite <- (cmp_zero s m e). apply (fc_finite (S754_finite s m e) (S754_zero t)); reflexivity.
  - inversion H; subst. eapply (fc_inf_r (S754_finite s m e) t). reflexivity.
  - inversion H; subst. rewrite !finite_value in *. inversion H0; inversion H1; subst. apply cmp_finite; assumption.
  - rewrite cmp_finite in H by assumption. injection H as <-. apply fc_finite; reflexivity.
Qed.
