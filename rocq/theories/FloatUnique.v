(** Rounding to nearest, ties to even determines the float *)
From Coq Require Import Lqa Qpower QArith Qabs.
From Verif Require Import SpecFloat64 FloatProofs.
Open Scope Z_scope.
Local Opaque too_large scaled.

(** a positive number of the format has one float *)
Lemma canon_pos m e n f : (scaled (Zpos m) e == scaled (Zpos n) f)%Q ->
  -1074 <= e -> Zpos m < 2 ^ 53 -> (2 ^ 52 <= Zpos m \/ e = -1074) ->
  -1074 <= f -> Zpos n < 2 ^ 53 -> (2 ^ 52 <= Zpos n \/ f = -1074) -> m = n /\ e = f.
Proof.
  assert (W : forall m e n f, (scaled (Zpos m) e == scaled (Zpos n) f)%Q -> -1074 <= e -> Zpos m < 2 ^ 53 ->
            (2 ^ 52 <= Zpos n \/ f = -1074) -> ~ e < f).
  { intros m0 e0 n0 f0 E He Hm HK L. replace f0 with (e0 + (f0 - e0)) in E by lia. rewrite scaled_shift in E by lia.
    apply scaled_inj in E. assert (2 ^ 1 <= 2 ^ (f0 - e0)) by (apply Z.pow_le_mono_r; lia). change (2 ^ 1) with 2 in *.
    change (2 ^ 53) with (2 ^ 52 * 2) in *. nia. }
  intros E He Hm HKm Hf Hn HKn.
  assert (e = f).
  { pose proof (W m e n f E He Hm HKn). pose proof (W n f m e ltac:(symmetry; exact E) Hf Hn HKm). lia. }
  subst f. apply scaled_inj in E. split; congruence.
Qed.
Lemma same_value f g v w : binary64 f -> binary64 g -> value_of f = Some v -> value_of g = Some w -> (v == w)%Q ->
  sign_of f = sign_of g -> f = g.
Proof.
  intros Bf Bg Vf Vg E S1. destruct f as [s|s| |s m e], g as [t|t| |t n h]; cbn [value_of sign_of] in *; try discriminate; inversion Vf; inversion Vg; subst.
  - reflexivity.
  - symmetry in E. apply scaled_zero_inv in E. destruct t; discriminate.
  - apply scaled_zero_inv in E. destruct t; discriminate.
  - cbn in Bf, Bg. assert (E2 : (scaled (Zpos m) e == scaled (Zpos n) h)%Q).
    { destruct t; [|exact E]. rewrite <- !signed_neg in E. cbn [signed] in E. lra. }
    destruct (canon_pos m e n h E2) as [-> ->]; try lia. reflexivity.
Qed.

(** the next smaller number of the format *)
Lemma pred_exists m e : -1074 <= e -> Zpos m < 2 ^ 53 -> (2 ^ 52 <= Zpos m \/ e = -1074) -> Z.even (Zpos m) = true ->
  exists m' e', 0 < m' < 2 ^ 53 /\ -1074 <= e' /\ (2 ^ 52 <= m' \/ e' = -1074) /\ Z.even m' = false /\
    (scaled m' e' + 2 ^ e' == scaled (Zpos m) e)%Q.
Proof.
  intros He Hm HK Ev. assert (2 <= Zpos m) by (destruct m as [?|?|]; cbn in Ev; try discriminate; lia).
  destruct (Z.eq_dec (Zpos m) (2 ^ 52)) as [E|N]; [destruct (Z.eq_dec e (-1074)) as [E1|N1]|].
  - exists (Zpos m - 1), e. split; [lia|]. split; [lia|]. split; [lia|]. split.
    + rewrite Z.even_sub, Ev. reflexivity.
    + rewrite <- scaled_1, <- scaled_add. replace (Z.pos m - 1 + 1) with (Z.pos m) by lia. reflexivity.
  - exists (2 ^ 53 - 1), (e - 1). split; [lia|]. split; [lia|]. split; [lia|]. split; [reflexivity|].
    rewrite <- scaled_1, <- scaled_add. replace e with (e - 1 + 1) at 2 by lia. rewrite scaled_shift by lia. rewrite E. reflexivity.
  - exists (Zpos m - 1), e. split; [lia|]. split; [lia|]. split; [lia|]. split.
    + rewrite Z.even_sub, Ev. reflexivity.
    + rewrite <- scaled_1, <- scaled_add. replace (Z.pos m - 1 + 1) with (Z.pos m) by lia. reflexivity.
Qed.
(** nothing lies in between *)
Lemma gap m' e' n f : -1074 <= e' -> 0 < m' < 2 ^ 53 -> (2 ^ 52 <= m' \/ e' = -1074) ->
  -1074 <= f -> Z.abs n < 2 ^ 53 ->
  (scaled m' e' < scaled n f)%Q -> (scaled m' e' + 2 ^ e' <= scaled n f)%Q.
Proof.
  intros He Hm HK Hf Hn L. rewrite <- scaled_1, <- scaled_add. destruct (Z_le_gt_dec e' f) as [G|G].
  - replace f with (e' + (f - e')) in * by lia. rewrite scaled_shift in * by lia. apply scaled_lt_inv in L. apply scaled_le. lia.
  - exfalso. replace e' with (f + (e' - f)) in L by lia. rewrite scaled_shift in L by lia. apply scaled_lt_inv in L.
    assert (2 ^ 1 <= 2 ^ (e' - f)) by (apply Z.pow_le_mono_r; lia). change (2 ^ 1) with 2 in *.
    destruct HK as [HK|HK]; [|lia]. change (2 ^ 53) with (2 ^ 52 * 2) in *. nia.
Qed.

(** two even floats cannot be equally near with nothing nearer *)
Lemma even_tie x v f w g : binary64 f -> binary64 g -> value_of f = Some v -> value_of g = Some w ->
  even_float f -> even_float g -> (v < w)%Q -> (Qabs v <= w)%Q -> (x - v == w - x)%Q ->
  (forall m e, Z.abs m < 2 ^ 53 -> -1074 <= e -> (Qabs (x - v) <= Qabs (x - scaled m e))%Q) -> False.
Proof.
  intros Bf Bg Vf Vg Ef Eg L A X N.
  assert (W0 : (0 < w)%Q).
  { destruct (Qlt_le_dec 0 w) as [H|H]; [exact H|]. revert A. apply (Qabs_case v (fun a => a <= w -> 0 < w)%Q); intros; lra. }
  destruct g as [t|t| |t n e]; cbn [value_of] in Vg; try discriminate; inversion Vg; subst w; [lra|].
  assert (t = false). { destruct t; [|reflexivity]. rewrite <- signed_neg in W0. cbn [signed] in W0. pose proof (scaled_pos (Zpos n) e ltac:(lia)). lra. }
  subst t. cbn in Bg. destruct Bg as (Bg1 & Bg2 & Bg3).
  destruct (pred_exists n e ltac:(lia) Bg2 Bg3 Eg) as (m' & e' & Hm' & He' & HK' & Odd & Ew).
  pose proof (two_pos e') as P.
  assert (V : (v <= scaled m' e')%Q).
  { destruct (Qlt_le_dec (scaled m' e') v) as [H|H]; [|exact H]. exfalso.
    destruct (binary64_grid f v Bf Vf) as (k & h & Ek & Hk & Hh). rewrite Ek in H.
    pose proof (gap m' e' k h He' Hm' HK' ltac:(lia) Hk H). lra. }
  assert (V2 : (v < scaled m' e')%Q).
  { destruct (Qlt_le_dec v (scaled m' e')) as [H|H]; [exact H|]. exfalso.
    assert (Ev : (v == scaled m' e')%Q) by lra. pose proof (scaled_pos m' e' ltac:(lia)) as Pm.
    destruct f as [s|s| |s k h]; cbn [value_of] in Vf; try discriminate; inversion Vf; subst v; [lra|].
    destruct s; [rewrite <- signed_neg in Ev; cbn [signed] in Ev; pose proof (scaled_pos (Zpos k) h ltac:(lia)); lra|].
    cbn in Bf. destruct m' as [|m'|m']; try lia.
    destruct (canon_pos k h m' e' Ev) as [-> ->]; try lia. cbn in Ef, Odd. congruence. }
  specialize (N m' e' ltac:(lia) He'). revert N.
  apply (Qabs_case (x - v) (fun a => a <= _ -> False)%Q); intros; [|lra].
  revert H0. apply (Qabs_case (x - scaled m' e') (fun a => _ <= a -> False)%Q); intros; lra.
Qed.

Definition fopp (f : f64) : f64 := SFopp f.
Lemma value_opp f v : value_of f = Some v -> exists v', value_of (fopp f) = Some v' /\ (v' == - v)%Q.
Proof.
  destruct f as [s|s| |s m e]; cbn; intros V; inversion V; subst.
  - exists 0%Q. split; [reflexivity|lra].
  - eexists. split; [reflexivity|]. destruct s; cbn [negb]; rewrite <- signed_neg; cbn [signed]; lra.
Qed.
Lemma binary64_opp f : binary64 f -> binary64 (fopp f).
Proof. destruct f; exact (fun H => H). Qed.
Lemma even_opp f : even_float f -> even_float (fopp f).
Proof. destruct f; exact (fun H => H). Qed.

Lemma even_tie_sym x v f w g : binary64 f -> binary64 g -> value_of f = Some v -> value_of g = Some w ->
  even_float f -> even_float g -> (v < w)%Q -> (x - v == w - x)%Q ->
  (forall m e, Z.abs m < 2 ^ 53 -> -1074 <= e -> (Qabs (x - v) <= Qabs (x - scaled m e))%Q) -> False.
Proof.
  intros Bf Bg Vf Vg Ef Eg L X N. destruct (Qlt_le_dec w (Qabs v)) as [A|A].
  - destruct (value_opp f v Vf) as (v' & Vf' & Ev). destruct (value_opp g w Vg) as (w' & Vg' & Ew).
    apply (even_tie (- x) w' (fopp g) v' (fopp f)); auto using binary64_opp, even_opp.
    + lra.
    + revert A. apply (Qabs_case v (fun a => w < a -> _)%Q); intros; [lra|].
      apply (Qabs_case w' (fun a => a <= _)%Q); intros; lra.
    + lra.
    + intros m e Hm He. specialize (N (- m) e ltac:(lia) He). rewrite scaled_opp in N.
      assert (E1 : (Qabs (- x - w') == Qabs (x - v))%Q) by (rewrite <- Qabs_opp; rewrite <- (Qabs_opp (x - v)); apply Qabs_wd; lra).
      assert (E2 : (Qabs (- x - scaled m e) == Qabs (x - - scaled m e))%Q) by (rewrite <- Qabs_opp; apply Qabs_wd; lra).
      lra.
  - exact (even_tie x v f w g Bf Bg Vf Vg Ef Eg L A X N).
Qed.

Lemma nearest_value x f g : binary64 f -> binary64 g -> nearest x f -> nearest x g ->
  exists v w, value_of f = Some v /\ value_of g = Some w /\ (v == w)%Q.
Proof.
  intros Bf Bg (v & Vf & Nf) (w & Vg & Ng). exists v, w. split; [exact Vf|]. split; [exact Vg|].
  destruct (binary64_grid f v Bf Vf) as (m & e & Em & Hm & He). destruct (binary64_grid g w Bg Vg) as (n & h & En & Hn & Hh).
  destruct (Nf n h Hn ltac:(lia)) as [F1 F2]. destruct (Ng m e Hm ltac:(lia)) as [G1 G2].
  assert (Ew : (Qabs (x - scaled n h) == Qabs (x - w))%Q) by (apply Qabs_wd; lra).
  assert (Ev : (Qabs (x - scaled m e) == Qabs (x - v))%Q) by (apply Qabs_wd; lra).
  destruct F2 as [F2|F2]; [lra|lra|]. destruct G2 as [G2|G2]; [lra|lra|].
  destruct (Qlt_le_dec v w) as [L|L]; [|destruct (Qlt_le_dec w v) as [L2|L2]; [|lra]]; exfalso.
  - apply (even_tie_sym x v f w g Bf Bg Vf Vg F2 G2 L).
    + assert (Q1 : (Qabs (x - v) == Qabs (x - w))%Q) by lra. revert Q1.
      apply (Qabs_case (x - v) (fun a => a == _ -> _)%Q); intros H H0; revert H0; apply (Qabs_case (x - w) (fun a => _ == a -> _)%Q); intros; lra.
    + intros m0 e0 H0 H1. apply Nf; assumption.
  - apply (even_tie_sym x w g v f Bg Bf Vg Vf G2 F2 L2).
    + assert (Q1 : (Qabs (x - v) == Qabs (x - w))%Q) by lra. revert Q1.
      apply (Qabs_case (x - v) (fun a => a == _ -> _)%Q); intros H H0; revert H0; apply (Qabs_case (x - w) (fun a => _ == a -> _)%Q); intros; lra.
    + intros m0 e0 H0 H1. apply Ng; assumption.
Qed.

Theorem rounded_unique x f g : rounded x f -> rounded x g -> sign_of f = sign_of g -> f = g.
Proof.
  intros (Bf & _ & _ & Df) (Bg & _ & _ & Dg) S1.
  destruct Df as [[L1 N1]|[L1 (s & ->)]], Dg as [[L2 N2]|[L2 (t & ->)]]; try lra.
  - destruct (nearest_value x f g Bf Bg N1 N2) as (v & w & Vf & Vg & E). exact (same_value f g v w Bf Bg Vf Vg E S1).
  - cbn in S1. congruence.
Qed.
Theorem rounded_unique_nonzero x f g : ~ (x == 0)%Q -> rounded x f -> rounded x g -> f = g.
Proof.
  intros N Rf Rg. apply (rounded_unique x f g Rf Rg). destruct Rf as (_ & P1 & N1 & _), Rg as (_ & P2 & N2 & _).
  destruct (Qlt_le_dec 0 x) as [L|L]; [rewrite P1, P2 by exact L; reflexivity|].
  assert (x < 0)%Q by (destruct (Qlt_le_dec x 0) as [L2|L2]; [exact L2|exfalso; apply N; lra]).
  rewrite N1, N2 by assumption. reflexivity.
Qed.
