(** Rounding in the standard library's float specification is rounding to
    nearest, ties to even *)
From Coq Require Import Lqa Qpower QArith Qabs.
From Verif Require Import SpecFloat64.
Open Scope Z_scope.

(** ** powers of two *)
Lemma two_pos e : (0 < 2 ^ e)%Q.
Proof. apply Qpower_0_lt. reflexivity. Qed.
Lemma two_add a b : (2 ^ (a + b) == 2 ^ a * 2 ^ b)%Q.
Proof. apply Qpower_plus. discriminate. Qed.
Lemma two_Z n : 0 <= n -> (2 ^ n == inject_Z (2 ^ n))%Q.
Proof. intros H. rewrite Zpower_Qpower by exact H. reflexivity. Qed.
Lemma two_succ e : (2 ^ (e + 1) == 2 * 2 ^ e)%Q.
Proof. rewrite two_add. change (2 ^ 1)%Q with (2#1). lra. Qed.
Lemma scaled_shift m e n : 0 <= n -> (scaled m (e + n) == scaled (m * 2 ^ n) e)%Q.
Proof. intros H. unfold scaled. rewrite two_add, (two_Z n H), inject_Z_mult. ring. Qed.
Lemma scaled_le m m' e : m <= m' -> (scaled m e <= scaled m' e)%Q.
Proof. intros H. unfold scaled. apply Qmult_le_compat_r; [rewrite <- Zle_Qle; exact H|apply Qlt_le_weak, two_pos]. Qed.
Lemma scaled_lt m m' e : m < m' -> (scaled m e < scaled m' e)%Q.
Proof. intros H. unfold scaled. apply Qmult_lt_compat_r; [apply two_pos|rewrite <- Zlt_Qlt; exact H]. Qed.
Lemma scaled_lt_inv m m' e : (scaled m e < scaled m' e)%Q -> m < m'.
Proof. intros H. destruct (Z_lt_le_dec m m') as [L|L]; [exact L|]. apply (scaled_le _ _ e) in L. lra. Qed.
Lemma scaled_le_inv m m' e : (scaled m e <= scaled m' e)%Q -> m <= m'.
Proof. intros H. destruct (Z_le_gt_dec m m') as [L|L]; [exact L|]. apply Z.gt_lt in L. apply (scaled_lt _ _ e) in L. lra. Qed.
Lemma scaled_inj m m' e : (scaled m e == scaled m' e)%Q -> m = m'.
Proof. intros H. apply Z.le_antisymm; apply (scaled_le_inv _ _ e); lra. Qed.
Lemma scaled_add a b e : (scaled (a + b) e == scaled a e + scaled b e)%Q.
Proof. unfold scaled. rewrite inject_Z_plus. ring. Qed.
Lemma scaled_opp a e : (scaled (- a) e == - scaled a e)%Q.
Proof. unfold scaled. rewrite inject_Z_opp. ring. Qed.
Lemma scaled_1 e : (scaled 1 e == 2 ^ e)%Q.
Proof. unfold scaled. change (inject_Z 1) with 1%Q. ring. Qed.
Lemma scaled_0 e : (scaled 0 e == 0)%Q.
Proof. unfold scaled. change (inject_Z 0) with 0%Q. ring. Qed.
Lemma scaled_pos m e : 0 < m -> (0 < scaled m e)%Q.
Proof. intros H. rewrite <- (scaled_0 e). apply scaled_lt. exact H. Qed.

(** ** where a number lies between two neighbours *)
Definition inb (m e : Z) (x : Q) (l : location) : Prop :=
  match l with
  | loc_Exact => (x == scaled m e)%Q
  | loc_Inexact Lt => (scaled m e < x /\ 2 * x < 2 * scaled m e + 2 ^ e)%Q
  | loc_Inexact Eq => (2 * x == 2 * scaled m e + 2 ^ e)%Q
  | loc_Inexact Gt => (2 * scaled m e + 2 ^ e < 2 * x /\ x < scaled m e + 2 ^ e)%Q
  end.
Definition inbr (r : shr_record) (e : Z) (x : Q) : Prop := inb (shr_m r) e x (loc_of_shr_record r).

Lemma inb_range m e x l : inb m e x l -> (scaled m e <= x /\ x < scaled (m + 1) e)%Q.
Proof.
  pose proof (two_pos e). rewrite scaled_add, scaled_1.
  destruct l as [|[]]; cbn; intros; lra.
Qed.
Lemma inbr_of_loc m e x l : inb m e x l -> inbr (shr_record_of_loc m l) e x.
Proof. destruct l as [|[]]; exact (fun H => H). Qed.
Lemma shr_1_ok r e x : 0 <= shr_m r -> inbr r e x ->
  inbr (shr_1 r) (e + 1) x /\ 0 <= shr_m (shr_1 r) /\ shr_m (shr_1 r) = shr_m r / 2.
Proof.
  intros H. destruct r as [m r s]. cbn [shr_m] in *. unfold inbr.
  pose proof (two_pos e) as P.
  assert (D : forall p b, 0 <= p -> (scaled (2 * p + Z.b2z b) e == scaled p (e + 1) + (if b then 2 ^ e else 0))%Q).
  { intros p b Hp. rewrite scaled_add. replace (2 * p) with (p * 2 ^ 1) by lia. rewrite <- scaled_shift by lia.
    destruct b; cbn [Z.b2z]; [rewrite scaled_1|rewrite scaled_0]; reflexivity. }
  pose proof (two_succ e) as T.
  destruct m as [|[p|p|]|p]; try lia; cbn [shr_1 shr_m loc_of_shr_record].
  - pose proof (scaled_0 e). pose proof (scaled_0 (e + 1)).
    intros I. split; [|split; [lia|reflexivity]].
    destruct r, s; cbn [orb] in *; cbn in *; lra.
  - pose proof (D (Zpos p) true ltac:(lia)) as E. change (2 * Z.pos p + Z.b2z true) with (Zpos p~1) in E.
    intros I. split; [|split; [lia|]].
    + destruct r, s; cbn [orb] in *; cbn in *; lra.
    + change (Zpos p~1) with (2 * Zpos p + 1). rewrite Z.mul_comm, Z.div_add_l by lia. cbn. lia.
  - pose proof (D (Zpos p) false ltac:(lia)) as E. change (2 * Z.pos p + Z.b2z false) with (Zpos p~0) in E.
    intros I. split; [|split; [lia|]].
    + destruct r, s; cbn [orb] in *; cbn in *; lra.
    + change (Zpos p~0) with (2 * Zpos p). rewrite Z.mul_comm, Z.div_mul by lia. reflexivity.
  - pose proof (scaled_1 e). pose proof (scaled_0 (e + 1)).
    intros I. split; [|split; [lia|reflexivity]].
    destruct r, s; cbn [orb] in *; cbn in *; lra.
Qed.
Lemma iter_shr_ok (p : positive) : forall r e x, 0 <= shr_m r -> inbr r e x ->
  inbr (SpecFloat.iter_pos shr_1 p r) (e + Zpos p) x /\ 0 <= shr_m (SpecFloat.iter_pos shr_1 p r) /\ shr_m (SpecFloat.iter_pos shr_1 p r) = shr_m r / 2 ^ Zpos p.
Proof.
  induction p as [p IH|p IH|]; intros r e x H I; cbn [SpecFloat.iter_pos].
  - destruct (shr_1_ok r e x H I) as (I1 & H1 & E1).
    destruct (IH _ _ _ H1 I1) as (I2 & H2 & E2). destruct (IH _ _ _ H2 I2) as (I3 & H3 & E3).
    replace (e + Z.pos p~1) with (e + 1 + Z.pos p + Z.pos p) by lia. split; [exact I3|]. split; [exact H3|].
    rewrite E3, E2, E1, !Z.div_div by (try apply Z.pow_pos_nonneg; lia). f_equal.
    rewrite <- Z.pow_add_r by lia. change 2 with (2 ^ 1) at 1. rewrite <- Z.pow_add_r by lia. f_equal; lia.
  - destruct (IH _ _ _ H I) as (I2 & H2 & E2). destruct (IH _ _ _ H2 I2) as (I3 & H3 & E3).
    replace (e + Z.pos p~0) with (e + Z.pos p + Z.pos p) by lia. split; [exact I3|]. split; [exact H3|].
    rewrite E3, E2, !Z.div_div by (try apply Z.pow_pos_nonneg; lia). f_equal.
    rewrite <- Z.pow_add_r by lia. f_equal; lia.
  - destruct (shr_1_ok r e x H I) as (I1 & H1 & E1). repeat split; assumption.
Qed.

(** ** number of bits *)
Lemma digits_log2 p : Zpos (digits2_pos p) = Z.log2 (Zpos p) + 1.
Proof.
  induction p as [p IH|p IH|]; cbn [digits2_pos]; [| |reflexivity].
  - rewrite Pos2Z.inj_succ, IH. change (Zpos p~1) with (2 * Zpos p + 1). rewrite Z.log2_succ_double by lia. lia.
  - rewrite Pos2Z.inj_succ, IH. change (Zpos p~0) with (2 * Zpos p). rewrite Z.log2_double by lia. lia.
Qed.
Lemma digits_range m : 0 < m -> 2 ^ (Zdigits2 m - 1) <= m < 2 ^ Zdigits2 m.
Proof.
  intros H. destruct m as [|p|p]; try lia. cbn [Zdigits2]. rewrite digits_log2.
  replace (Z.log2 (Z.pos p) + 1 - 1) with (Z.log2 (Z.pos p)) by lia.
  pose proof (Z.log2_spec (Zpos p) ltac:(lia)). replace (Z.log2 (Z.pos p) + 1) with (Z.succ (Z.log2 (Z.pos p))) by lia. exact H0.
Qed.
Lemma digits_nonneg m : 0 <= m -> 0 <= Zdigits2 m.
Proof. destruct m; cbn; lia. Qed.
Lemma digits_le m n : 0 <= n -> 0 <= m < 2 ^ n -> Zdigits2 m <= n.
Proof.
  intros Hn H. destruct (Z.eq_dec m 0) as [->|N]; [cbn; lia|].
  pose proof (digits_range m ltac:(lia)). destruct (Z_le_gt_dec (Zdigits2 m) n) as [L|L]; [exact L|].
  assert (2 ^ n <= 2 ^ (Zdigits2 m - 1)) by (apply Z.pow_le_mono_r; lia). lia.
Qed.
Lemma digits_ge m n : 0 <= n -> 2 ^ n <= m -> n + 1 <= Zdigits2 m.
Proof.
  intros Hn H. pose proof (Z.pow_pos_nonneg 2 n ltac:(lia) Hn).
  pose proof (digits_range m ltac:(lia)). destruct (Z_le_gt_dec (n + 1) (Zdigits2 m)) as [L|L]; [exact L|].
  assert (2 ^ Zdigits2 m <= 2 ^ n) by (apply Z.pow_le_mono_r; lia). lia.
Qed.

(** ** the first step of rounding: at most 53 bits are kept *)
Definition fexp64 : Z -> Z := fexp 53 1024.
Lemma fexp64_eq e : fexp64 e = Z.max (e - 53) (-1074).
Proof. reflexivity. Qed.

Lemma shr_fexp_ok m e x l : 0 <= m -> inb m e x l -> e <= fexp64 (Zdigits2 m + e) ->
  exists r e', shr_fexp 53 1024 m e l = (r, e') /\ inbr r e' x /\
    0 <= shr_m r < 2 ^ 53 /\ -1074 <= e' /\ (e' = -1074 \/ 2 ^ 52 <= shr_m r).
Proof.
  intros Hm I He. unfold shr_fexp. change (fexp 53 1024) with fexp64 in *.
  rewrite fexp64_eq in *. remember (Z.max (Zdigits2 m + e - 53) (-1074) - e) as n eqn:Hnd.
  pose proof (digits_nonneg m Hm) as Dn. assert (Hn : 0 <= n) by lia.
  assert (B : 0 <= m / 2 ^ n < 2 ^ 53 /\ -1074 <= e + n /\ (e + n = -1074 \/ 2 ^ 52 <= m / 2 ^ n)).
  { assert (P : 0 < 2 ^ n) by (apply Z.pow_pos_nonneg; lia).
    split; [split; [apply Z.div_pos; lia|]|split].
    - apply Z.div_lt_upper_bound; [lia|]. rewrite <- Z.pow_add_r by lia.
      destruct (Z.eq_dec m 0) as [->|N]; [apply Z.pow_pos_nonneg; lia|].
      pose proof (digits_range m ltac:(lia)) as [_ U]. eapply Z.lt_le_trans; [exact U|]. apply Z.pow_le_mono_r; lia.
    - lia.
    - destruct (Z.max_spec (Zdigits2 m + e - 53) (-1074)) as [[M E]|[M E]].
      + left. lia.
      + right. apply Z.div_le_lower_bound; [lia|]. rewrite <- Z.pow_add_r by lia.
        assert (0 < m) by (destruct (Z.eq_dec m 0) as [->|N]; [cbn [Zdigits2] in *; lia|lia]).
        pose proof (digits_range m ltac:(lia)) as [L _]. eapply Z.le_trans; [|exact L]. apply Z.pow_le_mono_r; lia. }
  destruct n as [|p|p] eqn:En; cbn [shr].
  - rewrite Z.pow_0_r, Z.div_1_r, Z.add_0_r in B. eexists _, _. split; [reflexivity|]. split; [apply inbr_of_loc; exact I|].
    destruct l as [|[]]; exact B.
  - destruct (iter_shr_ok p (shr_record_of_loc m l) e x) as (I' & H' & E').
    { destruct l as [|[]]; exact Hm. }
    { apply inbr_of_loc. exact I. }
    eexists _, _. split; [reflexivity|]. split; [exact I'|]. rewrite E'. replace (shr_m (shr_record_of_loc m l)) with m by (destruct l as [|[]]; reflexivity). exact B.
  - exfalso. lia.
Qed.

(** ** the second step: a neighbour is chosen *)
Lemma rne_ok m e x l : inb m e x l ->
  let m2 := round_nearest_even m l in
  m <= m2 <= m + 1 /\ (- 2 ^ e <= 2 * (x - scaled m2 e) <= 2 ^ e)%Q /\
  ((2 * (x - scaled m2 e) == 2 ^ e \/ 2 * (x - scaled m2 e) == - 2 ^ e)%Q -> Z.even m2 = true).
Proof.
  pose proof (two_pos e) as P. pose proof (scaled_add m 1 e) as A. pose proof (scaled_1 e) as A1.
  destruct l as [|[]]; cbn [inb round_nearest_even]; intros I.
  - split; [lia|]. split; [lra|]. intros [E|E]; lra.
  - destruct (Z.even m) eqn:Ev.
    + split; [lia|]. split; [lra|]. intros _; exact Ev.
    + split; [lia|]. split; [lra|]. intros _. rewrite Z.even_add, Ev. reflexivity.
  - split; [lia|]. split; [lra|]. intros [E|E]; lra.
  - split; [lia|]. split; [lra|]. intros [E|E]; lra.
Qed.

Lemma abs_half x y : (- y <= 2 * x <= y -> 2 * Qabs x <= y)%Q.
Proof. intros [H1 H2]. apply (Qabs_case x (fun a => 2 * a <= y)%Q); intros; lra. Qed.

(** nothing with 53 bits is nearer *)
Lemma nearest_grid m2 e x : (0 <= x)%Q -> -1074 <= e -> (e = -1074 \/ (scaled (2 ^ 52) e <= x)%Q) ->
  (- 2 ^ e <= 2 * (x - scaled m2 e) <= 2 ^ e)%Q ->
  ((2 * (x - scaled m2 e) == 2 ^ e \/ 2 * (x - scaled m2 e) == - 2 ^ e)%Q -> Z.even m2 = true) ->
  forall m f, Z.abs m < 2 ^ 53 -> -1074 <= f ->
    (Qabs (x - scaled m2 e) <= Qabs (x - scaled m f))%Q /\
    ((Qabs (x - scaled m2 e) == Qabs (x - scaled m f))%Q -> (scaled m f == scaled m2 e)%Q \/ Z.even m2 = true).
Proof.
  intros Hx He HK HR HT. pose proof (two_pos e) as P.
  assert (G : forall k, (Qabs (x - scaled m2 e) <= Qabs (x - scaled k e))%Q /\
    ((Qabs (x - scaled m2 e) == Qabs (x - scaled k e))%Q -> (scaled k e == scaled m2 e)%Q \/ Z.even m2 = true)).
  { intros k. destruct (Z.eq_dec k m2) as [->|N].
    { split; [lra|]. intros _; left; reflexivity. }
    pose proof (abs_half _ _ HR) as AH.
    assert (F : (2 ^ e <= 2 * Qabs (x - scaled k e))%Q).
    { pose proof (scaled_1 e) as S1. apply (Qabs_case (x - scaled k e) (fun a => 2 ^ e <= 2 * a)%Q); intros.
      - destruct (Z_lt_le_dec k m2) as [L|L].
        + assert (L2 : k + 1 <= m2) by lia. apply (scaled_le _ _ e) in L2. rewrite scaled_add in L2. lra.
        + assert (L2 : m2 + 1 <= k) by lia. apply (scaled_le _ _ e) in L2. rewrite scaled_add in L2. lra.
      - destruct (Z_lt_le_dec k m2) as [L|L].
        + assert (L2 : k + 1 <= m2) by lia. apply (scaled_le _ _ e) in L2. rewrite scaled_add in L2. lra.
        + assert (L2 : m2 + 1 <= k) by lia. apply (scaled_le _ _ e) in L2. rewrite scaled_add in L2. lra. }
    split; [lra|]. intros E. right. apply HT.
    revert E AH F. apply (Qabs_case (x - scaled m2 e) (fun a => a == _ -> 2 * a <= _ -> _ -> _)%Q); intros; [left|right]; lra. }
  intros m f Hm Hf. destruct (Z_le_gt_dec e f) as [L|L].
  - assert (E : (scaled m f == scaled (m * 2 ^ (f - e)) e)%Q).
    { rewrite <- scaled_shift by lia. replace (e + (f - e)) with f by lia. reflexivity. }
    destruct (G (m * 2 ^ (f - e))) as [G1 G2].
    assert (E2 : (Qabs (x - scaled m f) == Qabs (x - scaled (m * 2 ^ (f - e)) e))%Q) by (apply Qabs_wd; lra).
    split; [lra|]. intros E3. destruct G2 as [G2|G2]; [lra| |right; exact G2]. left. lra.
  - destruct HK as [HK|HK]; [lia|].
    assert (Lt1 : (scaled m f < scaled (2 ^ 52) e)%Q).
    { replace e with (f + (e - f)) by lia. rewrite scaled_shift by lia. apply scaled_lt.
      assert (2 ^ 1 <= 2 ^ (e - f)) by (apply Z.pow_le_mono_r; lia). change (2 ^ 1) with 2 in *. change (2 ^ 53) with (2 ^ 52 * 2) in Hm. nia. }
    destruct (G (2 ^ 52)) as [G1 _].
    assert (E : (Qabs (x - scaled (2 ^ 52) e) < Qabs (x - scaled m f))%Q).
    { rewrite !Qabs_pos by lra. lra. }
    split; [lra|]. intros E3. lra.
Qed.

Lemma too_large_eq : (too_large == scaled (2 ^ 53) 971 - 2 ^ 970)%Q.
Proof.
  unfold too_large. change 971 with (970 + 1) at 1. rewrite scaled_shift by lia.
  rewrite <- (scaled_1 970). unfold Qminus. rewrite <- scaled_opp, <- scaled_add. reflexivity.
Qed.

Lemma too_large_pos : (0 < too_large)%Q.
Proof. apply scaled_pos. reflexivity. Qed.
Local Opaque too_large.

Definition signed (s : bool) (x : Q) : Q := if s then (- x)%Q else x.

Lemma shr_fexp_exact m e : 0 <= m <= 2 ^ 53 -> -1074 <= e -> (e = -1074 \/ 2 ^ 52 <= m) ->
  exists r e', shr_fexp 53 1024 m e loc_Exact = (r, e') /\
    ((m < 2 ^ 53 /\ shr_m r = m /\ e' = e) \/ (m = 2 ^ 53 /\ shr_m r = 2 ^ 52 /\ e' = e + 1)).
Proof.
  intros Hm He HK. unfold shr_fexp. change (fexp 53 1024) with fexp64 in *. rewrite fexp64_eq.
  destruct (Z.eq_dec m (2 ^ 53)) as [->|N].
  - change (Zdigits2 (2 ^ 53)) with 54. replace (Z.max (54 + e - 53) (-1074) - e) with 1 by lia.
    eexists _, _. split; [reflexivity|]. right. repeat split; reflexivity.
  - pose proof (digits_le m 53 ltac:(lia) ltac:(lia)) as D.
    destruct (Z.max (Zdigits2 m + e - 53) (-1074) - e) as [|p|p] eqn:E; try lia;
      (eexists _, _; split; [reflexivity|]; left; split; [lia|split; reflexivity]).
Qed.

Theorem round_aux_ok s m e x l : 0 <= m -> inb m e x l -> e <= fexp64 (Zdigits2 m + e) -> (0 <= x)%Q ->
  let f := binary_round_aux 53 1024 s m e l in
  rounded (signed s x) f /\ sign_of f = s /\ f <> S754_nan.
Proof.
  intros Hm I He Hx. cbn zeta. unfold binary_round_aux.
  destruct (shr_fexp_ok m e x l Hm I He) as (r & e1 & -> & I1 & Hr & He1 & HK).
  set (m1 := shr_m r) in *. pose proof (rne_ok _ _ _ _ I1) as R. fold m1 in R. cbn zeta in R.
  set (m2 := round_nearest_even m1 (loc_of_shr_record r)) in *. destruct R as (R1 & R2 & R3).
  destruct (inb_range _ _ _ _ I1) as [B1 B2]. fold m1 in B1, B2.
  destruct (shr_fexp_exact m2 e1) as (r2 & e2 & -> & C); [lia|lia|lia|].
  assert (GN : forall m f, Z.abs m < 2 ^ 53 -> -1074 <= f ->
    (Qabs (x - scaled m2 e1) <= Qabs (x - scaled m f))%Q /\
    ((Qabs (x - scaled m2 e1) == Qabs (x - scaled m f))%Q -> (scaled m f == scaled m2 e1)%Q \/ Z.even m2 = true)).
  { apply nearest_grid; auto. destruct HK as [HK|HK]; [left; exact HK|right].
    apply (scaled_le _ _ e1) in HK. lra. }
  assert (NR : forall g, value_of g = Some (scaled (if s then - m2 else m2) e1) \/ (exists v, value_of g = Some v /\ (v == scaled (if s then - m2 else m2) e1)%Q) ->
     (Z.even m2 = true -> even_float g) -> nearest (signed s x) g).
  { intros g HV HE. assert (HV2 : exists v, value_of g = Some v /\ (v == scaled (if s then - m2 else m2) e1)%Q).
    { destruct HV as [HV|HV]; [|exact HV]. eexists. split; [exact HV|reflexivity]. }
    clear HV. destruct HV2 as (v & HV & Ev). exists v. split; [exact HV|]. intros k f Hk Hf.
    destruct s; cbn [signed].
    - rewrite scaled_opp in Ev. destruct (GN (- k) f ltac:(lia) Hf) as [G1 G2]. rewrite scaled_opp in G1, G2.
      assert (E1 : (Qabs (- x - v) == Qabs (x - scaled m2 e1))%Q).
      { rewrite <- (Qabs_opp (- x - v)). apply Qabs_wd. lra. }
      assert (E2 : (Qabs (- x - scaled k f) == Qabs (x - - scaled k f))%Q).
      { rewrite <- (Qabs_opp (- x - scaled k f)). apply Qabs_wd. lra. }
      split; [lra|]. intros E3. destruct G2 as [G2|G2]; [lra|left; lra|right; auto].
    - destruct (GN k f Hk Hf) as [G1 G2].
      assert (E1 : (Qabs (x - v) == Qabs (x - scaled m2 e1))%Q) by (apply Qabs_wd; lra).
      split; [lra|]. intros E3. destruct G2 as [G2|G2]; [lra|left; lra|right; auto]. }
  assert (ABS : (Qabs (signed s x) == x)%Q).
  { destruct s; cbn [signed]; [rewrite Qabs_opp|]; apply Qabs_pos; exact Hx. }
  assert (SG : forall g, sign_of g = s -> (0 < signed s x -> sign_of g = false)%Q /\ (signed s x < 0 -> sign_of g = true)%Q).
  { intros g ->. destruct s; cbn [signed]; split; intros; try reflexivity; lra. }
  (* size *)
  assert (BIG : 971 < e2 -> (too_large <= x)%Q).
  { intros Hb. rewrite too_large_eq. pose proof (two_pos 970). pose proof (scaled_1 970) as S1.
    destruct (Z_le_gt_dec 972 e1) as [L|L].
    - destruct HK as [HK|HK]; [lia|]. apply (scaled_le _ _ e1) in HK.
      replace e1 with (971 + (e1 - 971)) in HK at 1 by lia. rewrite scaled_shift in HK by lia.
      assert (scaled (2 ^ 53) 971 <= scaled (2 ^ 52 * 2 ^ (e1 - 971)) 971)%Q.
      { apply scaled_le. assert (2 ^ 1 <= 2 ^ (e1 - 971)) by (apply Z.pow_le_mono_r; lia). change (2 ^ 53) with (2 ^ 52 * 2). change (2 ^ 1) with 2 in *. nia. }
      lra.
    - destruct C as [C|C]; [lia|]. destruct C as (C1 & _ & C2). assert (e1 = 971) by lia. subst e1. rewrite C1 in R2.
      pose proof (two_succ 970) as T. change (970 + 1) with 971 in T. lra. }
  assert (SMALL : e2 <= 971 -> (x < too_large)%Q).
  { intros Hb. rewrite too_large_eq. pose proof (two_pos 970). pose proof (scaled_1 970) as S1.
    pose proof (two_succ 970) as T. change (970 + 1) with 971 in T.
    destruct (Z.eq_dec e1 971) as [->|N].
    - destruct C as [C|C]; [|lia]. destruct C as (C1 & _ & _).
      assert (L2 : m2 + 1 <= 2 ^ 53) by lia. apply (scaled_le _ _ 971) in L2. rewrite scaled_add, scaled_1 in L2.
      destruct (Z.eq_dec (m2 + 1) (2 ^ 53)) as [Em|Nm].
      + assert (Odd : Z.even m2 = false) by (replace m2 with (2 ^ 53 - 1) by lia; reflexivity).
        destruct (Qlt_le_dec (2 * (x - scaled m2 971)) (2 ^ 971)) as [Lq|Lq]; [lra|].
        assert (2 * (x - scaled m2 971) == 2 ^ 971)%Q by lra. rewrite R3 in Odd; [discriminate|left; assumption].
      + assert (L3 : m2 + 1 < 2 ^ 53) by lia. apply (scaled_lt _ _ 971) in L3. rewrite scaled_add, scaled_1 in L3. lra.
    - assert (L1 : e1 <= 970) by lia.
      assert (L2 : (scaled (m1 + 1) e1 <= scaled (2 ^ 53) e1)%Q) by (apply scaled_le; lia).
      assert (L3 : (scaled (2 ^ 53) e1 <= scaled (2 ^ 53) 970)%Q).
      { replace 970 with (e1 + (970 - e1)) by lia. rewrite scaled_shift by lia. apply scaled_le.
        assert (2 ^ 0 <= 2 ^ (970 - e1)) by (apply Z.pow_le_mono_r; lia). change (2 ^ 0) with 1 in *. nia. }
      assert (L4 : (scaled (2 ^ 53) 971 == scaled (2 ^ 53) 970 + scaled (2 ^ 53) 970)%Q).
      { change 971 with (970 + 1). rewrite scaled_shift by lia. rewrite <- scaled_add. reflexivity. }
      assert (L5 : (scaled 1 970 < scaled (2 ^ 53) 970)%Q) by (apply scaled_lt; lia).
      lra. }
  assert (V : (scaled (shr_m r2) e2 == scaled m2 e1)%Q /\ (Z.even m2 = true -> Z.even (shr_m r2) = true) /\
              -1074 <= e2 /\ 0 <= shr_m r2 < 2 ^ 53 /\ (2 ^ 52 <= shr_m r2 \/ e2 = -1074)).
  { destruct C as [(C1 & -> & ->)|(-> & -> & ->)].
    - split; [reflexivity|]. split; [auto|]. split; [lia|]. split; [lia|]. lia.
    - rewrite scaled_shift by lia. split; [reflexivity|]. split; [auto|]. split; [lia|]. split; [lia|]. left. lia. }
  destruct V as (V & VE & He2 & Hr2 & HK2). destruct (shr_m r2) as [|p|p] eqn:E2; [| |lia].
  - split; [|split; [reflexivity|discriminate]]. split; [exact Logic.I|].
    destruct (SG (S754_zero s) eq_refl) as [SG1 SG2]. split; [exact SG1|]. split; [exact SG2|].
    left. rewrite ABS. split.
    + apply SMALL. destruct HK2 as [HK2|HK2]; [|rewrite HK2]; lia.
    + apply NR; [|intros _; exact Logic.I]. right. exists 0%Q. split; [reflexivity|]. rewrite scaled_0 in V.
      destruct s; [rewrite scaled_opp|]; lra.
  - destruct (Zle_bool e2 (1024 - 53)) eqn:Eb; change (1024 - 53) with 971 in Eb.
    + apply Z.leb_le in Eb. split; [|split; [reflexivity|discriminate]].
      split; [repeat split; try lia|]. destruct (SG (S754_finite s p e2) eq_refl) as [SG1 SG2]. split; [exact SG1|]. split; [exact SG2|].
      left. rewrite ABS. split; [apply SMALL; lia|]. apply NR.
      * right. eexists. split; [reflexivity|]. destruct s; [|exact V].
        change (Z.neg p) with (- Z.pos p). rewrite !scaled_opp. lra.
      * exact VE.
    + apply Z.leb_gt in Eb. split; [|split; [reflexivity|discriminate]]. split; [exact Logic.I|].
      destruct (SG (S754_infinity s) eq_refl) as [SG1 SG2]. split; [exact SG1|]. split; [exact SG2|].
      right. rewrite ABS. split; [apply BIG; lia|]. exists s. reflexivity.
Qed.

(** ** from integers *)
Lemma fexp64_mono a b : a <= b -> fexp64 a <= fexp64 b.
Proof. rewrite !fexp64_eq. lia. Qed.
Lemma digits_shift m n : 0 < m -> 0 <= n -> Zdigits2 (m * 2 ^ n) = Zdigits2 m + n.
Proof.
  intros Hm Hn. assert (0 < m * 2 ^ n) by (apply Z.mul_pos_pos; [|apply Z.pow_pos_nonneg]; lia).
  assert (D : forall k, 0 < k -> Zdigits2 k = Z.log2 k + 1) by (intros [|p|p] Hk; try lia; apply digits_log2).
  rewrite !D by assumption. rewrite Z.log2_mul_pow2 by lia. lia.
Qed.
Lemma shl_align_ok m e e' :
  exists mz, shl_align m e e' = (mz, Z.min e e') /\ Zpos mz = Zpos m * 2 ^ (e - Z.min e e').
Proof.
  unfold shl_align. destruct (e' - e) as [|p|p] eqn:E.
  - exists m. replace (Z.min e e') with e by lia. rewrite Z.sub_diag. split; [reflexivity|lia].
  - exists m. replace (Z.min e e') with e by lia. rewrite Z.sub_diag. split; [reflexivity|lia].
  - exists (shift_pos p m). replace (Z.min e e') with e' by lia. split; [reflexivity|].
    rewrite shift_pos_correct. replace (e - e') with (Zpos p) by lia. rewrite Z.mul_comm. reflexivity.
Qed.
Lemma binary_round_ok s m e :
  let f := binary_round 53 1024 s m e in
  rounded (signed s (scaled (Zpos m) e)) f /\ sign_of f = s /\ f <> S754_nan.
Proof.
  cbn zeta. unfold binary_round. change (fexp 53 1024) with fexp64.
  destruct (shl_align_ok m e (fexp64 (Z.pos (digits2_pos m) + e))) as (mz & -> & E).
  set (e' := fexp64 (Z.pos (digits2_pos m) + e)) in *. set (z := Z.min e e') in *.
  assert (Hz : z <= e) by (unfold z; lia).
  assert (V : (scaled (Zpos m) e == scaled (Zpos mz) z)%Q).
  { rewrite E. rewrite <- scaled_shift by lia. replace (z + (e - z)) with e by lia. reflexivity. }
  apply round_aux_ok; [lia|exact V| |apply Qlt_le_weak, scaled_pos; lia].
  rewrite E. rewrite digits_shift by lia. replace (Zdigits2 (Z.pos m) + (e - z) + z) with (Z.pos (digits2_pos m) + e) by (cbn [Zdigits2]; lia).
  fold e'. unfold z. lia.
Qed.
Lemma signed_neg m e : (signed true (scaled (Zpos m) e) == scaled (Zneg m) e)%Q.
Proof. cbn [signed]. change (Z.neg m) with (- Z.pos m). rewrite scaled_opp. reflexivity. Qed.

Lemma nearest_wd x y f : (x == y)%Q -> nearest x f -> nearest y f.
Proof.
  intros E (r & V & H). exists r. split; [exact V|]. intros m e Hm He. destruct (H m e Hm He) as [H1 H2].
  rewrite E in H1, H2. split; assumption.
Qed.
Lemma rounded_wd x y f : (x == y)%Q -> rounded x f -> rounded y f.
Proof.
  intros E (B & P & N & D). split; [exact B|]. pose proof (Qabs_wd _ _ E) as EA.
  split; [intros H; apply P; lra|]. split; [intros H; apply N; lra|].
  destruct D as [[D1 D2]|[D1 D2]]; [left|right]; (split; [lra|]); [apply (nearest_wd x); assumption|exact D2].
Qed.

Lemma rounded_0 s : rounded 0 (S754_zero s).
Proof.
  split; [exact I|]. split; [lra|]. split; [lra|]. left. split; [exact too_large_pos|].
  exists 0%Q. split; [reflexivity|]. intros m e Hm He. split; [apply Qabs_nonneg|]. intros _. right. exact I.
Qed.
Lemma binary_normalize_ok z e s :
  let f := binary_normalize 53 1024 z e s in
  rounded (scaled z e) f /\ f <> S754_nan /\ (z = 0 -> f = S754_zero s) /\ (0 < z -> sign_of f = false) /\ (z < 0 -> sign_of f = true).
Proof.
  cbn zeta. destruct z as [|p|p]; cbn [binary_normalize].
  - split; [|repeat split; try discriminate; lia].
    apply (rounded_wd 0%Q); [symmetry; apply scaled_0|apply rounded_0].
  - destruct (binary_round_ok false p e) as (R & S1 & N1). split; [exact R|]. split; [exact N1|]. repeat split; intros; try lia. exact S1.
  - destruct (binary_round_ok true p e) as (R & S1 & N1). split; [apply (rounded_wd (signed true (scaled (Zpos p) e))); [apply signed_neg|exact R]|].
    split; [exact N1|]. repeat split; intros; try lia. exact S1.
Qed.

Theorem f64_of_int_rounded z : rounded (inject_Z z) (f64_of_int z) /\ (z = 0 -> f64_of_int z = S754_zero false).
Proof.
  destruct (binary_normalize_ok z 0 false) as (R & _ & Z0 & _). split; [|exact Z0].
  eapply rounded_wd; [|exact R]. unfold scaled. change (2 ^ 0)%Q with 1%Q. ring.
Qed.

(** ** the numbers of the format *)
Lemma max_finite m e : Z.abs m < 2 ^ 53 -> e <= 971 -> (Qabs (scaled m e) < too_large)%Q.
Proof.
  intros Hm He. assert (E : (Qabs (scaled m e) == scaled (Z.abs m) e)%Q).
  { unfold scaled. rewrite Qabs_Qmult. rewrite (Qabs_pos (2 ^ e)) by (apply Qlt_le_weak, two_pos). reflexivity. }
  rewrite E, too_large_eq. clear E. pose proof (two_pos 970).
  assert (L1 : (scaled (Z.abs m) e <= scaled (Z.abs m) 971)%Q).
  { replace 971 with (e + (971 - e)) by lia. rewrite scaled_shift by lia. apply scaled_le.
    assert (2 ^ 0 <= 2 ^ (971 - e)) by (apply Z.pow_le_mono_r; lia). change (2 ^ 0) with 1 in *. nia. }
  assert (L2 : (scaled (Z.abs m + 1) 971 <= scaled (2 ^ 53) 971)%Q) by (apply scaled_le; lia).
  rewrite scaled_add, scaled_1 in L2. pose proof (two_succ 970) as T. change (970 + 1) with 971 in T. lra.
Qed.
Lemma binary64_grid f v : binary64 f -> value_of f = Some v ->
  exists m e, (v == scaled m e)%Q /\ Z.abs m < 2 ^ 53 /\ -1074 <= e <= 971.
Proof.
  intros B V. destruct f as [s|s| |s m e]; cbn in V; inversion V; subst.
  - exists 0, 0. split; [symmetry; apply scaled_0|lia].
  - cbn in B. exists (if s then Z.neg m else Z.pos m), e. split; [reflexivity|]. destruct s; lia.
Qed.
Lemma sign_value f v : value_of f = Some v -> (0 < v -> sign_of f = false)%Q /\ (v < 0 -> sign_of f = true)%Q.
Proof.
  destruct f as [s|s| |s m e]; cbn [value_of sign_of]; intros V; inversion V; subst.
  - split; intros; lra.
  - pose proof (scaled_pos (Zpos m) e ltac:(lia)). pose proof (signed_neg m e). cbn [signed] in *.
    destruct s; split; intros; try reflexivity; lra.
Qed.
Lemma rounded_self f v : binary64 f -> value_of f = Some v -> rounded v f.
Proof.
  intros B V. split; [exact B|]. destruct (sign_value f v V) as [S1 S2]. split; [exact S1|]. split; [exact S2|]. left.
  destruct (binary64_grid f v B V) as (m & e & E & Hm & He). split.
  - rewrite E. apply max_finite; lia.
  - exists v. split; [exact V|]. intros m' e' Hm' He'.
    assert (E0 : (Qabs (v - v) == 0)%Q) by (setoid_replace (v - v)%Q with 0%Q by ring; reflexivity).
    rewrite E0. split; [apply Qabs_nonneg|]. intros E1. left.
    revert E1. apply (Qabs_case (v - scaled m' e') (fun a => 0 == a -> _)%Q); intros; lra.
Qed.
(** a number of the format is not changed *)
Lemma rounded_exact m e f : Z.abs m < 2 ^ 53 -> -1074 <= e <= 971 -> rounded (scaled m e) f ->
  exists v, value_of f = Some v /\ (v == scaled m e)%Q.
Proof.
  intros Hm He (B & _ & _ & [[_ (r & V & N)]|[L _]]).
  - exists r. split; [exact V|]. destruct (N m e Hm ltac:(lia)) as [N1 _].
    assert (E0 : (Qabs (scaled m e - scaled m e) == 0)%Q) by (setoid_replace (scaled m e - scaled m e)%Q with 0%Q by ring; reflexivity).
    rewrite E0 in N1. revert N1. apply (Qabs_case (scaled m e - r) (fun a => a <= 0 -> _)%Q); intros; lra.
  - pose proof (max_finite m e Hm ltac:(lia)). lra.
Qed.

(** ** addition and subtraction *)
Lemma cond_scaled s m e z : z <= e -> (scaled (cond_Zopp s (Zpos m * 2 ^ (e - z))) z == scaled (if s then Zneg m else Zpos m) e)%Q.
Proof.
  intros H. replace (cond_Zopp s (Z.pos m * 2 ^ (e - z))) with ((if s then Z.neg m else Z.pos m) * 2 ^ (e - z)) by (destruct s; cbn [cond_Zopp]; nia).
  rewrite <- scaled_shift by lia. replace (z + (e - z)) with e by lia. reflexivity.
Qed.
Lemma scaled_zero_inv m e : (scaled m e == 0)%Q -> m = 0.
Proof. rewrite <- (scaled_0 e). apply scaled_inj. Qed.
Lemma norm_value m e : (if (m : bool) then Z.neg e else Z.pos e) <> 0.
Proof. destruct m; discriminate. Qed.

Lemma SFadd_finite s m e t n f :
  let r := SFadd 53 1024 (S754_finite s m e) (S754_finite t n f) in
  rounded (scaled (if s then Zneg m else Zpos m) e + scaled (if t then Zneg n else Zpos n) f) r /\
  ((scaled (if s then Zneg m else Zpos m) e + scaled (if t then Zneg n else Zpos n) f == 0)%Q -> r = S754_zero (s && t)).
Proof.
  cbn zeta. cbn [SFadd]. set (z := Z.min e f).
  destruct (shl_align_ok m e z) as (mz & -> & Em). destruct (shl_align_ok n f z) as (nz & -> & En). cbn [fst].
  replace (Z.min e z) with z in Em by (unfold z; lia). replace (Z.min f z) with z in En by (unfold z; lia).
  set (zz := cond_Zopp s (Z.pos mz) + cond_Zopp t (Z.pos nz)).
  assert (E : (scaled zz z == scaled (if s then Zneg m else Zpos m) e + scaled (if t then Zneg n else Zpos n) f)%Q).
  { unfold zz. rewrite scaled_add, Em, En, !cond_scaled by (unfold z; lia). reflexivity. }
  destruct (binary_normalize_ok zz z false) as (R & _ & Hz & _).
  split; [eapply rounded_wd; [exact E|exact R]|]. rewrite <- E. intros E0. apply scaled_zero_inv in E0.
  rewrite (Hz E0). f_equal. unfold zz in E0. destruct s, t; cbn [cond_Zopp andb] in *; try reflexivity; lia.
Qed.
Lemma SFsub_finite s m e t n f :
  let r := SFsub 53 1024 (S754_finite s m e) (S754_finite t n f) in
  rounded (scaled (if s then Zneg m else Zpos m) e - scaled (if t then Zneg n else Zpos n) f) r /\
  ((scaled (if s then Zneg m else Zpos m) e - scaled (if t then Zneg n else Zpos n) f == 0)%Q -> r = S754_zero (s && negb t)).
Proof.
  cbn zeta. cbn [SFsub]. set (z := Z.min e f).
  destruct (shl_align_ok m e z) as (mz & -> & Em). destruct (shl_align_ok n f z) as (nz & -> & En). cbn [fst].
  replace (Z.min e z) with z in Em by (unfold z; lia). replace (Z.min f z) with z in En by (unfold z; lia).
  set (zz := cond_Zopp s (Z.pos mz) - cond_Zopp t (Z.pos nz)).
  assert (E : (scaled zz z == scaled (if s then Zneg m else Zpos m) e - scaled (if t then Zneg n else Zpos n) f)%Q).
  { unfold zz, Z.sub. rewrite scaled_add, scaled_opp, Em, En, !cond_scaled by (unfold z; lia). reflexivity. }
  destruct (binary_normalize_ok zz z false) as (R & _ & Hz & _).
  split; [eapply rounded_wd; [exact E|exact R]|]. rewrite <- E. intros E0. apply scaled_zero_inv in E0.
  rewrite (Hz E0). f_equal. unfold zz in E0. destruct s, t; cbn [cond_Zopp andb negb] in *; try reflexivity; lia.
Qed.

(** ** multiplication *)
Lemma scaled_mul a e b f : (scaled a e * scaled b f == scaled (a * b) (e + f))%Q.
Proof. unfold scaled. rewrite two_add, inject_Z_mult. ring. Qed.
Lemma SFmul_finite s m e t n f : binary64 (S754_finite s m e) -> binary64 (S754_finite t n f) ->
  let r := SFmul 53 1024 (S754_finite s m e) (S754_finite t n f) in
  rounded (scaled (if s then Zneg m else Zpos m) e * scaled (if t then Zneg n else Zpos n) f) r /\ sign_of r = xorb s t.
Proof.
  intros (Be & Bm & Bk) (Ce & Cn & Ck). cbn zeta. cbn [SFmul].
  destruct (round_aux_ok (xorb s t) (Z.pos (m * n)) (e + f) (scaled (Zpos m) e * scaled (Zpos n) f) loc_Exact) as (R & S1 & _).
  - lia.
  - cbn [inb]. rewrite scaled_mul. reflexivity.
  - rewrite fexp64_eq. pose proof (digits_nonneg (Z.pos (m * n)) ltac:(lia)).
    destruct (Z_le_gt_dec (e + f) (-1074)) as [L|L]; [lia|].
    assert (G : 2 ^ 52 <= Zpos (m * n)) by (rewrite Pos2Z.inj_mul; destruct Bk as [Bk|Bk], Ck as [Ck|Ck]; nia).
    pose proof (digits_ge _ 52 ltac:(lia) G). lia.
  - pose proof (scaled_pos (Zpos m) e ltac:(lia)). pose proof (scaled_pos (Zpos n) f ltac:(lia)). apply Qmult_le_0_compat; lra.
  - split; [|exact S1]. eapply rounded_wd; [|exact R].
    pose proof (signed_neg m e) as E1. pose proof (signed_neg n f) as E2. cbn [signed] in E1, E2.
    destruct s, t; cbn [xorb signed]; rewrite <- ?E1, <- ?E2; ring.
Qed.

(** ** division *)
Lemma new_location_ok n k m e x : 0 < n -> 0 <= k < n -> (x * inject_Z n == (inject_Z m * inject_Z n + inject_Z k) * 2 ^ e)%Q ->
  inb m e x (new_location n k).
Proof.
  intros Hn Hk E. assert (Pn : (0 < inject_Z n)%Q) by (change 0%Q with (inject_Z 0); rewrite <- Zlt_Qlt; exact Hn).
  pose proof (two_pos e) as P.
  assert (CLt : forall a b, (a * inject_Z n < b * inject_Z n -> a < b)%Q) by (intros a b; apply Qmult_lt_r; exact Pn).
  assert (CEq : forall a b, (a * inject_Z n == b * inject_Z n -> a == b)%Q) by (intros a b; apply Qmult_inj_r; lra).
  assert (Kn : (inject_Z k * 2 ^ e < inject_Z n * 2 ^ e)%Q) by (apply Qmult_lt_r; [exact P|rewrite <- Zlt_Qlt; lia]).
  assert (K2 : forall c, Z.compare (2 * k) n = c -> match c with
     | Lt => (2 * (inject_Z k * 2 ^ e) < inject_Z n * 2 ^ e)%Q
     | Eq => (2 * (inject_Z k * 2 ^ e) == inject_Z n * 2 ^ e)%Q
     | Gt => (inject_Z n * 2 ^ e < 2 * (inject_Z k * 2 ^ e))%Q end).
  { intros c Hc. assert (E2 : (2 * (inject_Z k * 2 ^ e) == inject_Z (2 * k) * 2 ^ e)%Q) by (rewrite inject_Z_mult; change (inject_Z 2) with (2#1); ring).
    destruct c.
    - apply Z.compare_eq in Hc. rewrite E2, Hc. reflexivity.
    - rewrite Z.compare_lt_iff in Hc. rewrite E2. apply Qmult_lt_r; [exact P|rewrite <- Zlt_Qlt; exact Hc].
    - rewrite Z.compare_gt_iff in Hc. rewrite E2. apply Qmult_lt_r; [exact P|rewrite <- Zlt_Qlt; exact Hc]. }
  assert (Kp : k <> 0 -> (0 < inject_Z k * 2 ^ e)%Q).
  { intros N. apply Qmult_lt_0_compat; [|exact P]. change 0%Q with (inject_Z 0). rewrite <- Zlt_Qlt. lia. }
  assert (C : k <> 0 -> inb m e x (loc_Inexact (Z.compare (2 * k) n))).
  { intros N. specialize (Kp N). specialize (K2 _ eq_refl). unfold scaled in *.
    destruct (2 * k ?= n); cbn [inb]; unfold scaled.
    - apply CEq. lra.
    - split; apply CLt; lra.
    - split; apply CLt; lra. }
  assert (X : k = 0 -> inb m e x loc_Exact).
  { intros ->. cbn [inb]. unfold scaled. apply CEq. change (inject_Z 0) with 0%Q in *. lra. }
  unfold new_location, new_location_even, new_location_odd.
  destruct (Z.even n) eqn:Ev, (Zeq_bool k 0) eqn:E0;
    try (apply Zeq_bool_eq in E0; auto); try (apply Zeq_bool_neq in E0); auto.
  specialize (C E0).
  replace (match 2 * k + 1 ?= n with Gt => Gt | _ => Lt end) with (2 * k ?= n); [exact C|].
  destruct (Z.compare_spec (2 * k + 1) n), (Z.compare_spec (2 * k) n); try reflexivity; try lia;
    subst n; rewrite Z.even_mul in Ev; discriminate.
Qed.

Lemma div_core_ok m1 e1 m2 e2 x : 0 < m1 -> 0 < m2 -> (x * scaled m2 e2 == scaled m1 e1)%Q ->
  exists q e l, SFdiv_core_binary 53 1024 m1 e1 m2 e2 = (q, e, l) /\ 0 <= q /\ inb q e x l /\ e <= fexp64 (Zdigits2 q + e).
Proof.
  intros H1 H2 E. unfold SFdiv_core_binary. change (fexp 53 1024) with fexp64.
  set (d1 := Zdigits2 m1). set (d2 := Zdigits2 m2).
  set (e' := Z.min (fexp64 (d1 + e1 - (d2 + e2))) (e1 - e2)). set (s := e1 - e2 - e').
  assert (Hs : 0 <= s) by (unfold s, e'; lia).
  assert (Em : match s with Z0 => m1 | Zpos _ => Z.shiftl m1 s | Zneg _ => 0 end = m1 * 2 ^ s).
  { destruct s; [rewrite Z.pow_0_r; lia|apply Z.shiftl_mul_pow2; lia|lia]. }
  rewrite Em. clear Em. pose proof (Z_div_mod (m1 * 2 ^ s) m2 ltac:(lia)) as D.
  destruct (Z.div_eucl (m1 * 2 ^ s) m2) as [q k]. destruct D as [D1 D2].
  pose proof (Z.pow_pos_nonneg 2 s ltac:(lia) Hs) as Ps.
  assert (Hq : 0 <= q) by nia.
  exists q, e', (new_location m2 k). split; [reflexivity|]. split; [exact Hq|]. split.
  - apply new_location_ok; [lia|lia|].
    assert (P2 : (~ 2 ^ e2 == 0)%Q) by (pose proof (two_pos e2); lra).
    apply (Qmult_inj_r _ _ _ P2).
    transitivity (x * scaled m2 e2)%Q; [unfold scaled; ring|]. rewrite E.
    replace e1 with (e2 + e' + s) by (unfold s; lia). rewrite scaled_shift by lia. rewrite D1.
    unfold scaled. rewrite two_add, inject_Z_plus, inject_Z_mult. ring.
  - assert (L : d1 + s - d2 <= Zdigits2 q).
    { destruct (Z_le_gt_dec (d1 + s - d2) 0) as [L|L]; [pose proof (digits_nonneg q Hq); lia|].
      pose proof (digits_range m1 H1) as [A1 A2]. pose proof (digits_range m2 H2) as [B1 B2]. fold d1 in A1, A2. fold d2 in B1, B2.
      assert (G : 2 ^ (d1 + s - d2 - 1) <= q).
      { assert (0 <= d2) by (apply digits_nonneg; lia).
        replace q with (m1 * 2 ^ s / m2) by (symmetry; apply (Z.div_unique _ _ _ k); lia).
        apply Z.div_le_lower_bound; [lia|].
        assert (m2 * 2 ^ (d1 + s - d2 - 1) <= 2 ^ d2 * 2 ^ (d1 + s - d2 - 1)) by (apply Z.mul_le_mono_nonneg_r; [apply Z.pow_nonneg|]; lia).
        rewrite <- Z.pow_add_r in H0 by lia. replace (d2 + (d1 + s - d2 - 1)) with (d1 - 1 + s) in H0 by lia.
        assert (1 <= d1). { pose proof (digits_ge m1 0 ltac:(lia) ltac:(cbn; lia)). unfold d1. lia. }
        rewrite Z.pow_add_r in H0 by lia. nia. }
      pose proof (digits_ge q (d1 + s - d2 - 1) ltac:(lia) G). lia. }
    apply Z.le_trans with (fexp64 (d1 + e1 - (d2 + e2))); [unfold e'; lia|]. apply fexp64_mono. unfold s in *. lia.
Qed.
Lemma inb_nonneg m e x l : 0 <= m -> inb m e x l -> (0 <= x)%Q.
Proof. intros H I. apply inb_range in I. destruct I as [I _]. apply (scaled_le _ _ e) in H. rewrite scaled_0 in H. lra. Qed.

Lemma SFdiv_finite s m e t n f :
  let r := SFdiv 53 1024 (S754_finite s m e) (S754_finite t n f) in
  rounded (scaled (if s then Zneg m else Zpos m) e / scaled (if t then Zneg n else Zpos n) f) r /\ sign_of r = xorb s t.
Proof.
  cbn zeta. cbn [SFdiv]. pose proof (scaled_pos (Zpos n) f ltac:(lia)) as P.
  destruct (div_core_ok (Zpos m) e (Zpos n) f (scaled (Zpos m) e / scaled (Zpos n) f)) as (q & e' & l & -> & Hq & I & He); [lia|lia| |].
  - field. lra.
  - destruct (round_aux_ok (xorb s t) q e' _ l Hq I He (inb_nonneg _ _ _ _ Hq I)) as (R & S1 & _).
    split; [|exact S1]. eapply rounded_wd; [|exact R].
    pose proof (signed_neg m e) as E1. pose proof (signed_neg n f) as E2. cbn [signed] in E1, E2.
    destruct s, t; cbn [xorb signed]; rewrite <- ?E1, <- ?E2; field; lra.
Qed.

(** ** remainder *)
Lemma f64_rem_finite s m e t n f : binary64 (S754_finite s m e) -> binary64 (S754_finite t n f) ->
  let r := f64_rem (S754_finite s m e) (S754_finite t n f) in
  exists v k, value_of r = Some v /\ binary64 r /\
    (scaled (if s then Zneg m else Zpos m) e == inject_Z k * scaled (if t then Zneg n else Zpos n) f + v)%Q /\
    (Qabs v < Qabs (scaled (if t then Zneg n else Zpos n) f))%Q /\ (0 <= scaled (if s then Zneg m else Zpos m) e * v)%Q /\
    sign_of r = s.
Proof.
  intros (Be & Bm & Bk) (Ce & Cn & Ck). cbn zeta. cbn [f64_rem]. set (z := Z.min e f).
  assert (Hz : -1074 <= z <= 971) by (unfold z; lia).
  pose proof (Z.pow_pos_nonneg 2 (e - z) ltac:(lia) ltac:(unfold z; lia)) as P1.
  pose proof (Z.pow_pos_nonneg 2 (f - z) ltac:(lia) ltac:(unfold z; lia)) as P2.
  set (a := Z.pos m * 2 ^ (e - z)). set (b := Z.pos n * 2 ^ (f - z)).
  assert (Ha : 0 < a) by (unfold a; nia). assert (Hb : 0 < b) by (unfold b; nia).
  pose proof (Z.mod_pos_bound a b Hb) as Mb. pose proof (Z.div_mod a b ltac:(lia)) as Ma. pose proof (Z.div_pos a b ltac:(lia) Hb) as Mq.
  set (q := a / b) in *. set (r := a mod b) in *.
  assert (Hr : r < 2 ^ 53).
  { assert (r <= a) by nia. destruct (Z.min_spec e f) as [[L M]|[L M]]; fold z in M.
    - unfold a in *. rewrite M, Z.sub_diag, Z.pow_0_r in *. lia.
    - unfold b in *. rewrite M, Z.sub_diag, Z.pow_0_r in *. lia. }
  assert (Va : (scaled a z == scaled (Zpos m) e)%Q).
  { unfold a. rewrite <- scaled_shift by (unfold z; lia). replace (z + (e - z)) with e by lia. reflexivity. }
  assert (Vb : (scaled b z == scaled (Zpos n) f)%Q).
  { unfold b. rewrite <- scaled_shift by (unfold z; lia). replace (z + (f - z)) with f by lia. reflexivity. }
  assert (EQ : (scaled (Zpos m) e == inject_Z q * scaled (Zpos n) f + scaled r z)%Q).
  { rewrite <- Va, <- Vb, Ma. rewrite scaled_add. unfold scaled. rewrite inject_Z_mult. ring. }
  pose proof (scaled_pos (Zpos m) e ltac:(lia)) as Pm. pose proof (scaled_pos (Zpos n) f ltac:(lia)) as Pn.
  pose proof (signed_neg m e) as E1. pose proof (signed_neg n f) as E2. cbn [signed] in E1, E2.
  assert (AB : (Qabs (scaled (if t then Zneg n else Zpos n) f) == scaled (Zpos n) f)%Q).
  { destruct t; [rewrite <- E2, Qabs_opp|]; apply Qabs_pos; lra. }
  assert (Lt1 : (scaled r z < scaled (Zpos n) f)%Q) by (rewrite <- Vb; apply scaled_lt; lia).
  assert (Ge0 : (0 <= scaled r z)%Q) by (rewrite <- (scaled_0 z); apply scaled_le; lia).
  assert (FIN : forall v, (v == signed s (scaled r z))%Q -> exists k,
    (scaled (if s then Zneg m else Zpos m) e == inject_Z k * scaled (if t then Zneg n else Zpos n) f + v)%Q /\
    (Qabs v < Qabs (scaled (if t then Zneg n else Zpos n) f))%Q /\ (0 <= scaled (if s then Zneg m else Zpos m) e * v)%Q).
  { intros v Ev. exists (if xorb s t then - q else q). split; [|split].
    - assert (Eq2 : (inject_Z (- q) == - inject_Z q)%Q) by (rewrite inject_Z_opp; reflexivity).
      destruct s, t; cbn [xorb signed] in *; rewrite <- ?E1, <- ?E2, ?Eq2, Ev; lra.
    - rewrite AB, Ev. destruct s; cbn [signed]; rewrite ?Qabs_opp, Qabs_pos by exact Ge0; exact Lt1.
    - destruct s; cbn [signed] in Ev; rewrite Ev, <- ?E1.
      + setoid_replace (- scaled (Z.pos m) e * - scaled r z)%Q with (scaled (Z.pos m) e * scaled r z)%Q by ring. apply Qmult_le_0_compat; lra.
      + apply Qmult_le_0_compat; lra. }
  destruct r as [|p|p] eqn:Er; [| |lia].
  - destruct (FIN 0%Q) as (k & F1 & F2 & F3).
    + pose proof (scaled_0 z). destruct s; cbn [signed]; lra.
    + exists 0%Q, k. split; [reflexivity|]. split; [exact I|]. repeat (split; [assumption|]). reflexivity.
  - destruct (binary_normalize_ok (if s then Z.neg p else Z.pos p) z s) as (R & _ & _ & S1 & S2).
    destruct (rounded_exact (if s then Z.neg p else Z.pos p) z _ ltac:(destruct s; lia) Hz R) as (v & V & Ev).
    destruct (FIN v) as (k & F1 & F2 & F3).
    + rewrite Ev. destruct s; [symmetry; apply signed_neg|reflexivity].
    + exists v, k. split; [exact V|]. split; [apply R|]. repeat (split; [assumption|]). destruct s; [apply S2|apply S1]; lia.
Qed.
