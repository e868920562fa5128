(** How many digits are needed *)
From Coq Require Import QArith Qabs Qround Lqa.
From Verif Require Import Display SpecNumber FloatProofs FloatUnique FloatLiteral NumberProofs.
Open Scope Z_scope.

(** ** numbers very near to a float round to it *)
Lemma float_below m e n f : -1074 <= e -> Zpos m < 2 ^ 53 -> (2 ^ 52 <= Zpos m \/ e = -1074) -> -1074 <= f -> Z.abs n < 2 ^ 53 ->
  (scaled n f < scaled (Zpos m) e)%Q ->
  (scaled n f + 2 ^ e <= scaled (Zpos m) e)%Q \/ Zpos m = 2 ^ 52 /\ (2 * scaled n f + 2 ^ e <= 2 * scaled (Zpos m) e)%Q.
Proof.
  intros He Hm HK Hf Hn L. destruct (Z.eq_dec e (-1074)) as [->|NE].
  - left. rewrite <- scaled_1. replace f with (-1074 + (f + 1074)) in * by lia. rewrite scaled_shift in * by lia. rewrite <- scaled_add.
    apply scaled_lt_inv in L. apply scaled_le. lia.
  - destruct HK as [HK|HK]; [|lia]. destruct (Z.eq_dec (Zpos m) (2 ^ 52)) as [E|N].
    + right. split; [exact E|]. destruct (Qlt_le_dec (scaled (2 ^ 53 - 1) (e - 1)) (scaled n f)) as [C|C].
      * apply gap in C; try lia. rewrite <- scaled_1, <- scaled_add in C.
        assert (X : (scaled (2 ^ 53 - 1 + 1) (e - 1) == scaled (Zpos m) e)%Q).
        { replace e with (e - 1 + 1) at 2 by lia. rewrite scaled_shift by lia. rewrite E. reflexivity. }
        lra.
      * assert (X : (scaled (2 ^ 53 - 1) (e - 1) + 2 ^ (e - 1) == scaled (Zpos m) e)%Q).
        { rewrite <- scaled_1, <- scaled_add. replace e with (e - 1 + 1) at 2 by lia. rewrite scaled_shift by lia. rewrite E. reflexivity. }
        pose proof (two_succ (e - 1)) as T. replace (e - 1 + 1) with e in T by lia. lra.
    + left. destruct (Qlt_le_dec (scaled (Zpos m - 1) e) (scaled n f)) as [C|C].
      * apply gap in C; try lia. rewrite <- scaled_1, <- scaled_add in C. replace (Z.pos m - 1 + 1) with (Z.pos m) in C by lia. lra.
      * rewrite <- scaled_1. assert (X : (scaled (Zpos m - 1) e + scaled 1 e == scaled (Zpos m) e)%Q) by (rewrite <- scaled_add; now replace (Z.pos m - 1 + 1) with (Z.pos m) by lia). lra.
Qed.
Lemma scaled_bound m e : Zpos m < 2 ^ 53 -> (scaled (Zpos m) e <= (9007199254740991 # 1) * 2 ^ e)%Q.
Proof.
  intros H. change (2 ^ 53) with 9007199254740992 in H. unfold scaled. apply Qmult_le_compat_r; [|apply Qlt_le_weak, two_pos].
  change (9007199254740991 # 1)%Q with (inject_Z 9007199254740991). rewrite <- Zle_Qle. lia.
Qed.
Lemma near_rounds m e x h : binary64 (S754_finite false m e) -> (Qabs (x - scaled (Zpos m) e) <= h)%Q ->
  (h * (20000000000000000 # 1) <= scaled (Zpos m) e)%Q -> rounded x (S754_finite false m e).
Proof.
  intros B H1 H2. pose proof B as (He & Hm & HK). pose proof (two_pos e) as P. pose proof (scaled_bound m e Hm) as V1.
  pose proof (scaled_pos (Zpos m) e ltac:(lia)) as V0. set (v := scaled (Zpos m) e) in *.
  assert (X1 : (v - h <= x <= v + h)%Q) by (clear -H1; abs_cases; lra).
  assert (X0 : (0 < x)%Q) by lra.
  split; [exact B|]. split; [reflexivity|]. split; [lra|]. left. split.
  - rewrite Qabs_pos by lra. pose proof (max_finite (Zpos m) 971 ltac:(lia) ltac:(lia)) as M. rewrite too_large_eq in *.
    assert (V2 : (v <= scaled (2 ^ 53 - 1) 971)%Q).
    { unfold v. replace 971 with (e + (971 - e)) by lia. rewrite scaled_shift by lia. apply scaled_le.
      assert (2 ^ 0 <= 2 ^ (971 - e)) by (apply Z.pow_le_mono_r; lia). change (2 ^ 0) with 1 in *. nia. }
    assert (V3 : (scaled (2 ^ 53 - 1) 971 + 2 ^ 971 == scaled (2 ^ 53) 971)%Q) by (rewrite <- scaled_1, <- scaled_add; reflexivity).
    assert (V4 : (scaled (2 ^ 53 - 1) 971 <= (9007199254740991 # 1) * 2 ^ 971)%Q) by (unfold scaled; apply Qle_refl).
    pose proof (two_succ 970) as T. change (970 + 1) with 971 in T. pose proof (two_pos 970).
    set (a := (2 ^ 971)%Q) in *. set (b := (2 ^ 970)%Q) in *. set (c := scaled (2 ^ 53 - 1) 971) in *. set (d := scaled (2 ^ 53) 971) in *. clearbody a b c d v. clear -X1 H2 V1 V2 V3 V4 T H. lra.
  - exists v. split; [reflexivity|]. intros n f Hn Hf. destruct (Qlt_le_dec v (scaled n f)) as [C|C]; [|destruct (Qlt_le_dec (scaled n f) v) as [D|D]].
    + apply gap in C; try lia. fold v in C. set (w := scaled n f) in *. clearbody v w. split; [abs_cases; lra|]. intros E. exfalso. abs_cases; lra.
    + apply float_below in D; auto; try lia. fold v in D. assert (D2 : (2 * h < v - scaled n f)%Q).
      { destruct D as [D|[E D]]; [lra|]. assert (E2 : (v == (4503599627370496 # 1) * 2 ^ e)%Q) by (unfold v, scaled; rewrite E; reflexivity). lra. }
      set (w := scaled n f) in *. clearbody v w. split; [abs_cases; lra|]. intros E. exfalso. abs_cases; lra.
    + assert (E : (scaled n f == v)%Q) by lra. split; [|auto]. rewrite E. lra.
Qed.

(** ** seventeen digits suffice *)
Lemma ten_succ p : (10 ^ (p + 1) == 10 * 10 ^ p)%Q.
Proof. rewrite ten_add. ring. Qed.
Lemma ten_mono a b : a <= b -> (10 ^ a <= 10 ^ b)%Q.
Proof.
  intros L. replace b with (a + (b - a)) by lia. rewrite ten_add, (ten_Z (b - a)) by lia. assert (1 <= 10 ^ (b - a)) by (apply (Z.pow_le_mono_r 10 0); lia).
  assert (Y : (1 <= inject_Z (10 ^ (b - a)))%Q) by (rewrite <- (Zle_Qle 1); lia). pose proof (ten_pos a). nra.
Qed.
Lemma decade_between v a b : (10 ^ a <= v < 10 ^ b)%Q -> exists p, (10 ^ p <= v < 10 ^ (p + 1))%Q.
Proof.
  intros [L U]. assert (G : forall j : nat, (v < 10 ^ (a + Z.of_nat j))%Q -> exists p, (10 ^ p <= v < 10 ^ (p + 1))%Q).
  { induction j as [|j IH]; intros J; [rewrite Z.add_0_r in J; lra|]. destruct (Qlt_le_dec v (10 ^ (a + Z.of_nat j))%Q) as [C|C]; [auto|].
    exists (a + Z.of_nat j). split; [exact C|]. now replace (a + Z.of_nat j + 1) with (a + Z.of_nat (S j)) by lia. }
  destruct (Z_le_gt_dec a b) as [C|C].
  - apply (G (Z.to_nat (b - a))). rewrite Z2Nat.id by lia. now replace (a + (b - a)) with b by lia.
  - exfalso. pose proof (ten_mono b a ltac:(lia)). lra.
Qed.
Lemma decade m e : -1074 <= e -> exists p, (10 ^ p <= scaled (Zpos m) e < 10 ^ (p + 1))%Q.
Proof.
  intros He. destruct (f64_ratio m e) as [n d] eqn:R. apply ratio_value in R. destruct R as (Hn & Hd & E).
  pose proof (start_above n d Hn Hd) as U. rewrite <- E, tens_1 in U. destruct (last_grid m e He) as (k & Hk & K).
  apply (decade_between _ (-1074) (start10 n d)). split; [|exact U]. rewrite K, <- tens_1. apply tens_le. lia.
Qed.
Lemma multiple_near v p : (0 <= v)%Q -> exists q, (0 <= q)%Z /\ (tens q p <= v < tens (q + 1) p)%Q.
Proof.
  intros V. pose proof (ten_pos p) as P. exists (Qfloor (v / 10 ^ p)). assert (E : (v == v / 10 ^ p * 10 ^ p)%Q) by (field; apply ten_nz).
  assert (V' : (0 <= v / 10 ^ p)%Q) by (apply Qle_shift_div_l; [exact P|lra]). split; [|split].
  - rewrite <- (Qfloor_Z 0). apply Qfloor_resp_le. exact V'.
  - unfold tens. rewrite E at 2. apply Qmult_le_compat_r; [apply Qfloor_le|lra].
  - unfold tens. rewrite E at 1. apply Qmult_lt_compat_r; [exact P|apply Qlt_floor].
Qed.
Lemma seventeen m e : binary64 (S754_finite false m e) -> exists y, digits 17 y /\ rounded y (S754_finite false m e).
Proof.
  intros B. pose proof B as (He & Hm & HK). pose proof (scaled_pos (Zpos m) e ltac:(lia)) as V0. destruct (decade m e ltac:(lia)) as (p & D1 & D2).
  destruct (multiple_near (scaled (Zpos m) e) (p - 16) ltac:(lra)) as (q & Q0 & Q1 & Q2).
  assert (T0 : (10 ^ p == tens (10 ^ 16) (p - 16))%Q).
  { rewrite <- tens_1. replace p with (p - 16 + 16) at 1 by lia. rewrite tens_shift by lia. reflexivity. }
  assert (T1 : (10 ^ (p + 1) == tens (10 ^ 17) (p - 16))%Q).
  { rewrite <- tens_1. replace (p + 1) with (p - 16 + 17) at 1 by lia. rewrite tens_shift by lia. reflexivity. }
  assert (L : 10 ^ 16 <= q). { assert (X : (tens (10 ^ 16) (p - 16) < tens (q + 1) (p - 16))%Q) by lra. apply tens_lt_inv in X. lia. }
  assert (U : q < 10 ^ 17). { assert (X : (tens q (p - 16) < tens (10 ^ 17) (p - 16))%Q) by lra. now apply tens_lt_inv in X. }
  pose proof (tens_add q 1 (p - 16)) as A. rewrite tens_1 in A. pose proof (ten_pos (p - 16)) as P.
  assert (T2 : (10 ^ p == (10000000000000000 # 1) * 10 ^ (p - 16))%Q) by (rewrite T0; unfold tens; reflexivity).
  set (v := scaled (Zpos m) e) in *. set (t := (10 ^ (p - 16))%Q) in *.
  destruct (Qlt_le_dec (2 * (v - tens q (p - 16))) t) as [C|C].
  - exists (tens q (p - 16)). split; [exists q, (p - 16); split; [lia|reflexivity]|]. apply (near_rounds m e _ ((1 # 2) * t)%Q B); fold v; [|lra].
    rewrite Qabs_neg by lra. lra.
  - exists (tens (q + 1) (p - 16)). split.
    + destruct (Z.eq_dec (q + 1) (10 ^ 17)) as [->|N].
      * exists 1, (p + 1). split; [lia|]. now rewrite tens_1, T1.
      * exists (q + 1), (p - 16). split; [lia|reflexivity].
    + apply (near_rounds m e _ ((1 # 2) * t)%Q B); fold v; [|lra]. rewrite Qabs_pos by lra. lra.
Qed.
Lemma digits_more a b x : a <= b -> digits a x -> digits b x.
Proof. intros L (q & p & H & E). exists q, p. split; [|exact E]. assert (10 ^ a <= 10 ^ b) by (apply Z.pow_le_mono_r; lia). lia. Qed.
Lemma shortest_least f v x n y : shortest_of f v x -> digits n y -> rounded y f -> digits n x.
Proof.
  intros (R & k & D & M & _) Dy Ry. destruct (Z_le_gt_dec k n) as [C|C]; [now apply (digits_more k n)|]. exfalso. apply (M y); auto. apply (digits_more n); auto. lia.
Qed.
Theorem shortest_seventeen m e v x : binary64 (S754_finite false m e) -> shortest_of (S754_finite false m e) v x -> digits 17 x.
Proof. intros B S. destruct (seventeen m e B) as (y & D & R). now apply (shortest_least _ v x 17 y S D R). Qed.

(** ** fifteen digits are kept *)
Lemma normal_half m e x : 2 ^ 52 <= Zpos m -> rounded x (S754_finite false m e) ->
  (2 * Qabs (x - scaled (Zpos m) e) <= 2 ^ e)%Q.
Proof.
  intros HK (B & S1 & S2 & [[_ (r & V & N)]|[_ (s & [=])]]). cbn in V. injection V as <-. destruct B as (He & Hm & _). pose proof (two_pos e).
  destruct (Qlt_le_dec x (scaled (Zpos m) e)) as [C|C].
  - destruct (N (Zpos m - 1) e ltac:(lia) ltac:(lia)) as [N1 _].
    assert (E : (scaled (Zpos m - 1) e + 2 ^ e == scaled (Zpos m) e)%Q) by (rewrite <- scaled_1, <- scaled_add; now replace (Z.pos m - 1 + 1) with (Z.pos m) by lia).
    set (w := scaled (Zpos m - 1) e) in *. set (v := scaled (Zpos m) e) in *. clearbody v w. abs_cases; lra.
  - assert (X : exists n f, Z.abs n < 2 ^ 53 /\ -1074 <= f /\ (scaled n f == scaled (Zpos m) e + 2 ^ e)%Q).
    { destruct (Z.eq_dec (Zpos m + 1) (2 ^ 53)) as [E|E].
      - exists (2 ^ 52), (e + 1). split; [reflexivity|]. split; [lia|]. rewrite scaled_shift by lia. rewrite <- scaled_1, <- scaled_add, E. reflexivity.
      - exists (Zpos m + 1), e. split; [lia|]. split; [lia|]. now rewrite scaled_add, scaled_1. }
    destruct X as (n & f & Hn & Hf & E). destruct (N n f Hn Hf) as [N1 _].
    set (w := scaled n f) in *. set (v := scaled (Zpos m) e) in *. clearbody v w. abs_cases; lra.
Qed.
Lemma fifteen_apart m e a b : 2 ^ 52 <= Zpos m -> rounded a (S754_finite false m e) -> rounded b (S754_finite false m e) ->
  (0 < a)%Q -> digits 15 a -> digits 15 b -> ~ (a < b)%Q.
Proof.
  intros HK Ra Rb P Da Db L. pose proof (normal_half m e a HK Ra) as Ha. pose proof (normal_half m e b HK Rb) as Hb. destruct Ra as ((He & Hm & _) & _).
  assert (W : exists p, (10 ^ p <= a < 10 ^ (p + 1))%Q).
  { destruct Da as (q & j & Hq & E). destruct (digit_count q ltac:(lia)) as (k & Pk & K1 & K2). exists (j + (k - 1)). rewrite E. split.
    - rewrite <- tens_1, tens_shift by lia. apply tens_le. lia.
    - replace (j + (k - 1) + 1) with (j + k) by lia. rewrite <- tens_1, tens_shift by lia. apply tens_lt. lia. }
  destruct W as (p & W1 & W2).
  assert (T0 : (10 ^ p == tens (10 ^ 14) (p - 14))%Q).
  { rewrite <- tens_1. replace p with (p - 14 + 14) at 1 by lia. rewrite tens_shift by lia. reflexivity. }
  destruct (digits_multiple 15 a (p - 14)) as (r & Pr & E); [lia|exact Da|change (15 - 1) with 14; lra|].
  destruct (digits_multiple 15 b (p - 14)) as (s & Ps & F); [lia|exact Db|change (15 - 1) with 14; lra|].
  rewrite E, F in L. apply tens_lt_inv in L.
  assert (A : (tens r (p - 14) + 10 ^ (p - 14) <= tens s (p - 14))%Q) by (rewrite <- tens_1, <- tens_add; apply tens_le; lia).
  rewrite <- E, <- F in A.
  assert (T1 : (10 ^ (p + 1) == (1000000000000000 # 1) * 10 ^ (p - 14))%Q).
  { rewrite <- tens_1. replace (p + 1) with (p - 14 + 15) by lia. rewrite tens_shift by lia. unfold tens. reflexivity. }
  pose proof (two_pos e) as P2. assert (V : ((4503599627370496 # 1) * 2 ^ e <= scaled (Zpos m) e)%Q).
  { unfold scaled. apply Qmult_le_compat_r; [|lra]. change (4503599627370496 # 1)%Q with (inject_Z (2 ^ 52)). now rewrite <- Zle_Qle. }
  set (v := scaled (Zpos m) e) in *. set (t := (10 ^ (p - 14))%Q) in *. set (u := (2 ^ e)%Q) in *. clearbody v t u. clear -Ha Hb A T1 W2 V P2. abs_cases; lra.
Qed.
Lemma rounded_normal x m e : (scaled 1 (-1022) <= x)%Q -> rounded x (S754_finite false m e) -> 2 ^ 52 <= Zpos m.
Proof.
  intros L ((He & Hm & HK) & _ & _ & [[_ (r & V & N)]|[_ (s & [=])]]). cbn in V. injection V as <-. destruct HK as [HK| ->]; [exact HK|].
  destruct (Z_lt_le_dec (Zpos m) (2 ^ 52)) as [C|C]; [|exact C]. exfalso.
  assert (E : (scaled 1 (-1022) == scaled (2 ^ 52) (-1074))%Q) by (change (-1022) with (-1074 + 52); rewrite scaled_shift by lia; reflexivity).
  destruct (N (2 ^ 52) (-1074) ltac:(reflexivity) ltac:(lia)) as [N1 _]. rewrite <- E in N1. apply (scaled_lt _ _ (-1074)) in C. rewrite <- E in C.
  set (w := scaled 1 (-1022)) in *. set (v := scaled (Zpos m) (-1074)) in *. clearbody v w. clear -N1 C L. abs_cases; lra.
Qed.
Theorem fifteen_kept m e v x y : (scaled 1 (-1022) <= x)%Q -> digits 15 x -> rounded x (S754_finite false m e) ->
  shortest_of (S754_finite false m e) v y -> (y == x)%Q.
Proof.
  intros L D R S. pose proof (rounded_normal x m e L R) as HK. pose proof (shortest_least _ v y 15 x S D R) as Dy. pose proof (proj1 S) as Ry.
  assert (Px : (0 < x)%Q) by (pose proof (scaled_pos 1 (-1022) ltac:(lia)); lra).
  assert (Py : (0 < y)%Q) by (destruct Dy as (q & p & Hq & ->); apply tens_pos; lia).
  pose proof (fifteen_apart m e x y HK R Ry Px D Dy). pose proof (fifteen_apart m e y x HK Ry R Py Dy D). lra.
Qed.
