(** The text of a float *)
From Coq Require Import Lqa Qpower QArith Qabs.
From Verif Require Import Display SpecNumber FloatProofs FloatUnique FloatLiteral FloatOps TextProofs TextMore DigitsProofs.
Open Scope Z_scope.

(** ** powers of ten *)
Lemma ten_pos p : (0 < 10 ^ p)%Q.
Proof. apply Qpower_0_lt. reflexivity. Qed.
Lemma ten_add a b : (10 ^ (a + b) == 10 ^ a * 10 ^ b)%Q.
Proof. apply Qpower_plus. discriminate. Qed.
Lemma ten_Z n : 0 <= n -> (10 ^ n == inject_Z (10 ^ n))%Q.
Proof. intros H. rewrite Zpower_Qpower by exact H. reflexivity. Qed.
Lemma ten_nz p : ~ (10 ^ p == 0)%Q.
Proof. pose proof (ten_pos p). lra. Qed.
Lemma ten_inv p : (10 ^ (- p) == / 10 ^ p)%Q.
Proof.
  assert (T : (10 ^ (- p) * 10 ^ p == 1)%Q) by (rewrite <- ten_add; replace (- p + p) with 0 by lia; reflexivity).
  apply (Qmult_inj_r _ _ (10 ^ p)); [apply ten_nz|]. rewrite T. field. apply ten_nz.
Qed.
Lemma tens_shift q p k : 0 <= k -> (tens q (p + k) == tens (q * 10 ^ k) p)%Q.
Proof. intros H. unfold tens. rewrite ten_add, (ten_Z k H), inject_Z_mult. ring. Qed.
Lemma tens_le q r p : q <= r -> (tens q p <= tens r p)%Q.
Proof. intros H. unfold tens. apply Qmult_le_compat_r; [rewrite <- Zle_Qle; exact H|apply Qlt_le_weak, ten_pos]. Qed.
Lemma tens_lt q r p : q < r -> (tens q p < tens r p)%Q.
Proof. intros H. unfold tens. apply Qmult_lt_compat_r; [apply ten_pos|rewrite <- Zlt_Qlt; exact H]. Qed.
Lemma tens_lt_inv q r p : (tens q p < tens r p)%Q -> q < r.
Proof. intros H. destruct (Z_lt_le_dec q r) as [L|L]; [exact L|]. apply (tens_le _ _ p) in L. lra. Qed.
Lemma tens_le_inv q r p : (tens q p <= tens r p)%Q -> q <= r.
Proof. intros H. destruct (Z_le_gt_dec q r) as [L|L]; [exact L|]. apply Z.gt_lt in L. apply (tens_lt _ _ p) in L. lra. Qed.
Lemma tens_pos q p : 0 < q -> (0 < tens q p)%Q.
Proof. intros H. assert (E : (tens 0 p == 0)%Q) by (unfold tens; change (inject_Z 0) with 0%Q; ring). rewrite <- E. now apply tens_lt. Qed.
Lemma tens_1 p : (tens 1 p == 10 ^ p)%Q.
Proof. unfold tens. change (inject_Z 1) with 1%Q. ring. Qed.
Lemma tens_add a b p : (tens (a + b) p == tens a p + tens b p)%Q.
Proof. unfold tens. rewrite inject_Z_plus. ring. Qed.

Ltac abs_cases := repeat match goal with
  | H : context [Qabs ?a] |- _ => let L := fresh in destruct (Qlt_le_dec a 0) as [L|L]; [rewrite (Qabs_neg a) in * by lra|rewrite (Qabs_pos a) in * by lra]
  | |- context [Qabs ?a] => let L := fresh in destruct (Qlt_le_dec a 0) as [L|L]; [rewrite (Qabs_neg a) in * by lra|rewrite (Qabs_pos a) in * by lra]
  end.
(** ** numbers between two which round to the same float do so, too *)
Lemma rounded_between x y z f : (0 < x)%Q -> rounded x f -> rounded y f -> (x <= z <= y)%Q -> rounded z f.
Proof.
  intros P (B & Sx & _ & Dx) (_ & _ & _ & Dy) [L1 L2]. split; [exact B|]. split; [intros _; now apply Sx|]. split; [intros N; lra|].
  destruct Dx as [[Lx (r & V & Nx)]|[Lx I]].
  - destruct Dy as [[Ly (r' & V' & Ny)]|[Ly (s & ->)]]; [|discriminate]. rewrite V in V'. injection V' as <-. left.
    rewrite !Qabs_pos in * by lra. split; [lra|]. exists r. split; [exact V|]. intros m e Hm He.
    destruct (Nx m e Hm He) as [A1 A2]. destruct (Ny m e Hm He) as [B1 B2]. set (w := scaled m e) in *. clearbody w. clear -A1 A2 B1 B2 L1 L2.
    destruct (Qlt_le_dec r w) as [C|C]; [|destruct (Qlt_le_dec w r) as [D|D]].
    + assert (H : (2 * y <= r + w)%Q) by (clear A2 B2 A1; abs_cases; lra).
      split; [clear A2 B2 A1 B1; abs_cases; lra|]. intros E.
      assert (Ez : (2 * z == r + w)%Q) by (clear A2 B2 A1 B1; abs_cases; lra).
      apply B2. setoid_replace y with z by lra. exact E.
    + assert (H : (r + w <= 2 * x)%Q) by (clear A2 B2 B1; abs_cases; lra).
      split; [clear A2 B2 A1 B1; abs_cases; lra|]. intros E.
      assert (Ez : (2 * z == r + w)%Q) by (clear A2 B2 A1 B1; abs_cases; lra).
      apply A2. setoid_replace x with z by lra. exact E.
    + assert (E : (w == r)%Q) by lra. split; [|auto]. setoid_replace (z - w)%Q with (z - r)%Q by lra. lra.
  - right. destruct I as (s & I). rewrite !Qabs_pos in * by lra. split; [lra|eauto].
Qed.

(** ** fractions *)
Lemma of_ratio_rounded n d : 0 < n -> 0 < d -> rounded (inject_Z n / inject_Z d) (f64_of_ratio n d).
Proof.
  intros Hn Hd. unfold f64_of_ratio. assert (D : (0 < inject_Z d)%Q) by (change 0%Q with (inject_Z 0); now rewrite <- Zlt_Qlt).
  destruct (div_core_ok n 0 d 0 (inject_Z n / inject_Z d)) as (q & e & l & -> & Hq & I & He); [exact Hn|exact Hd| |].
  - rewrite !int_scaled. field. lra.
  - destruct (round_aux_ok false q e _ l Hq I He (inb_nonneg _ _ _ _ Hq I)) as (R & _). exact R.
Qed.
Lemma scale10_eq n d p n' d' : 0 < d -> scale10 n d p = (n', d') -> 0 < d' /\ (inject_Z n' / inject_Z d' == inject_Z n / inject_Z d / 10 ^ p)%Q.
Proof.
  intros Hd E. unfold scale10 in E. assert (D : (0 < inject_Z d)%Q) by (change 0%Q with (inject_Z 0); now rewrite <- Zlt_Qlt).
  destruct (Z.leb_spec 0 p).
  - injection E as <- <-. assert (0 < 10 ^ p) by (apply Z.pow_pos_nonneg; lia). split; [nia|].
    pose proof (ten_pos p). rewrite inject_Z_mult, <- ten_Z by lia. field. lra.
  - injection E as <- <-. split; [exact Hd|]. pose proof (ten_pos p). rewrite inject_Z_mult, <- ten_Z by lia.
    rewrite (ten_inv p). field. split; [lra|apply ten_nz].
Qed.
Lemma reads_back_iff f q p : 0 < q -> binary64 f -> sign_of f = false -> (exists v, value_of f = Some v /\ 0 < v)%Q ->
  reads_back f q p = true <-> rounded (tens q p) f.
Proof.
  intros Hq B Sg (v & V & Pv). unfold reads_back. destruct (scale10 1 q p) as [d n] eqn:E.
  assert (H : 0 < n /\ 0 < d /\ (inject_Z n / inject_Z d == tens q p)%Q).
  { unfold scale10 in E. unfold tens. destruct (Z.leb_spec 0 p); pose proof (f_equal fst E) as E1; pose proof (f_equal snd E) as E2; cbn [fst snd] in E1, E2; subst d n.
    - assert (0 < 10 ^ p) by (apply Z.pow_pos_nonneg; lia). split; [now apply Z.mul_pos_pos|]. split; [lia|]. rewrite inject_Z_mult, <- ten_Z by lia. change (inject_Z 1) with 1%Q. field.
    - assert (0 < 10 ^ (- p)) by (apply Z.pow_pos_nonneg; lia). rewrite Z.mul_1_l. split; [exact Hq|]. split; [lia|]. rewrite <- ten_Z by lia.
      rewrite ten_inv. field. apply ten_nz. }
  destruct H as (Hn & Hd & EQ). pose proof (of_ratio_rounded n d Hn Hd) as R. apply (rounded_wd _ _ _ EQ) in R.
  pose proof (tens_pos q p Hq) as Pt. split.
  - intros H. replace f with (f64_of_ratio n d); [exact R|]. unfold f64_eqb, SFeqb in H.
    destruct f as [s|s| |s m e]; cbn in V, Sg; try discriminate; [inversion V; subst; lra|]. subst s.
    remember (f64_of_ratio n d) as g. destruct g as [s|s| |s m' e']; cbn in H; try discriminate; [now destruct s|].
    destruct s; [discriminate|]. destruct (Z.compare_spec e' e); try discriminate. subst.
    change (match Pos.compare m' m with Eq => true | _ => false end = true) in H.
    destruct (Pos.compare_spec m' m); try discriminate. now subst.
  - intros R'. assert (f64_of_ratio n d = f) as -> by (apply (rounded_unique_nonzero (tens q p)); auto; lra).
    unfold f64_eqb, SFeqb. destruct f as [s|s| |s m e]; cbn in V, Sg; try discriminate; [inversion V; subst; lra|]. subst s.
    cbn. rewrite Z.compare_refl. change (match Pos.compare_cont Eq m m with Eq => true | _ => false end = true). now rewrite (Pos.compare_refl m : Pos.compare_cont Eq m m = Eq).
Qed.

(** ** the search *)
Section Search.
Variable f : f64.
Variable n d : Z.
Hypothesis Hn : 0 < n.
Hypothesis Hd : 0 < d.
Hypothesis B : binary64 f.
Hypothesis Sg : sign_of f = false.
Let v := (inject_Z n / inject_Z d)%Q.
Hypothesis V : exists v', value_of f = Some v' /\ (v' == v)%Q.
Lemma d_pos : (0 < inject_Z d)%Q.
Proof. change 0%Q with (inject_Z 0). now rewrite <- Zlt_Qlt. Qed.
Lemma v_pos : (0 < v)%Q.
Proof. unfold v. apply Qlt_shift_div_l; [apply d_pos|]. assert (0 < inject_Z n)%Q by (change 0%Q with (inject_Z 0); now rewrite <- Zlt_Qlt). lra. Qed.
Lemma v_rounded : rounded v f.
Proof. destruct V as (v' & E & Q). apply (rounded_wd v'); auto. now apply rounded_self. Qed.
Lemma back_iff q p : 0 < q -> reads_back f q p = true <-> rounded (tens q p) f.
Proof. intros H. apply reads_back_iff; auto. destruct V as (v' & E & Q). exists v'. split; auto. pose proof v_pos. lra. Qed.

(** the multiple below *)
Lemma below p n' d' : scale10 n d p = (n', d') -> 0 < d' /\ 0 <= n' mod d' < d' /\
  (v == tens (n' / d') p + (inject_Z (n' mod d') / inject_Z d') * 10 ^ p)%Q.
Proof.
  intros E. destruct (scale10_eq n d p n' d' Hd E) as [P Q]. fold v in Q. split; [exact P|]. pose proof (Z.mod_pos_bound n' d' P) as M. split; [exact M|].
  pose proof (ten_nz p) as T. assert (D : ~ (inject_Z d' == 0)%Q) by (intros Q0; unfold Qeq in Q0; cbn in Q0; lia).
  assert (Q2 : (v == inject_Z n' / inject_Z d' * 10 ^ p)%Q) by (rewrite Q; field; exact T).
  rewrite Q2. rewrite (Z.div_mod n' d') at 1 by lia. rewrite inject_Z_plus, inject_Z_mult. unfold tens. field. exact D.
Qed.
Lemma frac_range n' d' : 0 < d' -> 0 <= n' mod d' < d' -> (0 <= inject_Z (n' mod d') / inject_Z d' < 1)%Q.
Proof.
  intros P M. assert (D : (0 < inject_Z d')%Q) by (change 0%Q with (inject_Z 0); now rewrite <- Zlt_Qlt). split.
  - apply Qle_shift_div_l; auto. setoid_replace (0 * inject_Z d')%Q with 0%Q by ring. change 0%Q with (inject_Z 0). rewrite <- Zle_Qle. lia.
  - apply Qlt_shift_div_r; auto. setoid_replace (1 * inject_Z d')%Q with (inject_Z d') by ring. rewrite <- Zlt_Qlt. lia.
Qed.
Lemma floor_range p n' d' : scale10 n d p = (n', d') -> (tens (n' / d') p <= v < tens (n' / d' + 1) p)%Q /\
  ((d' <=? 2 * (n' mod d')) = true <-> (tens (n' / d' + 1) p - v <= v - tens (n' / d') p)%Q).
Proof.
  intros E. destruct (below p n' d' E) as (P & M & Q). pose proof (frac_range n' d' P M) as R. pose proof (ten_pos p) as T.
  set (r := (inject_Z (n' mod d') / inject_Z d')%Q) in *. assert (U : (tens (n' / d' + 1) p == tens (n' / d') p + 10 ^ p)%Q) by (rewrite tens_add, tens_1; reflexivity).
  split; [split; nra|]. assert (D : (0 < inject_Z d')%Q) by (change 0%Q with (inject_Z 0); now rewrite <- Zlt_Qlt).
  assert (H : (d' <=? 2 * (n' mod d')) = true <-> (1 <= 2 * r)%Q).
  { rewrite Z.leb_le. assert (E2 : (2 * r == inject_Z (2 * (n' mod d')) / inject_Z d')%Q) by (unfold r; rewrite inject_Z_mult; change (inject_Z 2) with (2#1); field; lra).
    rewrite E2. split; intros L.
    - apply Qle_shift_div_l; auto. setoid_replace (1 * inject_Z d')%Q with (inject_Z d') by ring. now rewrite <- Zle_Qle.
    - rewrite Zle_Qle. assert (L2 : (1 * inject_Z d' <= inject_Z (2 * (n' mod d')) / inject_Z d' * inject_Z d')%Q) by (apply Qmult_le_compat_r; lra).
      setoid_replace (inject_Z (2 * (n' mod d')) / inject_Z d' * inject_Z d')%Q with (inject_Z (2 * (n' mod d'))) in L2 by (field; lra). lra. }
  rewrite H. split; intros; nra.
Qed.
(** if no neighbour reads back, no multiple does *)
Lemma none p n' d' q : scale10 n d p = (n', d') -> n' / d' <> 0 -> reads_back f (n' / d') p = false -> reads_back f (n' / d' + 1) p = false ->
  0 < q -> ~ rounded (tens q p) f.
Proof.
  intros E NZ L U Q R. destruct (floor_range p n' d' E) as [[F1 F2] _].
  assert (Pq : 0 < n' / d').
  { assert (-1 < n' / d') by (assert (0 < n' / d' + 1); [|lia]; apply (tens_lt_inv _ _ p); pose proof v_pos; assert ((tens 0 p == 0)%Q) by (unfold tens; change (inject_Z 0) with 0%Q; ring); lra). lia. }
  destruct (Z_le_gt_dec q (n' / d')) as [C|C].
  - assert (rounded (tens (n' / d') p) f) as K; [|apply back_iff in K; [congruence|lia]].
    apply (rounded_between (tens q p) v); auto; [now apply tens_pos|apply v_rounded|]. split; auto. now apply tens_le.
  - assert (rounded (tens (n' / d' + 1) p) f) as K; [|apply back_iff in K; [congruence|lia]].
    apply (rounded_between v (tens q p)); auto; [apply v_pos|apply v_rounded|]. split; [lra|]. apply tens_le. lia.
Qed.

(** what is found *)
Definition found_at (q' p' : Z) : Prop := exists q,
  0 < q /\ (tens q p' <= v < tens (q + 1) p')%Q /\ (q' = q \/ q' = q + 1) /\ rounded (tens q' p') f /\
  (forall r, r = q \/ r = q + 1 -> rounded (tens r p') f -> (Qabs (tens q' p' - v) <= Qabs (tens r p' - v))%Q) /\
  (q < 10 \/ forall r, 0 < r -> ~ rounded (tens r (p' + 1)) f).

Hypothesis grid : forall p, p = -1074 -> exists k, 0 < k /\ (v == tens k p)%Q.

Lemma search fuel : forall p, Z.of_nat fuel = p + 1075 -> -1074 <= p ->
  ((v < tens 1 (p + 1))%Q \/ forall r, 0 < r -> ~ rounded (tens r (p + 1)) f) ->
  let (q', p') := shortest fuel f n d p in found_at q' p'.
Proof.
  induction fuel as [|fuel IH]; intros p Hf Hp I; [lia|]. cbn [shortest]. destruct (scale10 n d p) as [n' d'] eqn:E.
  pose proof (floor_range p n' d' E) as [[F1 F2] Cl]. pose proof v_pos as Pv.
  assert (T0 : (tens 0 p == 0)%Q) by (unfold tens; change (inject_Z 0) with 0%Q; ring).
  assert (NN : 0 <= n' / d').
  { assert (0 < n' / d' + 1); [|lia]. apply (tens_lt_inv _ _ p). lra. }
  assert (Last : p = -1074 -> 0 < n' / d' /\ (v == tens (n' / d') p)%Q).
  { intros L. destruct (grid p L) as (k & Pk & Ek). rewrite Ek in F1, F2. apply tens_le_inv in F1. apply tens_lt_inv in F2. assert (n' / d' = k) by lia. subst k. auto. }
  assert (Next : 0 < n' / d' -> n' / d' < 10 \/ forall r, 0 < r -> ~ rounded (tens r (p + 1)) f).
  { intros P. destruct I as [I|I]; [left|right; exact I]. rewrite (tens_shift 1 p 1) in I by lia. change (1 * 10 ^ 1) with 10 in I.
    apply (tens_lt_inv _ _ p). lra. }
  destruct (Z.eqb_spec (n' / d') 0) as [Z0|NZ].
  - assert (p <> -1074) by (intros L; apply Last in L; lia). apply IH; [lia|lia|].
    replace (p - 1 + 1) with p by lia. left. rewrite Z0 in F2. exact F2.
  - assert (Pq : 0 < n' / d') by lia. set (q := n' / d') in *.
    assert (Lo : reads_back f q p = true <-> rounded (tens q p) f) by now apply back_iff.
    assert (Hi : reads_back f (q + 1) p = true <-> rounded (tens (q + 1) p) f) by (apply back_iff; lia).
    assert (Al : (Qabs (tens q p - v) == v - tens q p)%Q) by (rewrite Qabs_neg; lra).
    assert (Ah : (Qabs (tens (q + 1) p - v) == tens (q + 1) p - v)%Q) by (rewrite Qabs_pos; lra).
    destruct (reads_back f (q + 1) p) eqn:RH; cbn [andb].
    + destruct (negb (reads_back f q p) || (d' <=? 2 * (n' mod d'))) eqn:Ch.
      * exists q. split; [lia|]. split; [auto|]. split; [auto|]. split; [now apply Hi|]. split; [|auto].
        intros r [? | ->] Rr; [subst r|lra]. rewrite Al, Ah. apply orb_true_iff in Ch. destruct Ch as [Ch|Ch]; [|now apply Cl].
        apply Lo in Rr. rewrite Rr in Ch. discriminate.
      * apply orb_false_iff in Ch. destruct Ch as [C1 C2]. apply negb_false_iff in C1. rewrite C1.
        exists q. split; [lia|]. split; [auto|]. split; [auto|]. split; [now apply Lo|]. split; [|auto].
        intros r [? | ->] Rr; [subst r; lra|]. rewrite Al, Ah. destruct (Qlt_le_dec (tens (q + 1) p - v) (v - tens q p)) as [L|L]; [|exact L].
        apply Qlt_le_weak in L. apply Cl in L. congruence.
    + destruct (reads_back f q p) eqn:RL.
      * exists q. split; [lia|]. split; [auto|]. split; [auto|]. split; [now apply Lo|]. split; [|auto].
        intros r [? | ->] Rr; [subst r; lra|]. apply Hi in Rr. discriminate.
      * assert (p <> -1074).
        { intros L. destruct (Last L) as [_ Q]. assert (rounded (tens q p) f) as K by (apply (rounded_wd v); [exact Q|apply v_rounded]). apply Lo in K. discriminate. }
        apply IH; try lia. right. intros r Pr. replace (p - 1 + 1) with p by lia. apply (none p n' d' r); auto.
Qed.
End Search.

(** ** the number found is the shortest *)
Lemma digit_count q : 0 < q -> exists k, 0 < k /\ 10 ^ (k - 1) <= q < 10 ^ k.
Proof.
  intros P. assert (H : forall b : nat, q < 10 ^ Z.of_nat b -> exists k, 0 < k /\ 10 ^ (k - 1) <= q < 10 ^ k).
  { induction b as [|b IH]; intros L; [cbn in L; lia|]. destruct (Z_lt_le_dec q (10 ^ Z.of_nat b)) as [C|C]; [auto|].
    exists (Z.of_nat (S b)). split; [lia|]. split; [|exact L]. now replace (Z.of_nat (S b) - 1) with (Z.of_nat b) by lia. }
  apply (H (Z.to_nat q)). rewrite Z2Nat.id by lia. apply Z.pow_gt_lin_r; lia.
Qed.
Lemma digits_multiple k y p : 0 < k -> digits k y -> (tens (10 ^ (k - 1)) p <= y)%Q -> exists r, 0 < r /\ (y == tens r p)%Q.
Proof.
  intros Pk (q & j & Hq & E) L. destruct (Z_le_gt_dec p j) as [C|C].
  - exists (q * 10 ^ (j - p)). assert (0 < 10 ^ (j - p)) by (apply Z.pow_pos_nonneg; lia). split; [nia|]. rewrite E, <- tens_shift by lia. now replace (p + (j - p)) with j by lia.
  - exfalso. rewrite E in L. replace p with (j + (p - j)) in L by lia. rewrite tens_shift in L by lia. rewrite <- Z.pow_add_r in L by lia.
    apply tens_le_inv in L. assert (10 ^ k <= 10 ^ (k - 1 + (p - j))) by (apply Z.pow_le_mono_r; lia). lia.
Qed.
Lemma found_shortest f n d q' p' : 0 < n -> 0 < d -> rounded (inject_Z n / inject_Z d) f -> found_at f n d q' p' ->
  0 < q' /\ shortest_of f (inject_Z n / inject_Z d) (tens q' p').
Proof.
  intros Hn Hd Rv (q & Pq & [L U] & C & R & Cl & Fin). set (v := (inject_Z n / inject_Z d)%Q) in *.
  assert (Pv : (0 < v)%Q) by (pose proof (tens_pos q p' Pq); lra).
  assert (Pq' : 0 < q') by lia. split; [exact Pq'|]. split; [exact R|]. destruct (digit_count q Pq) as (k & Pk & K1 & K2). exists k.
  assert (T1 : (tens (10 ^ (k - 1)) p' <= tens q p')%Q) by (apply tens_le; lia).
  split; [|split].
  - destruct (Z.eq_dec q' (10 ^ k)) as [->|NE].
    + exists 1, (p' + k). split; [split; [lia|apply Z.pow_gt_1; lia]|]. rewrite tens_shift by lia. now rewrite Z.mul_1_l.
    + exists q', p'. split; [lia|reflexivity].
  - intros y Dy Ry. destruct (Z.eq_dec k 1) as [->|K]; [destruct Dy as (z & j & Hz & _); cbn in Hz; lia|].
    destruct Fin as [Fin|Fin].
    { assert (10 ^ 1 <= 10 ^ (k - 1)) by (apply Z.pow_le_mono_r; lia). change (10 ^ 1) with 10 in *. lia. }
    assert (T2 : (tens (10 ^ (k - 1 - 1)) (p' + 1) == tens (10 ^ (k - 1)) p')%Q) by (rewrite tens_shift by lia; rewrite <- Z.pow_add_r by lia; now replace (k - 1 - 1 + 1) with (k - 1) by lia).
    destruct (Qlt_le_dec y (tens (10 ^ (k - 1)) p')) as [S|S].
    + apply (Fin (10 ^ (k - 1 - 1))); [apply Z.pow_pos_nonneg; lia|]. apply (rounded_between y v); auto.
      * destruct Dy as (z & j & Hz & ->). apply tens_pos. lia.
      * rewrite T2. lra.
    + destruct (digits_multiple (k - 1) y (p' + 1)) as (r & Pr & E); [lia|exact Dy|rewrite T2; exact S|].
      apply (Fin r Pr). now apply (rounded_wd y).
  - intros y Dy Ry. destruct (Qlt_le_dec y (tens (10 ^ (k - 1)) p')) as [S|S].
    + assert (Rq : rounded (tens q p') f).
      { apply (rounded_between y v); auto; [|lra]. destruct Dy as (z & j & Hz & ->). apply tens_pos. lia. }
      eapply Qle_trans; [apply (Cl q); auto|]. rewrite (Qabs_neg (tens q p' - v)), (Qabs_neg (y - v)) by lra. lra.
    + destruct (digits_multiple k y p' Pk Dy S) as (r & Pr & E). destruct (Z_le_gt_dec r q) as [D|D].
      * assert (tens r p' <= tens q p')%Q by now apply tens_le.
        assert (Rq : rounded (tens q p') f) by (apply (rounded_between y v); auto; [pose proof (tens_pos r p' Pr)|]; lra).
        eapply Qle_trans; [apply (Cl q); auto|]. rewrite (Qabs_neg (tens q p' - v)), (Qabs_neg (y - v)) by lra. lra.
      * assert (tens (q + 1) p' <= tens r p')%Q by (apply tens_le; lia).
        assert (Rq : rounded (tens (q + 1) p') f) by (apply (rounded_between v y); auto; lra).
        eapply Qle_trans; [apply (Cl (q + 1)); auto|]. rewrite (Qabs_pos (tens (q + 1) p' - v)), (Qabs_pos (y - v)) by lra. lra.
Qed.

(** ** where the search starts and ends *)
Lemma ratio_value m e n d : f64_ratio m e = (n, d) -> 0 < n /\ 0 < d /\ (scaled (Zpos m) e == inject_Z n / inject_Z d)%Q.
Proof.
  unfold f64_ratio. destruct (Z.leb_spec 0 e); intros E; pose proof (f_equal fst E) as E1; pose proof (f_equal snd E) as E2; cbn [fst snd] in E1, E2; subst n d.
  - assert (0 < 2 ^ e) by (apply Z.pow_pos_nonneg; lia). split; [lia|]. split; [lia|]. unfold scaled. rewrite inject_Z_mult, <- two_Z by lia. change (inject_Z 1) with 1%Q. field.
  - assert (0 < 2 ^ (- e)) by (apply Z.pow_pos_nonneg; lia). split; [lia|]. split; [lia|]. unfold scaled. rewrite <- two_Z by lia.
    pose proof (two_pos e). pose proof (two_pos (- e)). assert (T : (2 ^ (- e) * 2 ^ e == 1)%Q) by (rewrite <- two_add; replace (- e + e) with 0 by lia; reflexivity).
    apply (Qmult_inj_r _ _ (2 ^ (- e))); [lra|]. setoid_replace (inject_Z (Zpos m) * 2 ^ e * 2 ^ (- e))%Q with (inject_Z (Zpos m) * (2 ^ (- e) * 2 ^ e))%Q by ring. rewrite T. field. lra.
Qed.
Lemma two_le_ten a : 0 <= a -> 2 ^ a <= 10 ^ (a / 3 + 1).
Proof.
  intros H. assert (a <= 3 * (a / 3 + 1)) by (pose proof (Z.div_mod a 3 ltac:(lia)); pose proof (Z.mod_pos_bound a 3 ltac:(lia)); lia).
  assert (0 <= a / 3) by (apply Z.div_pos; lia).
  transitivity (2 ^ (3 * (a / 3 + 1))); [apply Z.pow_le_mono_r; lia|]. rewrite Z.pow_mul_r by lia. change (2 ^ 3) with 8. apply Z.pow_le_mono_l. lia.
Qed.
Lemma start_above n d : 0 < n -> 0 < d -> (inject_Z n / inject_Z d < tens 1 (start10 n d))%Q.
Proof.
  intros Hn Hd. rewrite tens_1. pose proof (Z.log2_spec n Hn) as [_ Ln]. pose proof (Z.log2_spec d Hd) as [Ld _].
  set (a := Z.log2 n) in *. set (b := Z.log2 d) in *. assert (0 <= a) by apply Z.log2_nonneg. assert (0 <= b) by apply Z.log2_nonneg.
  assert (D : (0 < inject_Z d)%Q) by (change 0%Q with (inject_Z 0); now rewrite <- Zlt_Qlt).
  assert (L : (inject_Z n / inject_Z d < 2 ^ (a - b + 1))%Q).
  { apply Qlt_shift_div_r; auto. assert (L1 : (inject_Z n < 2 ^ (a + 1))%Q) by (rewrite two_Z by lia; rewrite <- Zlt_Qlt; exact Ln).
    assert (L2 : (2 ^ b <= inject_Z d)%Q) by (rewrite two_Z by lia; rewrite <- Zle_Qle; exact Ld).
    pose proof (two_pos (a - b + 1)). pose proof (two_add (a - b + 1) b) as T. replace (a - b + 1 + b) with (a + 1) in T by lia. nra. }
  eapply Qlt_le_trans; [exact L|]. clear L. unfold start10. fold a b. set (c := a - b + 1) in *. clearbody c. destruct (Z.leb_spec 0 c) as [P|N].
  - assert (0 <= c / 3) by (apply Z.div_pos; lia). rewrite two_Z, ten_Z by lia. rewrite <- Zle_Qle. now apply two_le_ten.
  - pose proof (Z.div_mod c 4 ltac:(lia)) as E. pose proof (Z.mod_pos_bound c 4 ltac:(lia)) as M. set (j := c / 4) in *. set (r := c mod 4) in *.
    assert (J : j < 0) by lia. assert (H1 : (2 ^ (4 * j) <= 10 ^ j)%Q).
    { assert (I1 : (2 ^ (4 * j) * 2 ^ (- (4 * j)) == 1)%Q) by (rewrite <- two_add; replace (4 * j + - (4 * j)) with 0 by lia; reflexivity).
      assert (I2 : (10 ^ j * 10 ^ (- j) == 1)%Q) by (rewrite <- ten_add; replace (j + - j) with 0 by lia; reflexivity).
      assert (I3 : (10 ^ (- j) <= 2 ^ (- (4 * j)))%Q).
      { rewrite two_Z, ten_Z by lia. rewrite <- Zle_Qle. replace (- (4 * j)) with (4 * - j) by lia. rewrite (Z.pow_mul_r 2 4) by lia. apply Z.pow_le_mono_l. cbn. lia. }
      pose proof (two_pos (4 * j)). pose proof (ten_pos j). pose proof (ten_pos (- j)). pose proof (two_pos (- (4 * j))).
      apply (Qmult_le_r _ _ (10 ^ (- j))); auto. rewrite I2. nra. }
    rewrite E, two_add, ten_add. change (10 ^ 1)%Q with (10#1). assert (H2 : (2 ^ r <= 8#1)%Q).
    { rewrite two_Z by lia. change (8#1) with (inject_Z (2 ^ 3)). rewrite <- Zle_Qle. apply Z.pow_le_mono_r; lia. }
    pose proof (two_pos r). pose proof (two_pos (4 * j)). nra.
Qed.
Lemma last_grid m e : -1074 <= e -> exists k, 0 < k /\ (scaled (Zpos m) e == tens k (-1074))%Q.
Proof.
  intros H. exists (Zpos m * 2 ^ (e + 1074) * 5 ^ 1074). assert (0 < 2 ^ (e + 1074)) by (apply Z.pow_pos_nonneg; lia). split.
  - apply Z.mul_pos_pos; [lia|]. apply Z.pow_pos_nonneg; lia.
  - unfold scaled, tens. rewrite !inject_Z_mult. rewrite <- (two_Z (e + 1074)) by lia.
    assert (I : (inject_Z (5 ^ 1074) * 2 ^ 1074 == 10 ^ 1074)%Q).
    { rewrite two_Z, ten_Z by lia. rewrite <- inject_Z_mult. change 10 with (5 * 2) at 1. rewrite Z.pow_mul_l. reflexivity. }
    pose proof (two_pos 1074). pose proof (ten_pos 1074). pose proof (ten_pos (-1074)) as P.
    assert (I2 : (10 ^ 1074 * 10 ^ (-1074) == 1)%Q) by (rewrite <- ten_add; reflexivity).
    rewrite two_add.
    setoid_replace (inject_Z (Zpos m) * (2 ^ e * 2 ^ 1074) * inject_Z (5 ^ 1074) * 10 ^ (-1074))%Q
      with (inject_Z (Zpos m) * 2 ^ e * (inject_Z (5 ^ 1074) * 2 ^ 1074 * 10 ^ (-1074)))%Q by ring.
    rewrite I, I2. ring.
Qed.
Opaque shortest.
Lemma found_digits m e n d q p : binary64 (S754_finite false m e) -> f64_ratio m e = (n, d) ->
  shortest (Z.to_nat (start10 n d + 1075)) (S754_finite false m e) n d (start10 n d) = (q, p) ->
  0 < q /\ shortest_of (S754_finite false m e) (scaled (Zpos m) e) (tens q p).
Proof.
  intros B E S. destruct (ratio_value m e n d E) as (Hn & Hd & Ev).
  assert (St : -1074 <= start10 n d).
  { unfold start10. unfold f64_ratio in E. destruct B as (Be & _). destruct (Z.leb_spec 0 e); pose proof (f_equal snd E) as E2; cbn [snd] in E2; subst d.
    - change (Z.log2 1) with 0. pose proof (Z.log2_nonneg n). destruct (Z.leb_spec 0 (Z.log2 n - 0 + 1)); [|lia]. pose proof (Z.div_pos (Z.log2 n - 0 + 1) 3 ltac:(lia) ltac:(lia)). lia.
    - rewrite Z.log2_pow2 by lia. pose proof (Z.log2_nonneg n). destruct (Z.leb_spec 0 (Z.log2 n - - e + 1)).
      + pose proof (Z.div_pos (Z.log2 n - - e + 1) 3 ltac:(lia) ltac:(lia)). lia.
      + pose proof (Z.div_le_mono (-1073) (Z.log2 n - - e + 1) 4 ltac:(lia) ltac:(lia)) as D. change (-1073 / 4) with (-269) in D. lia. }
  pose proof (search (S754_finite false m e) n d Hn Hd B eq_refl) as F.
  assert (V : exists v', value_of (S754_finite false m e) = Some v' /\ (v' == inject_Z n / inject_Z d)%Q) by (eexists; split; [reflexivity|exact Ev]).
  specialize (F V). assert (G : forall p, p = -1074 -> exists k, 0 < k /\ (inject_Z n / inject_Z d == tens k p)%Q).
  { intros ? ->. destruct (last_grid m e) as (k & Pk & Ek); [apply B|]. exists k. split; auto. now rewrite <- Ev. }
  specialize (F G (Z.to_nat (start10 n d + 1075)) (start10 n d)). rewrite Z2Nat.id in F by lia. specialize (F eq_refl St).
  rewrite S in F. assert (R : rounded (inject_Z n / inject_Z d) (S754_finite false m e)).
  { apply (rounded_wd (scaled (Zpos m) e)); auto. now apply rounded_self. }
  destruct (found_shortest _ n d q p Hn Hd R) as [P Q].
  - apply F. left. rewrite (tens_shift 1 (start10 n d) 1) by lia. eapply Qlt_trans; [now apply start_above|]. apply tens_lt. reflexivity.
  - split; [exact P|]. destruct Q as (R1 & k & D & L & C). split; [exact R1|]. exists k. split; [exact D|]. split; [exact L|]. intros y Dy Ry. rewrite Ev. now apply C.
Qed.
Transparent shortest.

(** ** digits *)
Lemma decimal_app (a b : str) : Z.of_N (decimal (a ++ b)) = Z.of_N (decimal a) * 10 ^ Z.of_nat (length b) + Z.of_N (decimal b).
Proof.
  induction b as [|c b IH] using rev_ind; [rewrite app_nil_r; cbn; lia|]. rewrite app_assoc, !decimal_snoc, !N2Z.inj_add, !N2Z.inj_mul, IH.
  rewrite app_length. cbn [length]. replace (Z.of_nat (length b + 1)) with (Z.of_nat (length b) + 1) by lia. rewrite Z.pow_add_r by lia. change (10 ^ 1) with 10. lia.
Qed.
Lemma decimal_zeros k : decimal (repeat 48%N k) = 0%N.
Proof. induction k as [|k IH]; [reflexivity|]. cbn [repeat]. change (48%N :: repeat 48%N k) with ([48%N] ++ repeat 48%N k). apply N2Z.inj. rewrite decimal_app, IH. cbn. lia. Qed.
Lemma decimal_bound (ds : str) : Forall digit ds -> 0 <= Z.of_N (decimal ds) < 10 ^ Z.of_nat (length ds).
Proof.
  induction 1 as [|c ds D _ IH]; [cbn; lia|]. change (c :: ds) with ([c] ++ ds). rewrite decimal_app, app_length. cbn [length]. unfold digit in D.
  replace (Z.of_nat (1 + length ds)) with (Z.of_nat (length ds) + 1) by lia. rewrite Z.pow_add_r by lia. change (10 ^ 1) with 10.
  assert (0 <= Z.of_N (decimal [c]) <= 9) by (unfold decimal; cbn [fold_left]; lia). nia.
Qed.
Lemma decimal_lower (c : char) (ds : str) : Forall digit (c :: ds) -> c <> 48%N -> 10 ^ Z.of_nat (length ds) <= Z.of_N (decimal (c :: ds)).
Proof.
  intros F N0. inversion F as [|? ? D F2]; subst. change (c :: ds) with ([c] ++ ds). rewrite decimal_app. pose proof (decimal_bound ds F2). unfold digit in D.
  assert (1 <= Z.of_N (decimal [c])) by (unfold decimal; cbn [fold_left]; lia). assert (0 < 10 ^ Z.of_nat (length ds)) by (apply Z.pow_pos_nonneg; lia). nia.
Qed.
Lemma digits_zeros k : Forall digit (repeat 48%N k).
Proof. apply Forall_forall. intros c I. apply repeat_spec in I. subst. unfold digit. lia. Qed.
Lemma no_point (a : str) : Forall digit a -> ~ In 46%N a.
Proof. rewrite Forall_forall. intros F I. apply F in I. unfold digit in I. lia. Qed.
Lemma point_once (a b x y : str) : ~ In 46%N a -> ~ In 46%N b -> a ++ 46%N :: x = b ++ 46%N :: y -> a = b /\ x = y.
Proof.
  revert b. induction a as [|d a IH]; intros [|e b] A B E; cbn [app] in E.
  - now injection E.
  - injection E as <- _. exfalso. apply B. now left.
  - injection E as -> _. exfalso. apply A. now left.
  - injection E as -> E. destruct (IH b) as [-> ->]; auto; intros I; [apply A|apply B]; now right.
Qed.
Lemma strip_shape (s : str) : exists ds k, s = ds ++ repeat 48%N k /\ strip_zeros s = ds /\ (ds <> [] -> last ds 0%N <> 48%N).
Proof.
  unfold strip_zeros. destruct (TextMore.drop_while_spec (N.eqb 48) (rev s)) as (a & b & E & A & Bn & ->).
  exists (rev b), (length a). assert (Ea : a = repeat 48%N (length a)).
  { clear -A. induction A as [|c a H _ IH]; [reflexivity|]. apply N.eqb_eq in H. subst c. cbn [length repeat]. now f_equal. }
  split; [|split; [reflexivity|]].
  - rewrite <- (rev_involutive s), E, rev_app_distr. f_equal. rewrite Ea at 1. clear. induction (length a) as [|k IH]; [reflexivity|]. cbn [repeat rev]. rewrite IH. rewrite <- repeat_cons. reflexivity.
  - intros NE. destruct b as [|c b]; [now destruct NE|]. cbn [rev]. rewrite last_last. specialize (Bn c b eq_refl). apply N.eqb_neq in Bn. congruence.
Qed.
Lemma show_N_head n : (0 < n)%N -> hd 0%N (show_N n) <> 48%N.
Proof. intros P. unfold show_N. destruct (show_fuel (N.size_nat n) n [] (size_bound n)) as (ds & -> & _ & H). rewrite app_nil_r. apply H. lia. Qed.
Lemma shortest_of_wd f v x y : (x == y)%Q -> shortest_of f v x -> shortest_of f v y.
Proof.
  intros E (R & n & (q & p & Hq & Eq) & L & C). split; [now apply (rounded_wd x)|]. exists n. split; [exists q, p; split; auto; lra|]. split; [exact L|].
  intros z Dz Rz. setoid_replace (y - v)%Q with (x - v)%Q by lra. auto.
Qed.
Lemma digits_shape m e ds x : binary64 (S754_finite false m e) -> f64_digits m e = (ds, x) ->
  exists c r, ds = c :: r /\ c <> 48%N /\ Forall digit ds /\ last ds 0%N <> 48%N /\
    shortest_of (S754_finite false m e) (scaled (Zpos m) e) (tens (Z.of_N (decimal ds)) (x - Z.of_nat (length ds))).
Proof.
  intros B E. unfold f64_digits in E. destruct (f64_ratio m e) as [n d] eqn:En.
  destruct (shortest (Z.to_nat (start10 n d + 1075)) (S754_finite false m e) n d (start10 n d)) as [q p] eqn:Es.
  destruct (found_digits m e n d q p B En Es) as [Pq Sh]. destruct (show_N_numeral (Z.to_N q)) as (NE & F & V). pose proof (show_N_head (Z.to_N q) ltac:(lia)) as H.
  destruct (strip_shape (show_N (Z.to_N q))) as (ds' & k & S1 & S2 & S3). rewrite S2 in E.
  pose proof (f_equal fst E) as E1; pose proof (f_equal snd E) as E2; cbn [fst snd] in E1, E2. clear E S2. subst ds'. rewrite S1 in *.
  destruct ds as [|c r].
  { exfalso. cbn [app] in V. rewrite decimal_zeros in V. lia. }
  exists c, r. split; [reflexivity|]. cbn [app hd] in H. split; [exact H|]. apply Forall_app in F. split; [apply F|]. split; [apply S3; discriminate|].
  eapply shortest_of_wd; [|exact Sh]. subst x. rewrite app_length, repeat_length.
  repeat change (@length N) with (@length char). match goal with |- (_ == tens _ ?b)%Q => replace b with (p + Z.of_nat k) by lia end. etransitivity; [|symmetry; apply tens_shift; lia].
  assert (Eq : q = Z.of_N (decimal (c :: r)) * 10 ^ Z.of_nat k).
  { rewrite <- (Z2N.id q), <- V by lia. rewrite decimal_app, decimal_zeros, repeat_length. cbn. lia. }
  now rewrite <- Eq.
Qed.

(** ** the texts *)
Lemma last_tail (a b : str) d : b <> [] -> last (a ++ b) d = last b d.
Proof. intros N. induction a as [|h a IH]; [reflexivity|]. cbn [app]. rewrite <- IH. destruct (a ++ b) eqn:Q; [destruct a; [now destruct N|discriminate]|reflexivity]. Qed.
Lemma dec_text_ok (ds : str) x (c : char) (r : str) : ds = c :: r -> c <> 48%N -> Forall digit ds -> last ds 0%N <> 48%N ->
  exists y, decimal_text (dec_text false ds x) y /\ tidy (dec_text false ds x) /\ (y == tens (Z.of_N (decimal ds)) (x - Z.of_nat (length ds)))%Q /\
    dec_text true ds x = dec_text false ds x ++ (if existsb (N.eqb 46) (dec_text false ds x) then [] else lit ".0").
Proof.
  intros Eds N0 F L. unfold dec_text. set (len := Z.of_nat (length ds)) in *. assert (Pl : 0 < len) by (subst len ds; cbn [length]; lia).
  destruct (Z.leb_spec x 0) as [X|X]; [|destruct (Z.ltb_spec x len) as [Y|Y]].
  - set (b := zeros (- x) ++ ds). assert (Fb : Forall digit b) by (apply Forall_app; split; [apply digits_zeros|exact F]).
    change (lit "0." ++ b) with ([48%N] ++ 46%N :: b). eexists. split; [apply dt_point; auto; [discriminate|destruct (zeros (- x)); [now subst ds|discriminate]|repeat constructor; unfold digit; lia]|].
    split; [|split].
    + split; [intros ? ? [= <- _]; reflexivity|]. intros a b' E. apply point_once in E; [|intros [?|[]]; discriminate|].
      * destruct E as [_ <-]. unfold b. rewrite last_tail; [exact L|subst ds; discriminate].
      * intros I. apply in_split in I. destruct I as (u & w & ->). rewrite <- app_assoc in E. cbn [app] in E. destruct u as [|h u]; [discriminate|]. injection E as <- E. destruct u as [|h u]; cbn [app] in E.
        -- injection E as E. apply (no_point b Fb). rewrite E. apply in_app_iff. right. now left.
        -- injection E as <- E. apply (no_point b Fb). rewrite E. apply in_app_iff. right. now left.
    + unfold b. rewrite !decimal_app. change (decimal [48%N]) with 0%N. unfold zeros. rewrite decimal_zeros, app_length, repeat_length.
      replace (- Z.of_nat (Z.to_nat (- x) + length ds)) with (x - len) by (subst len; lia). cbn [Z.of_N]. rewrite !Z.mul_0_l, !Z.add_0_l. reflexivity.
    + cbn [app existsb]. cbn. now rewrite app_nil_r.
  - set (a := firstn (Z.to_nat x) ds). set (b := skipn (Z.to_nat x) ds). assert (Ed : ds = a ++ b) by (symmetry; apply firstn_skipn).
    assert (La : length a = Z.to_nat x) by (apply firstn_length_le; subst len; lia).
    assert (Lb : Z.of_nat (length b) = len - x) by (pose proof (f_equal (@length char) Ed) as LL; rewrite app_length in LL; subst len; change (@length N) with (@length char) in *; lia).
    rewrite Ed in F. apply Forall_app in F. destruct F as [Fa Fb].
    assert (Na : a <> []) by (intros Q; rewrite Q in La; cbn in La; lia). assert (Nb : b <> []) by (intros Q; rewrite Q in Lb; cbn in Lb; lia).
    change (lit "." ++ b) with (46%N :: b). eexists. split; [now apply dt_point|]. split; [|split].
    + split.
      * intros d s E. destruct a as [|h a]; [congruence|]. cbn [app] in E. injection E as -> _. exfalso. rewrite Ed in Eds. cbn [app] in Eds. congruence.
      * intros a' b' E. destruct (point_once a a' b b') as [_ <-]; auto; [now apply no_point| |].
        -- intros I. apply in_split in I. destruct I as (u & w & ->). rewrite <- app_assoc in E. cbn [app] in E.
           destruct (point_once a u b (w ++ 46%N :: b')) as [_ Q]; auto; [now apply no_point| |].
           ++ clear -E Fa Fb. intros I. assert (J : forall u a, ~ In 46%N a -> In 46%N u -> forall x b, ~ In 46%N b -> a ++ 46%N :: b = u ++ 46%N :: x -> False).
              { clear. induction u as [|h u IH]; intros a A U x b Bb E; [now destruct U|]; destruct U as [->|U].
                - destruct a as [|k a]; cbn [app] in E.
                  + injection E as E2. apply Bb. rewrite E2. apply in_app_iff. right. now left.
                  + injection E as E1 E2. apply A. now left.
                - destruct a as [|k a]; cbn [app] in E; injection E as E1 E2.
                  + apply Bb. rewrite E2. apply in_app_iff. right. now left.
                  + apply (IH a (fun I => A (or_intror I)) U x b Bb E2). }
              apply (J u a (no_point a Fa) I _ b (no_point b Fb) E).
           ++ apply (no_point b Fb). rewrite Q. apply in_app_iff. right. now left.
        -- rewrite Ed, last_tail in L; auto.
    + rewrite <- Ed, Lb. now replace (- (len - x)) with (x - len) by lia.
    + replace (existsb (N.eqb 46) (a ++ 46%N :: b)) with true; [now rewrite app_nil_r|]. symmetry. apply existsb_exists. exists 46%N. split; [apply in_app_iff; right; now left|reflexivity].
  - rewrite app_nil_r. set (z := zeros (x - len)). assert (Fz : Forall digit (ds ++ z)) by (apply Forall_app; split; [exact F|apply digits_zeros]).
    eexists. split; [apply dt_whole; [subst ds; discriminate|exact Fz]|]. split; [|split].
    + split.
      * intros d s E. rewrite Eds in E. injection E as -> _. congruence.
      * intros a b E. exfalso. apply (no_point _ Fz). rewrite E. apply in_app_iff. right. now left.
    + rewrite decimal_app. unfold z, zeros. rewrite decimal_zeros, repeat_length. cbn [Z.of_N]. rewrite Z.add_0_r, Z2Nat.id by lia. rewrite <- tens_shift by lia. now rewrite Z.add_0_l.
    + rewrite app_assoc. f_equal. replace (existsb (N.eqb 46) (ds ++ z)) with false; [reflexivity|]. symmetry. apply not_true_is_false. intros Ex. apply existsb_exists in Ex. destruct Ex as (y & I & Q). apply N.eqb_eq in Q. subst y. now apply (no_point _ Fz).
Qed.

Theorem show_f64_shown f : binary64 f -> shown_float f (show_f64 f).
Proof.
  destruct f as [s|s| |s m e]; intros B; try constructor. cbn [show_f64]. destruct (f64_digits m e) as [ds x] eqn:E.
  assert (B' : binary64 (S754_finite false m e)) by exact B.
  destruct (digits_shape m e ds x B' E) as (c & r & Eds & N0 & F & L & Sh). destruct (dec_text_ok ds x c r Eds N0 F L) as (y & D & T & Ey & _).
  apply sf_finite with y; auto. eapply shortest_of_wd; [symmetry; exact Ey|exact Sh].
Qed.

(** ** with an exponent *)
Lemma tidy_digits (b : str) : Forall digit b -> (hd 0%N b = 48%N -> b = [48%N]) -> tidy b.
Proof.
  intros F H. split.
  - intros c r ->. discriminate (H eq_refl).
  - intros a r ->. exfalso. apply (no_point _ F). apply in_app_iff. right. now left.
Qed.
Lemma tidy_point (c : char) (r : str) : Forall digit (c :: r) -> r <> [] -> c <> 48%N -> last (c :: r) 0%N <> 48%N -> tidy (c :: lit "." ++ r).
Proof.
  intros F NE N0 L. apply Forall_cons_iff in F. destruct F as [Fc Fr]. change (lit "." ++ r) with (46%N :: r). split.
  - intros d s E. injection E as -> _. congruence.
  - intros a b E. destruct a as [|h a]; cbn [app] in E; [injection E as -> _; unfold digit in Fc; lia|]. injection E as <- E.
    destruct a as [|h a]; cbn [app] in E; [injection E as E|injection E as E1 E].
    + subst b. change (c :: r) with ([c] ++ r) in L. now rewrite last_tail in L.
    + exfalso. apply (no_point _ Fr). rewrite E. apply in_app_iff. right. now left.
Qed.
Lemma show_N_tidy n : tidy (show_N n).
Proof.
  destruct (show_N_numeral n) as (NE & F & V). apply tidy_digits; [exact F|]. intros H. destruct (N.eq_dec n 0) as [->|P]; [reflexivity|].
  exfalso. apply (show_N_head n); [lia|exact H].
Qed.
Lemma exp_text_ok (ds : str) x (c : char) (r : str) : ds = c :: r -> c <> 48%N -> Forall digit ds -> last ds 0%N <> 48%N ->
  exponent_text (exp_text ds x) (tens (Z.of_N (decimal ds)) (x - Z.of_nat (length ds))).
Proof.
  intros Eds N0 F L. set (y := tens (Z.of_N (decimal ds)) (- Z.of_nat (length r))).
  exists (match r with [] => [c] | _ => c :: lit "." ++ r end), (show_N (Z.to_N (Z.abs (x - 1)))), y, (x - 1).
  destruct (show_N_numeral (Z.to_N (Z.abs (x - 1)))) as (NE & Fn & V).
  assert (B : (1 <= y < 10)%Q).
  { pose proof (decimal_bound ds F) as Bd. subst ds. pose proof (decimal_lower c r F N0) as Bl. cbn [length] in Bd.
    assert (E : forall k, (tens k 0 == inject_Z k)%Q) by (intros k; unfold tens; change (10 ^ 0)%Q with 1%Q; ring).
    unfold y. split.
    - apply Qle_trans with (tens (10 ^ Z.of_nat (length r)) (- Z.of_nat (length r))); [|now apply tens_le].
      apply Qle_lteq. right. transitivity (tens 1 (- Z.of_nat (length r) + Z.of_nat (length r))); [|rewrite tens_shift by lia; now rewrite Z.mul_1_l].
      rewrite Z.add_opp_diag_l. reflexivity.
    - apply Qlt_le_trans with (tens (10 * 10 ^ Z.of_nat (length r)) (- Z.of_nat (length r))).
      + apply tens_lt. rewrite <- Z.pow_succ_r by lia. rewrite Nat2Z.inj_succ in Bd. apply Bd.
      + apply Qle_lteq. right. transitivity (tens 10 (- Z.of_nat (length r) + Z.of_nat (length r))); [symmetry; now rewrite tens_shift by lia|].
        rewrite Z.add_opp_diag_l. reflexivity. }
  split; [|split; [|split; [|split; [exact B|split; [exact NE|split; [exact Fn|split; [apply show_N_tidy|split]]]]]]].
  - unfold exp_text. subst ds. assert (S : show_Z (x - 1) = sign_text (x - 1 <? 0) ++ show_N (Z.to_N (Z.abs (x - 1)))).
    { destruct (x - 1) as [|p|p]; reflexivity. }
    rewrite S. now destruct r.
  - unfold y. subst ds. destruct r as [|d r].
    + apply (dt_whole [c]); [discriminate|exact F].
    + apply Forall_cons_iff in F. change (c :: lit "." ++ d :: r) with ([c] ++ 46%N :: (d :: r)). apply (dt_point [c] (d :: r)); try discriminate; [repeat constructor; apply F|apply F].
  - subst ds. destruct r as [|d r]; [|now apply tidy_point]. apply tidy_digits; [exact F|]. cbn [hd]. congruence.
  - rewrite V. lia.
  - unfold y, tens. subst ds. cbn [length]. rewrite <- Qmult_assoc, <- ten_add. replace (- Z.of_nat (length r) + (x - 1)) with (x - Z.of_nat (S (length r))) by lia. reflexivity.
Qed.

Lemma use_exp_iff m e : binary64 (S754_finite false m e) ->
  use_exp m e = true <-> (scaled (Zpos m) e < 1 # 10000 \/ 10 ^ 16 <= scaled (Zpos m) e)%Q.
Proof.
  intros B. unfold use_exp. change (f64_of_ratio (10 ^ 16) 1) with (S754_finite false 5000000000000000 1).
  change (f64_of_ratio 1 (10 ^ 4)) with (S754_finite false 7378697629483821 (-66)).
  unfold SFleb, SFltb. rewrite !cmp_finite by (try exact B; cbn; lia). rewrite orb_true_iff.
  assert (E1 : (scaled (Zpos 5000000000000000) 1 == 10 ^ 16)%Q) by reflexivity.
  assert (I1 : match (scaled (Zpos 5000000000000000) 1 ?= scaled (Zpos m) e)%Q with Lt | Eq => true | Gt => false end = true <-> (10 ^ 16 <= scaled (Zpos m) e)%Q).
  { rewrite <- E1. destruct (Qcompare_spec (scaled (Zpos 5000000000000000) 1) (scaled (Zpos m) e)) as [H|H|H]; split; intros X; try discriminate X; try reflexivity; lra. }
  assert (I2 : match (scaled (Zpos m) e ?= scaled (Zpos 7378697629483821) (-66))%Q with Lt => true | _ => false end = true <-> (scaled (Zpos m) e < 1 # 10000)%Q).
  { assert (U : (1 # 10000 < scaled (Zpos 7378697629483821) (-66))%Q) by reflexivity.
    assert (D : (scaled (7378697629483821 - 1) (-66) < 1 # 10000)%Q) by reflexivity.
    assert (K : (scaled (Zpos m) e < scaled (Zpos 7378697629483821) (-66))%Q -> (scaled (Zpos m) e <= scaled (7378697629483821 - 1) (-66))%Q).
    { intros K. cbn in B. destruct (Z.le_gt_cases (-66) e) as [P|P].
      - replace e with (-66 + (e + 66)) in * by lia. rewrite scaled_shift in * by lia. apply scaled_le. apply scaled_lt_inv in K. lia.
      - replace (-66) with (e + (-66 - e)) by lia. rewrite scaled_shift by lia. apply scaled_le. assert (2 ^ 1 <= 2 ^ (-66 - e)) by (apply Z.pow_le_mono_r; lia).
        change (2 ^ 1) with 2 in *. lia. }
    destruct (Qcompare_spec (scaled (Zpos m) e) (scaled (Zpos 7378697629483821) (-66))) as [H|H|H]; split; intros X; try discriminate X; try reflexivity; try lra. }
  cbn [andb] in *. rewrite I1, I2. tauto.
Qed.

Theorem debug_f64_debugged f : binary64 f -> debugged_float f (debug_f64 f).
Proof.
  destruct f as [s|s| |s m e]; intros B; try constructor. cbn [debug_f64]. destruct (f64_digits m e) as [ds x] eqn:E.
  assert (B' : binary64 (S754_finite false m e)) by exact B.
  destruct (digits_shape m e ds x B' E) as (c & r & Eds & N0 & F & L & Sh). pose proof (use_exp_iff m e B') as U. destruct (use_exp m e).
  - eapply bf_exponent; [now apply U|eapply exp_text_ok; eauto|exact Sh].
  - destruct (dec_text_ok ds x c r Eds N0 F L) as (y & D & T & Ey & ->).
    assert (R : (1 # 10000 <= scaled (Zpos m) e < 10 ^ 16)%Q).
    { split; apply Qnot_lt_le || apply Qnot_le_lt; intros H; [assert (X : false = true) by (apply U; left; exact H)|assert (X : false = true) by (apply U; right; exact H)]; discriminate X. }
    apply (shortest_of_wd _ _ _ y) in Sh; [|symmetry; exact Ey].
    destruct (existsb (N.eqb 46) (dec_text false ds x)) eqn:Ex.
    + rewrite app_nil_r. apply bf_point with y; auto. apply existsb_exists in Ex. destruct Ex as (z & I & Q). apply N.eqb_eq in Q. now subst z.
    + apply bf_whole with y; auto. intros I. apply not_true_iff_false in Ex. apply Ex. apply existsb_exists. exists 46%N. split; [exact I|reflexivity].
Qed.

(** ** the texts tell the float *)
Lemma split_at (c : char) (a b x y : str) : ~ In c a -> ~ In c b -> a ++ c :: x = b ++ c :: y -> a = b /\ x = y.
Proof.
  revert b. induction a as [|d a IH]; intros [|e b] A B E; cbn [app] in E.
  - now injection E.
  - injection E as <- _. exfalso. apply B. now left.
  - injection E as -> _. exfalso. apply A. now left.
  - injection E as -> E. destruct (IH b) as [-> ->]; auto; intros I; [apply A|apply B]; now right.
Qed.
Lemma decimal_chars t x : decimal_text t x -> (exists c r, t = c :: r /\ digit c) /\ (forall c, In c t -> digit c \/ c = 46%N).
Proof.
  intros [a NE F|a b NE NE' F F']; (destruct a as [|c a]; [now destruct NE|]); apply Forall_cons_iff in F as F1; (split; [eexists _, _; split; [reflexivity|apply F1]|]); rewrite Forall_forall in *; intros d I.
  - left. auto.
  - apply in_app_iff in I. destruct I as [I|[I|I]]; auto.
Qed.
Lemma decimal_fun t x y : decimal_text t x -> decimal_text t y -> (x == y)%Q.
Proof.
  intros [a NE F|a b NE NE' F F'] H; inversion H as [a' N1 F1 E Ey|a' b' N1 N2 F1 F2 E Ey]; subst.
  - reflexivity.
  - exfalso. apply (no_point _ F). apply in_app_iff. right. now left.
  - exfalso. apply (no_point _ F1). apply in_app_iff. right. now left.
  - apply point_once in E; [|now apply no_point..]. destruct E as [-> ->]. reflexivity.
Qed.
Lemma sign_split s s' (a b : str) : hd 0%N a <> 45%N -> hd 0%N b <> 45%N -> sign_text s ++ a = sign_text s' ++ b -> s = s' /\ a = b.
Proof. destruct s, s'; cbn [sign_text lit app]; intros A B E; auto; [injection E as ->; auto|subst b; now destruct B|subst a; now destruct A]. Qed.
Lemma digits_head (a : str) : Forall digit a -> hd 0%N a <> 45%N.
Proof. intros F. destruct F as [|c a H _]; cbn [hd]; [discriminate|]. unfold digit in H. lia. Qed.
Lemma exponent_fun t x y : exponent_text t x -> exponent_text t y -> (x == y)%Q.
Proof.
  intros (a & b & u & z & -> & Da & _ & _ & NE & Fb & _ & V & ->) (a' & b' & u' & z' & E & Da' & _ & _ & NE' & Fb' & _ & V' & ->).
  assert (NE1 : forall a u, decimal_text a u -> ~ In 101%N a).
  { intros c v D I. apply (proj2 (decimal_chars _ _ D)) in I. unfold digit in I. lia. }
  cbn [lit app] in E. apply split_at in E; [|eapply NE1; eauto..]. destruct E as [-> E]. rewrite (decimal_fun _ _ _ Da Da').
  apply sign_split in E; [|now apply digits_head..]. destruct E as [Ez ->].
  assert (z = z') as -> by (destruct (Z.ltb_spec z 0), (Z.ltb_spec z' 0); try discriminate; lia). reflexivity.
Qed.
Definition number_text (t : str) (x : Q) : Prop := decimal_text t x \/ exponent_text t x.
Lemma number_head t x : number_text t x -> exists c r, t = c :: r /\ digit c.
Proof.
  intros [D|(a & b & u & z & -> & Da & _)].
  - apply (proj1 (decimal_chars _ _ D)).
  - destruct (proj1 (decimal_chars _ _ Da)) as (c & r & -> & H). eexists _, _. split; [reflexivity|exact H].
Qed.
Lemma number_fun t x y : number_text t x -> number_text t y -> (x == y)%Q.
Proof.
  assert (N : forall t x y, decimal_text t x -> exponent_text t y -> False).
  { intros u v w D (a & b & y' & z & -> & _). destruct (proj2 (decimal_chars _ _ D) 101%N) as [H|H]; [|unfold digit in H; lia|discriminate]. apply in_app_iff. right. now left. }
  intros [A|A] [B|B]; [eapply decimal_fun; eauto|exfalso; eauto|exfalso; eauto|eapply exponent_fun; eauto].
Qed.
Definition told (f : f64) (t : str) : Prop :=
  (f = S754_nan /\ t = lit "NaN") \/
  exists s u, t = sign_text s ++ u /\
    ((f = S754_infinity s /\ u = lit "inf") \/
     exists x g, f = (if s then fopp g else g) /\ sign_of g = false /\ value_of g <> None /\ number_text u x /\ rounded x g).
Lemma told_inj f g t : told f t -> told g t -> f = g.
Proof.
  assert (HD : forall (u : str) x, number_text u x -> hd 0%N u <> 45%N /\ hd 0%N u <> 78%N /\ hd 0%N u <> 105%N).
  { intros u x N. destruct (number_head u x N) as (c & r & -> & D). unfold digit in D. cbn [hd]. lia. }
  intros [[-> ->]|(s & u & -> & H)] [[-> E]|(s' & u' & E & H')].
  - reflexivity.
  - exfalso. destruct s'; [discriminate|]. cbn [sign_text app] in E. subst u'. destruct H' as [[_ H']|(x & g' & _ & _ & _ & N & _)]; [discriminate|]. apply HD in N. now apply (proj1 (proj2 N)).
  - exfalso. destruct s; [discriminate|]. cbn [sign_text app] in E. subst u. destruct H as [[_ H]|(x & g' & _ & _ & _ & N & _)]; [discriminate|]. apply HD in N. now apply (proj1 (proj2 N)).
  - assert (U : forall f s (u : str), (f = S754_infinity s /\ u = lit "inf") \/ (exists x g, f = (if s then fopp g else g) /\ sign_of g = false /\ value_of g <> None /\ number_text u x /\ rounded x g) -> hd 0%N u <> 45%N).
    { intros f0 s0 u0 [[_ ->]|(x & g' & _ & _ & _ & N & _)]; [discriminate|]. now apply HD in N. }
    apply sign_split in E; [|eapply U; eauto..]. destruct E as [-> ->].
    destruct H as [[-> ->]|(x & a & -> & A1 & A2 & A3 & A4)], H' as [[-> H']|(y & b & -> & B1 & B2 & B3 & B4)].
    + reflexivity.
    + exfalso. apply HD in B3. now apply (proj2 (proj2 B3)).
    + exfalso. subst. apply HD in A3. now apply (proj2 (proj2 A3)).
    + assert (E : (x == y)%Q) by (eapply number_fun; eauto). apply (rounded_wd x y _ E) in A4. assert (a = b) as -> by (eapply rounded_unique; eauto; congruence). reflexivity.
Qed.
Lemma told_finite s m e u x : number_text u x -> shortest_of (S754_finite false m e) (scaled (Zpos m) e) x -> told (S754_finite s m e) (sign_text s ++ u).
Proof.
  intros N [R _]. right. exists s, u. split; [reflexivity|]. right. exists x, (S754_finite false m e). split; [now destruct s|]. split; [reflexivity|]. split; [discriminate|]. auto.
Qed.
Lemma told_zero s u x : decimal_text u x -> (x == 0)%Q -> told (S754_zero s) (sign_text s ++ u).
Proof.
  intros N E. right. exists s, u. split; [reflexivity|]. right. exists x, (S754_zero false). split; [now destruct s|]. split; [reflexivity|]. split; [discriminate|]. split; [now left|].
  apply (rounded_wd 0%Q); [now symmetry|apply rounded_0].
Qed.
Lemma told_inf s : told (S754_infinity s) (sign_text s ++ lit "inf").
Proof. right. exists s, (lit "inf"). auto. Qed.
Lemma shown_told f t : shown_float f t -> told f t.
Proof.
  intros [|s|s|s m e u x D _ S].
  - now left.
  - apply told_inf.
  - eapply told_zero; [apply (dt_whole [48%N]); [discriminate|repeat constructor; unfold digit; lia]|reflexivity].
  - eapply told_finite; [left; exact D|exact S].
Qed.
Lemma point_zero t x : decimal_text t x -> ~ In 46%N t -> exists y, decimal_text (t ++ lit ".0") y /\ (x == y)%Q.
Proof.
  intros [a NE F|a b NE NE' F F'] NI; [|exfalso; apply NI; apply in_app_iff; right; now left].
  change (lit ".0") with (46%N :: [48%N]). eexists. split; [apply (dt_point a [48%N]); auto; [discriminate|repeat constructor; unfold digit; lia]|].
  rewrite decimal_app. cbn [length]. change (Z.of_N (decimal [48%N])) with 0. rewrite Z.add_0_r. rewrite <- tens_shift by lia. reflexivity.
Qed.
Lemma debugged_told f t : debugged_float f t -> told f t.
Proof.
  intros [|s|s|s m e u x _ D _ _ S|s m e u x _ D _ NI S|s m e u x _ D S].
  - now left.
  - apply told_inf.
  - change (lit "0.0") with ([48%N] ++ 46%N :: [48%N]). eapply told_zero; [apply (dt_point [48%N] [48%N]); try discriminate; repeat constructor; unfold digit; lia|reflexivity].
  - eapply told_finite; [left; exact D|exact S].
  - destruct (point_zero u x D NI) as (y & D' & E). eapply told_finite; [left; exact D'|eapply shortest_of_wd; eauto].
  - eapply told_finite; [right; exact D|exact S].
Qed.
Theorem shown_inj f g t : shown_float f t -> shown_float g t -> f = g.
Proof. intros A B. eapply told_inj; apply shown_told; eauto. Qed.
Theorem debugged_inj f g t : debugged_float f t -> debugged_float g t -> f = g.
Proof. intros A B. eapply told_inj; apply debugged_told; eauto. Qed.
Theorem show_f64_inj f g : binary64 f -> binary64 g -> show_f64 f = show_f64 g -> f = g.
Proof. intros A B E. eapply shown_inj; [apply show_f64_shown, A|rewrite E; apply show_f64_shown, B]. Qed.
Theorem debug_f64_inj f g : binary64 f -> binary64 g -> debug_f64 f = debug_f64 g -> f = g.
Proof. intros A B E. eapply debugged_inj; [apply debug_f64_debugged, A|rewrite E; apply debug_f64_debugged, B]. Qed.
(** the characters used *)
Definition number_char (c : char) : Prop := digit c \/ In c (lit "-.einfNa").
Lemma told_chars f t : told f t -> forall c, In c t -> number_char c.
Proof.
  intros [[-> ->]|(s & u & -> & H)] c I; unfold number_char.
  - right. cbn in *. intuition.
  - apply in_app_iff in I. destruct I as [I|I]; [destruct s; [right; cbn in *; intuition|destruct I]|].
    destruct H as [[_ ->]|(x & g & _ & _ & _ & N & _)]; [right; cbn in *; intuition|].
    assert (D : forall a y, decimal_text a y -> In c a -> digit c \/ In c (lit "-.einfNa")).
    { intros a y D J. apply (proj2 (decimal_chars _ _ D)) in J. destruct J as [J|J]; auto. right. subst c. cbn. auto. }
    destruct N as [N|(a & b & y & z & -> & Da & _ & _ & _ & Fb & _)]; [eauto|].
    apply in_app_iff in I. destruct I as [I|I]; [eauto|]. cbn [lit app] in I. destruct I as [I|I]; [right; subst c; cbn; auto|].
    apply in_app_iff in I. destruct I as [I|I]; [destruct (z <? 0); [right; cbn in *; intuition|destruct I]|]. left. rewrite Forall_forall in Fb. auto.
Qed.
