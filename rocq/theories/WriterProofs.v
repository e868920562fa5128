(** Proofs about the encoding and the container file *)
From Verif Require Import SpecWriter WireProofs DisplayProofs.
From Coq Require Import ZifyBool ZifyN ZifyNat.
Open Scope N_scope.

(** ** numbers *)
Lemma land127 z : N.land z 127 = z mod 128.
Proof. change 127 with (N.ones 7). now rewrite N.land_ones. Qed.
Lemma lor128 b : b < 128 -> N.lor 128 b = 128 + b.
Proof.
  intros H. assert (E : N.land 128 b = 0).
  { apply N.bits_inj_0. intros n. rewrite N.land_spec. destruct (N.eq_dec n 7) as [->|D].
    - replace (N.testbit b 7) with false; [reflexivity|]. symmetry. rewrite N.testbit_eqb. change (2 ^ 7) with 128. now rewrite N.div_small.
    - change 128 with (2 ^ 7). rewrite N.pow2_bits_false by auto. reflexivity. }
  rewrite <- N.lxor_lor, <- N.add_nocarry_lxor by auto. reflexivity.
Qed.
Definition vlen (n : N) : nat := length (encode_variable n).
Lemma variable_fuel f z : z < 128 ^ N.of_nat f -> (0 < f)%nat -> varint (encode_variable_fuel f z) z.
Proof.
  revert z. induction f as [|f IH]; intros z H L; [lia|]. cbn [encode_variable_fuel]. rewrite land127.
  destruct (N.leb_spec z 127) as [A|A].
  - rewrite N.mod_small by lia. apply vi_last. lia.
  - rewrite lor128 by (apply N.mod_lt; lia). rewrite N.shiftr_div_pow2. change (2 ^ 7) with 128.
    replace (varint (128 + z mod 128 :: encode_variable_fuel f (z / 128)) z) with (varint (128 + z mod 128 :: encode_variable_fuel f (z / 128)) (z mod 128 + 128 * (z / 128))) by (f_equal; rewrite (N.div_mod' z 128) at 3; lia). assert (B : z mod 128 < 128) by (apply N.mod_lt; lia).
    assert (C : z / 128 < 128 ^ N.of_nat f). { apply N.div_lt_upper_bound; [lia|]. rewrite Nat2N.inj_succ, N.pow_succ_r' in H. lia. }
    apply vi_more; auto. apply IH; auto. destruct f; [|lia]. cbn in C.
    assert (z / 128 = 0) by lia. pose proof (N.div_mod' z 128). lia.
Qed.
Lemma encode_variable_varint z : z < 2 ^ 64 -> varint (encode_variable z) z.
Proof. intros H. apply variable_fuel; [|lia]. eapply N.lt_le_trans; [exact H|]. vm_compute. discriminate. Qed.
Lemma fuel_len f : forall z, (length (encode_variable_fuel f z) <= f)%nat.
Proof. induction f as [|f IH]; intros z; cbn; auto. destruct (z <=? 127); cbn [length]; [lia|]. apply le_n_S, IH. Qed.
Lemma vlen_10 z : (vlen z <= 10)%nat. Proof. apply fuel_len. Qed.
Lemma fuel_pos f z : (0 < f)%nat -> (1 <= length (encode_variable_fuel f z))%nat.
Proof. destruct f; [lia|]. cbn. destruct (z <=? 127); cbn; lia. Qed.
Lemma vlen_pos z : (1 <= vlen z)%nat. Proof. apply fuel_pos. lia. Qed.
Lemma fuel_le f : forall z k, (1 <= k)%nat -> z < 128 ^ N.of_nat k -> (length (encode_variable_fuel f z) <= k)%nat.
Proof.
  induction f as [|f IH]; intros z k K H; cbn [encode_variable_fuel length]; [lia|]. destruct (N.leb_spec z 127); cbn [length]; [lia|].
  destruct k as [|[|k]]; [lia|cbn in H; lia|]. apply le_n_S. apply IH; [lia|]. rewrite N.shiftr_div_pow2. change (2 ^ 7) with 128.
  apply N.div_lt_upper_bound; [lia|]. rewrite <- N.pow_succ_r', <- Nat2N.inj_succ. exact H.
Qed.
Lemma vlen_le z k : (1 <= k)%nat -> z < 128 ^ N.of_nat k -> (vlen z <= k)%nat.
Proof. apply fuel_le. Qed.
Lemma varint_bound bs n : varint bs n -> (1 <= length bs)%nat /\ n < 128 ^ N.of_nat (length bs).
Proof.
  induction 1 as [b H|b bs n H V [L IH]]; cbn [length]; (split; [lia|]); [exact H|].
  rewrite Nat2N.inj_succ, N.pow_succ_r'. lia.
Qed.
Lemma varint_vlen bs n : varint bs n -> (vlen n <= length bs)%nat.
Proof. intros V. apply varint_bound in V. destruct V. now apply vlen_le. Qed.
Lemma varint_prefix a m : varint a m -> forall b n r r', varint b n -> a ++ r = b ++ r' -> a = b /\ m = n.
Proof.
  induction 1 as [x H|x a m H V IH]; intros b n r r' W E; inversion W; subst; cbn [app] in E; pose proof (f_equal (hd 0) E) as E1; pose proof (f_equal (@tl _) E) as E2; cbn [hd tl] in E1, E2; try lia.
  - split; congruence.
  - destruct (IH _ _ _ _ H1 E2) as [-> ->]. split; [|lia]. f_equal. exact E1.
Qed.

(** ** zig-zag *)
Lemma wrap64_mod z : exists k, wrap64 z = (z + k * 2 ^ 64)%Z.
Proof. unfold wrap64. pose proof (Z.div_mod (z + 2 ^ 63) (2 ^ 64) ltac:(lia)). exists (- ((z + 2 ^ 63) / 2 ^ 64))%Z. lia. Qed.
Lemma zigzag_spec z : (- 2 ^ 63 <= z < 2 ^ 63)%Z -> zigzag z = Z.to_N (if (0 <=? z)%Z then 2 * z else - 2 * z - 1)%Z.
Proof.
  intros H. unfold zigzag. rewrite Z.shiftl_mul_pow2 by lia. change (2 ^ 1)%Z with 2%Z. destruct (wrap64_mod (z * 2)) as [k ->].
  rewrite Z.shiftr_div_pow2 by lia. f_equal. destruct (Z.leb_spec 0 z) as [A|A].
  - rewrite Z.div_small by lia. rewrite Z.lxor_0_r, Z.mod_add by lia. rewrite Z.mod_small; lia.
  - replace (z / 2 ^ 63)%Z with (-1)%Z by (apply (Z.div_unique z (2 ^ 63) (-1) (z + 2 ^ 63)); lia).
    rewrite Z.lxor_m1_r. unfold Z.lnot. rewrite <- Z.sub_1_r.
    replace (- (z * 2 + k * 2 ^ 64) - 1)%Z with (- 2 * z - 1 + (- k) * 2 ^ 64)%Z by lia. rewrite Z.mod_add by lia. apply Z.mod_small. lia.
Qed.
Lemma signed_even n : signed (2 * n) = Z.of_N n.
Proof. unfold signed. rewrite N.even_mul. change (N.even 2 || N.even n)%bool with true. cbn iota. now rewrite N.mul_comm, N.div_mul by lia. Qed.
Lemma signed_odd n : signed (2 * n + 1) = (- Z.of_N (n + 1))%Z.
Proof.
  unfold signed. rewrite N.even_add, N.even_mul. change (N.even 2 || N.even n)%bool with true. change (N.even 1) with false. cbn [Bool.eqb]. replace (2 * n + 1 + 1) with ((n + 1) * 2) by lia. now rewrite N.div_mul by lia.
Qed.
Lemma parity n : exists k, n = 2 * k \/ n = 2 * k + 1.
Proof. exists (N.div2 n). rewrite (N.div2_odd n) at 1 3. destruct (N.odd n); cbn; lia. Qed.
Lemma signed_zigzag z : (- 2 ^ 63 <= z < 2 ^ 63)%Z -> signed (zigzag z) = z /\ zigzag z < 2 ^ 64.
Proof.
  intros H. rewrite zigzag_spec by auto. destruct (Z.leb_spec 0 z); (split; [|lia]).
  - replace (Z.to_N (2 * z)) with (2 * Z.to_N z) by lia. rewrite signed_even. lia.
  - replace (Z.to_N (- 2 * z - 1)) with (2 * Z.to_N (- z - 1) + 1) by lia. rewrite signed_odd. lia.
Qed.
Lemma signed_range n : n < 2 ^ 64 -> (- 2 ^ 63 <= signed n < 2 ^ 63)%Z.
Proof. intros H. destruct (parity n) as [k [-> | ->]]; [rewrite signed_even|rewrite signed_odd]; lia. Qed.
Lemma signed_inj m n : signed m = signed n -> m = n.
Proof.
  destruct (parity m) as [j [-> | ->]], (parity n) as [k [-> | ->]]; rewrite ?signed_even, ?signed_odd; lia.
Qed.
Lemma zigzag_signed n : n < 2 ^ 64 -> zigzag (signed n) = n.
Proof. intros H. apply signed_inj. now apply signed_zigzag, signed_range. Qed.

(** ** longs *)
Lemma encode_long_ok z : (- 2 ^ 63 <= z < 2 ^ 63)%Z -> long (encode_long z) z.
Proof.
  intros H. destruct (signed_zigzag z H) as [S B]. exists (zigzag z). repeat split; auto.
  - now apply encode_variable_varint.
  - apply vlen_10.
Qed.
Lemma long_prefix a y b z r r' : long a y -> long b z -> a ++ r = b ++ r' -> a = b /\ r = r' /\ y = z.
Proof.
  intros (m & V & _ & _ & ->) (n & W & _ & _ & ->) E. destruct (varint_prefix _ _ V _ _ _ _ W E) as [-> ->].
  split; auto. split; auto. now apply app_inv_head in E.
Qed.
Lemma long_range a z : long a z -> (- 2 ^ 63 <= z < 2 ^ 63)%Z.
Proof. intros (n & _ & B & _ & ->). now apply signed_range. Qed.
Lemma long_len a z : long a z -> (length (encode_long z) <= length a)%nat.
Proof. intros (n & V & B & _ & ->). unfold encode_long. rewrite zigzag_signed by auto. now apply varint_vlen. Qed.
Lemma long_pos a z : long a z -> (1 <= length a)%nat.
Proof. intros (n & V & _). apply varint_bound in V. tauto. Qed.
Lemma long_bound a z : long a z -> (Z.abs z * 2 <= 128 ^ Z.of_nat (length a))%Z /\ (0 <= z -> z * 2 < 128 ^ Z.of_nat (length a))%Z.
Proof.
  intros (n & V & _ & _ & ->). apply varint_bound in V. destruct V as [_ V].
  assert (W : (Z.of_N n < 128 ^ Z.of_nat (length a))%Z) by (rewrite <- nat_N_Z; change 128%Z with (Z.of_N 128); rewrite <- N2Z.inj_pow; lia).
  destruct (parity n) as [k [-> | ->]]; rewrite ?signed_even, ?signed_odd; lia.
Qed.
Lemma long_unique_length a z b : long a z -> forall r r', long b z -> a ++ r = b ++ r' -> a = b.
Proof. intros L r r' L' E. now destruct (long_prefix _ _ _ _ _ _ L L' E). Qed.
Lemma distinct_longs y z r r' : (- 2 ^ 63 <= y < 2 ^ 63)%Z -> (- 2 ^ 63 <= z < 2 ^ 63)%Z -> encode_long y ++ r = encode_long z ++ r' -> y = z /\ r = r'.
Proof. intros Y Z E. destruct (long_prefix _ _ _ _ _ _ (encode_long_ok y Y) (encode_long_ok z Z) E) as (_ & ? & ?). auto. Qed.

(** ** byte strings *)
Lemma encode_bytes_ok b : (Z.of_nat (length b) < 2 ^ 63)%Z -> counted_bytes (encode_bytes b) b.
Proof. intros H. exists (encode_long (Z.of_nat (length b))). split; [reflexivity|]. apply encode_long_ok. lia. Qed.
Lemma counted_prefix a x b y r r' : counted_bytes a x -> counted_bytes b y -> a ++ r = b ++ r' -> a = b /\ r = r' /\ x = y.
Proof.
  intros (l & -> & L) (l' & -> & L') E. rewrite <- !app_assoc in E. destruct (long_prefix _ _ _ _ _ _ L L' E) as (-> & E' & EL).
  apply Nat2Z.inj in EL. assert (x = y /\ r = r') as [-> ->]; auto.
  assert (F : firstn (length x) (x ++ r) = firstn (length x) (y ++ r')) by now rewrite E'.
  rewrite firstn_app, Nat.sub_diag, firstn_all, firstn_O, app_nil_r in F. rewrite EL in F.
  rewrite firstn_app, Nat.sub_diag, firstn_all, firstn_O, app_nil_r in F. subst y. split; auto. now apply app_inv_head in E'.
Qed.
Lemma counted_len a x : counted_bytes a x -> (length (encode_bytes x) <= length a)%nat.
Proof. intros (l & -> & L). unfold encode_bytes. rewrite !app_length. apply long_len in L. lia. Qed.
