(** Reading: every reading is the only one, and has a least size *)
From Verif Require Import SpecWriter WriterProofs.
From Coq Require Import ZifyBool ZifyN ZifyNat.
Open Scope N_scope.

Scheme reads_mut := Minimality for reads Sort Prop
  with items_mut := Minimality for items Sort Prop
  with members_mut := Minimality for members Sort Prop
  with blocks_mut := Minimality for blocks Sort Prop.
Combined Scheme reads_all from reads_mut, items_mut, members_mut, blocks_mut.

Local Ltac lp L E p := match goal with H : long _ _ |- _ => destruct (long_prefix _ _ _ _ _ _ L H E) as p end.
Local Ltac use IH E := let X := fresh in let Y := fresh in
  match goal with H : _ |- _ => first [destruct (IH _ _ _ _ H E) as [X Y] | destruct (IH _ _ _ _ H ltac:(cbn in *; lia) E) as [X Y]]; subst end.
Lemma reading_unique m :
  (forall t a d, reads m t a d -> forall b e r r', reads m t b e -> a ++ r = b ++ r' -> a = b /\ d = e) /\
  (forall t a ds, items m t a ds -> forall b es r r', items m t b es -> length ds = length es -> a ++ r = b ++ r' -> a = b /\ ds = es) /\
  (forall fs a ds, members m fs a ds -> forall b es r r', members m fs b es -> a ++ r = b ++ r' -> a = b /\ ds = es) /\
  (forall t a ds, blocks m t a ds -> forall b es r r', blocks m t b es -> a ++ r = b ++ r' -> a = b /\ ds = es).
Proof.
  apply reads_all.
  - intros bs z L b e r r' R E. inversion R; subst. lp L E ipattern:((-> & _ & ->)). auto.
  - intros bs z L _ b e r r' R E. inversion R; subst. lp L E ipattern:((-> & _ & ->)). auto.
  - intros bs x C b e r r' R E. inversion R; subst. match goal with H : counted_bytes b _ |- _ => destruct (counted_prefix _ _ _ _ _ _ C H E) as (-> & _ & ->) end. auto.
  - intros x b e r r' R E. inversion R; subst. destruct x, b0; cbn in E; try discriminate; auto.
  - intros t bs ds M B IH b e r r' R E. inversion R; subst; [|congruence]. use IH E. auto.
  - intros t a b ds M L I IH c e r r' R E. inversion R; subst; [congruence|]. rewrite <- !app_assoc in E.
    lp L E ipattern:((-> & E' & EL)). use IH E'. auto.
  - intros fs bs ds M IH b e r r' R E. inversion R; subst. use IH E. auto.
  - intros t b es r r' R L E. inversion R; subst; [auto|discriminate].
  - intros t a b d ds R IH I IHs c es r r' R' L E. inversion R'; subst; [discriminate|]. rewrite <- !app_assoc in E.
    use IH E. apply app_inv_head in E. cbn in L. use IHs E. auto.
  - intros b es r r' R E. inversion R; subst. auto.
  - intros n t fs a b d ds R IH M IHs c es r r' R' E. inversion R'; subst. rewrite <- !app_assoc in E.
    use IH E. apply app_inv_head in E. use IHs E. auto.
  - intros t a L b es r r' R E. inversion R; subst; rewrite <- ?app_assoc in E.
    + lp L E ipattern:((-> & _ & _)). auto.
    + lp L E ipattern:((_ & _ & X)). destruct ds; [congruence|cbn in X; lia].
    + lp L E ipattern:((_ & _ & X)). destruct ds; [congruence|cbn in X; lia].
  - intros t a b c ds ds' NE L I IHi B IHb x es r r' R E. inversion R; subst; rewrite <- ?app_assoc in E.
    + lp L E ipattern:((_ & _ & X)). destruct ds; [congruence|cbn in X; lia].
    + lp L E ipattern:((-> & E' & X)). use IHi E'.
      apply app_inv_head in E'. use IHb E'. auto.
    + lp L E ipattern:((_ & _ & X)). destruct ds; [congruence|cbn in X; lia].
  - intros t a s b c ds ds' NE L S I IHi B IHb x es r r' R E. inversion R; subst; rewrite <- ?app_assoc in E.
    + lp L E ipattern:((_ & _ & X)). destruct ds; [congruence|cbn in X; lia].
    + lp L E ipattern:((_ & _ & X)). destruct ds; [congruence|cbn in X; lia].
    + lp L E ipattern:((-> & E' & X)). lp S E' ipattern:((-> & E'' & _)).
      use IHi E''.
      apply app_inv_head in E''. use IHb E''. auto.
Qed.
Lemma items_unique m t a ds es : items m t a ds -> items m t a es -> length ds = length es -> ds = es.
Proof. intros I J L. destruct (reading_unique m) as (_ & U & _ & _). now destruct (U _ _ _ I _ _ [] [] J L eq_refl). Qed.

(** ** least size *)
Fixpoint sum (l : list nat) : nat := match l with [] => 0%nat | n :: l' => (n + sum l')%nat end.
Lemma sum_app a b : sum (a ++ b) = (sum a + sum b)%nat.
Proof. induction a; cbn [app sum]; lia. Qed.
Definition mark (m : mode) (n : nat) : nat := match m, n with Avro, S _ => 1%nat | _, _ => 0%nat end.
Fixpoint least (m : mode) (d : datum) : nat :=
  match d with
  | DInt z => length (encode_long z)
  | DString b => length (encode_bytes b)
  | DBool _ => 1
  | DArray ds => vlen (2 * N.of_nat (length ds)) + sum (map (least m) ds) + mark m (length ds)
  | DRecord fs => sum (map (fun f => least m (snd f)) fs)
  end%nat.
Lemma long_count a n : long a (Z.of_nat n) -> 2 * N.of_nat n < 128 ^ N.of_nat (length a).
Proof.
  intros L. destruct (long_bound _ _ L) as [_ B]. specialize (B ltac:(lia)). rewrite <- nat_N_Z in B. rewrite <- (nat_N_Z (length a)) in B.
  change 128%Z with (Z.of_N 128) in B. rewrite <- N2Z.inj_pow in B. lia.
Qed.
Lemma long_neg_count a n : long a (- Z.of_nat n) -> 2 * N.of_nat n <= 128 ^ N.of_nat (length a).
Proof.
  intros L. destruct (long_bound _ _ L) as [B _]. rewrite <- nat_N_Z in B. rewrite <- (nat_N_Z (length a)) in B.
  change 128%Z with (Z.of_N 128) in B. rewrite <- N2Z.inj_pow in B. lia.
Qed.
Lemma pow128_sum x y (i j : nat) : (1 <= i)%nat -> (1 <= j)%nat -> x < 128 ^ N.of_nat i -> y < 128 ^ N.of_nat j -> x + y < 128 ^ N.of_nat (i + j).
Proof.
  intros I J X Y. rewrite Nat2N.inj_add, N.pow_add_r.
  assert (P : forall k : nat, (1 <= k)%nat -> 128 <= 128 ^ N.of_nat k).
  { intros k K. change 128 with (128 ^ 1) at 1. apply N.pow_le_mono_r; lia. }
  pose proof (P i I). pose proof (P j J). set (p := 128 ^ N.of_nat i) in *. set (q := 128 ^ N.of_nat j) in *. clearbody p q. nia.
Qed.
Lemma reading_least m :
  (forall t a d, reads m t a d -> (least m d <= length a)%nat) /\
  (forall t a ds, items m t a ds -> (sum (map (least m) ds) <= length a)%nat) /\
  (forall fs a ds, members m fs a ds -> (sum (map (fun f => least m (snd f)) ds) <= length a)%nat) /\
  (forall t a ds, blocks m t a ds -> exists k, (1 <= k)%nat /\ 2 * N.of_nat (length ds) < 128 ^ N.of_nat k /\
     (k + sum (map (least m) ds) + match length ds with O => 0 | _ => 1 end <= length a)%nat).
Proof.
  apply reads_all.
  - intros bs z L. now apply long_len.
  - intros bs z L _. now apply long_len.
  - intros bs b C. now apply counted_len.
  - intros b. auto.
  - intros t bs ds -> B (k & K & V & L). cbn [least]. pose proof (vlen_le _ _ K V). unfold mark. destruct (length ds); lia.
  - intros t a b ds -> L I IH. cbn [least mark]. rewrite app_length. pose proof (long_count _ _ L) as V.
    pose proof (vlen_le _ _ (long_pos _ _ L) V). lia.
  - intros fs bs ds M IH. exact IH.
  - intros. cbn. lia.
  - intros t a b d ds R IH I IHs. cbn. rewrite app_length. lia.
  - cbn. lia.
  - intros n t fs a b d ds R IH M IHs. cbn. rewrite app_length. lia.
  - intros t a L. exists (length a). pose proof (long_pos _ _ L). cbn. split; [lia|]. split; [|lia].
    apply N.neq_0_lt_0. apply N.pow_nonzero. lia.
  - intros t a b c ds ds' NE L I IHi B (k & K & V & IHb). pose proof (long_pos _ _ L). pose proof (long_count _ _ L) as VA.
    rewrite map_app, sum_app, !app_length. destruct (length ds') as [|n] eqn:D.
    + exists (length a). rewrite Nat.add_0_r. split; [lia|]. split; [auto|]. destruct (length ds); lia.
    + exists (length a + k)%nat. split; [lia|]. split; [|destruct (length ds + S n)%nat; lia].
      replace (2 * N.of_nat (length ds + S n)) with (2 * N.of_nat (length ds) + 2 * N.of_nat (S n)) by lia. apply pow128_sum; auto.
  - intros t a s b c ds ds' NE L S I IHi B (k & K & V & IHb). pose proof (long_pos _ _ L). pose proof (long_pos _ _ S). pose proof (long_neg_count _ _ L) as VA0.
    assert (VA : 2 * N.of_nat (length ds) < 128 ^ N.of_nat (length a + length s)).
    { eapply N.le_lt_trans; [exact VA0|]. apply N.pow_lt_mono_r; lia. }
    rewrite map_app, sum_app, !app_length. destruct (length ds') as [|n] eqn:D.
    + exists (length a + length s)%nat. rewrite Nat.add_0_r. split; [lia|]. split; [auto|]. destruct (length ds); lia.
    + exists (length a + length s + k)%nat. split; [lia|]. split; [|destruct (length ds + Datatypes.S n)%nat; lia].
      replace (2 * N.of_nat (length ds + Datatypes.S n)) with (2 * N.of_nat (length ds) + 2 * N.of_nat (Datatypes.S n)) by lia. apply pow128_sum; auto. lia.
Qed.
