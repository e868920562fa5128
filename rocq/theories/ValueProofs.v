(** Proofs about value.rs *)
From Verif Require Import SpecValue TextProofs FloatOps FloatLiteral.
From Coq Require Import ZifyBool.
Open Scope Z_scope.

Lemma binop_strict w k f v1 v2 : strict_op (e_host w) k = Some f -> binop w k v1 v2 = f v1 v2.
Proof. intros H. unfold binop, eval_expr, eval_at. cbn. rewrite H. reflexivity. Qed.
Lemma unop_eq w k v : unop w k v = unary_value (e_host w) (Tok k []) v.
Proof. reflexivity. Qed.

(** ** integers *)
Lemma in_i64_fits z : in_i64 z = true <-> fits z.
Proof. unfold in_i64, i64_min, i64_max, fits. lia. Qed.
Lemma in_i64_nfits z : in_i64 z = false <-> ~ fits z.
Proof. rewrite <- in_i64_fits. destruct (in_i64 z); split; congruence. Qed.

Lemma wrap64_wraps z : wraps z (wrap64 z).
Proof.
  unfold wraps, wrap64, fits. pose proof (Z.mod_pos_bound (z + 2 ^ 63) (2 ^ 64) ltac:(lia)).
  split; [lia|]. exists ((z + 2 ^ 63) / 2 ^ 64). pose proof (Z.div_mod (z + 2 ^ 63) (2 ^ 64) ltac:(lia)). lia.
Qed.
Lemma wraps_unique z c c' : wraps z c -> wraps z c' -> c = c'.
Proof. unfold wraps, fits. intros [F [k K]] [F' [k' K']]. nia. Qed.
Lemma wrap64_fits z : fits z -> wrap64 z = z.
Proof. intros F. apply (wraps_unique z); [apply wrap64_wraps|]. split; auto. exists 0. lia. Qed.

Lemma arith_spec w z : exact_or_overflow w z (arith (e_host w) z).
Proof.
  unfold exact_or_overflow, arith. split; [|split].
  - intros F. apply in_i64_fits in F. now rewrite F.
  - intros F H. apply in_i64_nfits in F. now rewrite F, H.
  - intros F H. apply in_i64_nfits in F. rewrite F, H. exists (wrap64 z). split; auto. apply wrap64_wraps.
Qed.

Theorem add_spec w a b : exact_or_overflow w (a + b) (binop w KAdd (VInt a) (VInt b)).
Proof. rewrite (binop_strict w KAdd (value_add (e_host w))) by reflexivity. apply arith_spec. Qed.
Theorem sub_spec w a b : exact_or_overflow w (a - b) (binop w KSub (VInt a) (VInt b)).
Proof. rewrite (binop_strict w KSub (value_sub (e_host w))) by reflexivity. apply arith_spec. Qed.
Theorem mul_spec w a b : exact_or_overflow w (a * b) (binop w KMul (VInt a) (VInt b)).
Proof. rewrite (binop_strict w KMul (value_mul (e_host w))) by reflexivity. apply arith_spec. Qed.
Theorem neg_spec w a : exact_or_overflow w (- a) (unop w KSub (VInt a)).
Proof. apply arith_spec. Qed.

(** an integer fits iff all bits from 63 on agree *)
Lemma fits_bits z : fits z <-> forall i, 63 <= i -> Z.testbit z i = Z.testbit z 63.
Proof.
  split.
  - intros [L H] i Hi. destruct (Z.neg_nonneg_cases z) as [N|N].
    + assert (A : forall j, 63 <= j -> Z.testbit z j = true).
      { intros j Hj. apply (Z.bits_above_log2_neg z j); [lia|]. 
        destruct (Z.eq_dec z (-1)) as [->|]; [simpl; lia|].
        apply Z.log2_lt_pow2; [lia|]. apply Z.lt_le_trans with (2 ^ 63); [lia|]. apply Z.pow_le_mono_r; lia. }
      rewrite !A; auto; lia.
    + assert (A : forall j, 63 <= j -> Z.testbit z j = false).
      { intros j Hj. destruct (Z.eq_dec z 0) as [->|]; [apply Z.bits_0|].
        apply Z.bits_above_log2; [lia|]. apply Z.log2_lt_pow2; [lia|].
        apply Z.lt_le_trans with (2 ^ 63); [lia|]. apply Z.pow_le_mono_r; lia. }
      rewrite !A; auto; lia.
  - intros H. assert (E : Z.shiftr z 63 = 0 \/ Z.shiftr z 63 = -1).
    { destruct (Z.testbit z 63) eqn:T.
      - right. apply Z.bits_inj'. intros i Hi. rewrite Z.shiftr_spec by lia. rewrite H by lia. now rewrite Z.bits_m1.
      - left. apply Z.bits_inj'. intros i Hi. rewrite Z.shiftr_spec by lia. rewrite H by lia. now rewrite Z.bits_0. }
    rewrite Z.shiftr_div_pow2 in E by lia. unfold fits.
    pose proof (Z.div_mod z (2 ^ 63) ltac:(lia)). pose proof (Z.mod_pos_bound z (2 ^ 63) ltac:(lia)). lia.
Qed.

Lemma bitwise_spec f g a b r : fits a -> fits b ->
  (forall x y i, Z.testbit (f x y) i = g (Z.testbit x i) (Z.testbit y i)) ->
  r = Ok (VInt (f a b)) -> bitwise g a b r.
Proof.
  intros A B S ->. exists (f a b). split; [reflexivity|]. split.
  - apply fits_bits. intros i Hi. rewrite !S. pose proof (proj1 (fits_bits _) A) as A'. pose proof (proj1 (fits_bits _) B) as B'. rewrite (A' i), (B' i) by auto. reflexivity.
  - intros i Hi. apply S.
Qed.
Theorem xor_spec w a b : fits a -> fits b -> bitwise xorb a b (binop w KBx (VInt a) (VInt b)).
Proof. intros. apply (bitwise_spec Z.lxor); auto using Z.lxor_spec. Qed.
Theorem or_spec w a b : fits a -> fits b -> bitwise orb a b (binop w KBo (VInt a) (VInt b)).
Proof. intros. apply (bitwise_spec Z.lor); auto using Z.lor_spec. Qed.
Theorem and_spec w a b : fits a -> fits b -> bitwise andb a b (binop w KBa (VInt a) (VInt b)).
Proof. intros. apply (bitwise_spec Z.land); auto using Z.land_spec. Qed.
Theorem not_spec w a : fits a -> bitwise (fun x _ => negb x) a a (unop w KNot (VInt a)).
Proof.
  intros A. exists (Z.lnot a). split; [reflexivity|]. split.
  - unfold Z.lnot, fits in *. lia.
  - intros i Hi. now apply Z.lnot_spec.
Qed.

(** shifting by [n] *)
Theorem shl_spec w a b : fits a ->
  (0 <= b < 64 -> exists c, wraps (a * 2 ^ b) c /\ binop w KSl (VInt a) (VInt b) = Ok (VInt c)) /\
  (~ 0 <= b < 64 -> h_checks (e_host w) = true -> binop w KSl (VInt a) (VInt b) = Panic) /\
  (~ 0 <= b < 64 -> h_checks (e_host w) = false -> exists c, wraps (a * 2 ^ (b mod 64)) c /\ binop w KSl (VInt a) (VInt b) = Ok (VInt c)).
Proof.
  intros A. rewrite (binop_strict w KSl (value_shl (e_host w))) by reflexivity. cbn [value_shl]. unfold int_shl.
  split; [|split].
  - intros H. replace ((0 <=? b) && (b <? 64)) with true by lia. eexists. split; [|reflexivity].
    rewrite Z.shiftl_mul_pow2 by lia. apply wrap64_wraps.
  - intros H C. replace ((0 <=? b) && (b <? 64)) with false by lia. now rewrite C.
  - intros H C. replace ((0 <=? b) && (b <? 64)) with false by lia. rewrite C. eexists. split; [|reflexivity].
    rewrite Z.shiftl_mul_pow2 by (apply Z.mod_pos_bound; lia). apply wrap64_wraps.
Qed.
Lemma shiftr_fits a n : fits a -> 0 <= n -> fits (Z.shiftr a n).
Proof.
  intros A N. apply fits_bits. intros i Hi. rewrite !Z.shiftr_spec by lia. pose proof (proj1 (fits_bits _) A) as A'.
  rewrite (A' (i + n)), (A' (63 + n)) by lia. reflexivity.
Qed.
Theorem shr_spec w a b : fits a ->
  (0 <= b < 64 -> fits (a / 2 ^ b) /\ binop w KSr (VInt a) (VInt b) = Ok (VInt (a / 2 ^ b))) /\
  (~ 0 <= b < 64 -> h_checks (e_host w) = true -> binop w KSr (VInt a) (VInt b) = Panic) /\
  (~ 0 <= b < 64 -> h_checks (e_host w) = false -> fits (a / 2 ^ (b mod 64)) /\ binop w KSr (VInt a) (VInt b) = Ok (VInt (a / 2 ^ (b mod 64)))).
Proof.
  intros A. rewrite (binop_strict w KSr (value_shr (e_host w))) by reflexivity. cbn [value_shr]. unfold int_shr.
  split; [|split].
  - intros H. replace ((0 <=? b) && (b <? 64)) with true by lia. rewrite <- Z.shiftr_div_pow2 by lia.
    split; auto. apply shiftr_fits; auto; lia.
  - intros H C. replace ((0 <=? b) && (b <? 64)) with false by lia. now rewrite C.
  - intros H C. replace ((0 <=? b) && (b <? 64)) with false by lia. rewrite C.
    assert (0 <= b mod 64) by (apply Z.mod_pos_bound; lia).
    rewrite <- Z.shiftr_div_pow2 by lia. split; auto. apply shiftr_fits; auto.
Qed.

(** division *)
Definition bad_division (a b : Z) : Prop := b = 0 \/ (a = - 2 ^ 63 /\ b = -1).
Lemma bad_division_iff a b : ((b =? 0) || ((a =? i64_min) && (b =? -1))) = true <-> bad_division a b.
Proof. unfold bad_division, i64_min. lia. Qed.

Lemma quot_fits a b : fits a -> ~ bad_division a b -> fits (Z.quot a b) /\ fits (Z.rem a b).
Proof.
  unfold fits, bad_division. intros A B.
  assert (b <> 0) by tauto.
  pose proof (Z.quot_rem' a b). pose proof (Z.rem_bound_abs a b ltac:(auto)).
  pose proof (Z.rem_sign_mul a b ltac:(auto)).
  split; [|split]. 
  - destruct (Z.eq_dec b 1) as [->|]; [rewrite Z.quot_1_r; lia|].
    destruct (Z.eq_dec b (-1)) as [->|]; [change (-1) with (- (1)); rewrite Z.quot_opp_r, Z.quot_1_r by lia; lia|].
    assert (2 * Z.abs (Z.quot a b) <= Z.abs a).
    { rewrite <- Z.quot_abs by auto. 
      pose proof (Z.mul_quot_le (Z.abs a) (Z.abs b) ltac:(lia) ltac:(lia)).
      assert (0 <= Z.abs a ÷ Z.abs b) by (apply Z.quot_pos; lia). nia. }
    lia.
  - destruct (Z.eq_dec a 0) as [->|]; [rewrite Z.rem_0_l by auto; lia|].
    pose proof (Z.rem_abs a b ltac:(auto)). pose proof (Z.rem_le (Z.abs a) (Z.abs b) ltac:(lia) ltac:(lia)). lia.
  - destruct (Z.eq_dec a 0) as [->|]; [rewrite Z.rem_0_l by auto; lia|].
    pose proof (Z.rem_abs a b ltac:(auto)). pose proof (Z.rem_le (Z.abs a) (Z.abs b) ltac:(lia) ltac:(lia)).
    destruct (Z.eq_dec (Z.rem a b) (2 ^ 63)); nia.
Qed.

Theorem division w a b : fits a -> fits b ->
  ((b = 0 \/ (a = - 2 ^ 63 /\ b = -1)) ->
     binop w KDiv (VInt a) (VInt b) = Panic /\ binop w KRem (VInt a) (VInt b) = Panic) /\
  (~ (b = 0 \/ (a = - 2 ^ 63 /\ b = -1)) -> exists q r,
     binop w KDiv (VInt a) (VInt b) = Ok (VInt q) /\ binop w KRem (VInt a) (VInt b) = Ok (VInt r) /\
     fits q /\ fits r /\ a = b * q + r /\ Z.abs r < Z.abs b /\ 0 <= r * a).
Proof.
  intros A B. rewrite (binop_strict w KDiv value_div) by reflexivity. rewrite (binop_strict w KRem value_rem) by reflexivity.
  cbn [value_div value_rem]. unfold int_div, int_rem. split.
  - intros H. apply bad_division_iff in H. destruct (b =? 0); auto. cbn [orb] in H. rewrite H. auto.
  - intros H. pose proof (quot_fits _ _ A H) as [Q R]. exists (Z.quot a b), (Z.rem a b).
    assert (N : (b =? 0) = false /\ ((a =? i64_min) && (b =? -1)) = false) by (unfold i64_min; lia).
    destruct N as [-> ->]. split; [reflexivity|]. split; [reflexivity|]. split; [exact Q|]. split; [exact R|].
    assert (b <> 0) by tauto.
    split; [apply Z.quot_rem'|]. split; [apply Z.rem_bound_abs; auto|]. rewrite Z.mul_comm, Z.mul_comm. apply Z.rem_sign_mul; auto.
Qed.

(** ** mixed operands *)
Lemma as_float_int z f : as_float (VInt z) f <-> f = f64_of_int z.
Proof.
  rewrite <- of_int_iff. split; [intros H; inversion H; auto|intros []; now constructor].
Qed.
Lemma as_float_float g f : as_float (VFloat g) f <-> f = g.
Proof. split; [intros H; now inversion H|intros ->; constructor]. Qed.
Theorem as_float_total v : is_number v -> exists f, as_float v f /\ forall f', as_float v f' -> f' = f.
Proof.
  intros [z|g]; eexists; (split; [apply as_float_int; reflexivity|]) || (split; [constructor|]); intros f' H.
  - now apply as_float_int.
  - now apply as_float_float.
Qed.
Theorem promotes w k v1 v2 x y : arithmetic k -> as_float v1 x -> as_float v2 y -> binary64 x -> binary64 y -> ~ both_int v1 v2 ->
  exists r, binop w k v1 v2 = Ok (VFloat r) /\ forall r', float_op k x y r' <-> r' = r.
Proof.
  intros K A B Bx By N. unfold both_int in N.
  assert (O : exists o, op_of k = Some o /\ binop w k v1 v2 = Ok (VFloat (o x y))).
  { unfold arithmetic in K. cbn [In] in K.
    destruct v1 as [|i|f|? |? |? |? ], v2 as [|j|g|? |? |? |? ]; try (exfalso; inversion A; fail); try (exfalso; inversion B; fail);
      [exfalso; apply N; eauto|..];
      repeat match goal with
        | H : as_float (VInt _) _ |- _ => apply as_float_int in H; subst
        | H : as_float (VFloat _) _ |- _ => apply as_float_float in H; subst
        end;
      destruct K as [<-|[<-|[<-|[<-|[<-|[]]]]]]; (eexists; split; [reflexivity|]); erewrite binop_strict by reflexivity; reflexivity. }
  destruct O as (o & Ho & E). exists (o x y). split; [exact E|]. intros r'. now apply float_op_iff.
Qed.
Theorem concat w a b : binop w KAdd (VStr a) (VStr b) = Ok (VStr (a ++ b)).
Proof. reflexivity. Qed.
Theorem mismatch w k v1 v2 : arithmetic k -> ~ (is_number v1 /\ is_number v2) -> ~ (k = KAdd /\ both_str v1 v2) ->
  type_error w k v1 v2 (binop w k v1 v2).
Proof.
  unfold arithmetic, both_str. intros K N S. simpl in K.
  destruct K as [<-|[<-|[<-|[<-|[<-|[]]]]]]; erewrite binop_strict by reflexivity;
    destruct v1, v2;
    first [ eexists; split; [reflexivity|]; cbn [everr_text]; unfold op_text; rewrite <- ?app_assoc; reflexivity
          | exfalso; apply N; split; constructor
          | exfalso; apply S; eauto ].
Qed.
Theorem bit_mismatch w k v1 v2 : bit_operator k -> ~ both_int v1 v2 -> type_error w k v1 v2 (binop w k v1 v2).
Proof.
  unfold bit_operator, both_int. intros K N. simpl in K.
  destruct K as [<-|[<-|[<-|[<-|[<-|[]]]]]]; erewrite binop_strict by reflexivity;
    destruct v1, v2;
    first [ eexists; split; [reflexivity|]; cbn [everr_text]; unfold op_text; rewrite <- ?app_assoc; reflexivity
          | exfalso; apply N; eauto ].
Qed.
Theorem panics w k v1 v2 : binop w k v1 v2 = Panic ->
  exists a b, v1 = VInt a /\ v2 = VInt b /\
    ((exists z, h_checks (e_host w) = true /\ ~ fits z /\
                ((k = KAdd /\ z = a + b) \/ (k = KSub /\ z = a - b) \/ (k = KMul /\ z = a * b))) \/
     ((k = KSl \/ k = KSr) /\ h_checks (e_host w) = true /\ ~ 0 <= b < 64) \/
     ((k = KDiv \/ k = KRem) /\ (b = 0 \/ (a = - 2 ^ 63 /\ b = -1)))).
Proof.
  assert (AR : forall z, arith (e_host w) z = Panic -> h_checks (e_host w) = true /\ ~ fits z).
  { unfold arith. intros z H. destruct (in_i64 z) eqn:E; [discriminate|]. destruct (h_checks (e_host w)); [|discriminate].
    split; auto. now apply in_i64_nfits. }
  intros H. destruct (strict_op (e_host w) k) as [f|] eqn:S.
  - rewrite (binop_strict _ _ _ _ _ S) in H.
    destruct k; try discriminate S; inversion S; subst f; clear S;
      destruct v1 as [|a|a|a|a|a|a], v2 as [|b|b|b|b|b|b]; try discriminate H; exists a, b; split; auto; split; auto;
      cbn [value_add value_sub value_mul value_div value_rem value_shl value_shr] in H.
    1-3: left; eexists; apply AR in H; destruct H; split; [auto|split; [eassumption|tauto]].
    1,2: right; right; split; [tauto|]; apply bad_division_iff; unfold int_div, int_rem in H;
         destruct (b =? 0); auto; cbn [orb]; destruct ((a =? i64_min) && (b =? -1)); auto; discriminate.
    1,2: right; left; split; [tauto|]; unfold int_shl, int_shr in H; destruct ((0 <=? b) && (b <? 64)) eqn:E; [discriminate|];
         destruct (h_checks (e_host w)); [|discriminate]; split; [auto|lia].
  - exfalso. revert H. unfold binop, eval_expr, eval_at. cbn. rewrite S.
    destruct k; try discriminate; cbn; destruct (falsy v1); cbn; discriminate.
Qed.

(** ** comparisons *)
Lemma f64_cmp_opp x y : f64_cmp y x = match f64_cmp x y with Some c => Some (CompOpp c) | None => None end.
Proof.
  unfold f64_cmp. destruct x as [sx|sx| |sx mx ex], y as [sy|sy| |sy my ey]; try destruct sx; try destruct sy; cbn; auto;
    rewrite (Z.compare_antisym ex ey); destruct (Z.compare ex ey); cbn; auto;
    rewrite (Pos.compare_cont_antisym mx my Eq); cbn; destruct (Pos.compare_cont Eq mx my); auto.
Qed.
Lemma f64_cmp_some x y : x <> S754_nan -> y <> S754_nan -> exists c, f64_cmp x y = Some c.
Proof.
  unfold f64_cmp. destruct x as [sx|sx| |sx mx ex], y as [sy|sy| |sy my ey]; try congruence; try destruct sx; try destruct sy; cbn; eauto;
    destruct (Z.compare ex ey); eauto.
Qed.
Lemma f64_cmp_nan x y : f64_cmp x y = None <-> x = S754_nan \/ y = S754_nan.
Proof.
  split.
  - intros H. destruct x, y; auto; exfalso; match type of H with f64_cmp ?a ?b = None => destruct (f64_cmp_some a b ltac:(discriminate) ltac:(discriminate)) as [c' E'] end; congruence.
  - intros [-> | ->]; [reflexivity|]. destruct x as [[]|[]| |[]]; reflexivity.
Qed.

Lemma str_cmp_opp a b : str_cmp b a = CompOpp (str_cmp a b).
Proof.
  revert b; induction a as [|x a IH]; intros [|y b]; cbn; auto.
  rewrite (N.compare_antisym x y). destruct (N.compare x y); cbn; auto.
Qed.
Lemma str_cmp_eq a b : str_cmp a b = Eq <-> a = b.
Proof.
  revert b; induction a as [|x a IH]; intros [|y b]; cbn; split; try discriminate; auto.
  - destruct (N.compare x y) eqn:E; try discriminate. intros H. apply N.compare_eq in E. apply IH in H. congruence.
  - intros [= -> ->]. rewrite N.compare_refl. now apply IH.
Qed.
Lemma str_cmp_lt a b : str_cmp a b = Lt <-> lex_lt a b.
Proof.
  revert b; induction a as [|x a IH]; intros [|y b]; cbn; split; intros H; try discriminate; try (inversion H; fail).
  - constructor.
  - reflexivity.
  - destruct (N.compare x y) eqn:E; try discriminate.
    + apply N.compare_eq in E. subst. apply lex_tail. now apply IH.
    + now apply lex_head.
  - inversion H; subst; [now rewrite (proj2 (N.compare_lt_iff x y))|]. rewrite N.compare_refl. now apply IH.
Qed.

Lemma value_cmp_opp a b : value_cmp b a = match value_cmp a b with Some c => Some (CompOpp c) | None => None end.
Proof.
  destruct a, b; cbn; auto using f64_cmp_opp.
  - now rewrite (Z.compare_antisym z z0).
  - now rewrite (str_cmp_opp s s0).
Qed.

Lemma value_cmp_none a b : value_cmp a b = None <-> ~ comparable a b.
Proof.
  destruct (value_cmp a b) eqn:E.
  - split; [discriminate|]. intros N. exfalso. apply N.
    destruct a, b; try discriminate E; cbn in E;
      first [ apply cmp_str | apply cmp_int
            | eapply cmp_num; [first [apply as_float_int; reflexivity|apply af_float]|first [apply as_float_int; reflexivity|apply af_float]| |]; intros X; fold f64_cmp in E;
              match type of E with f64_cmp ?x ?y = _ => assert (Q : f64_cmp x y = None) by (apply f64_cmp_nan; auto) end; congruence ].
  - split; auto. intros _ C. inversion C as [| |? ? x y X Y NX NY]; subst; try discriminate.
    destruct (f64_cmp_some _ _ NX NY) as [c F].
    destruct a as [|i|f|? |? |? |? ], b as [|j|g|? |? |? |? ]; try (exfalso; inversion X; fail); try (exfalso; inversion Y; fail); try discriminate E;
      repeat match goal with
        | H : as_float (VInt _) _ |- _ => apply as_float_int in H; subst
        | H : as_float (VFloat _) _ |- _ => apply as_float_float in H; subst
        end; cbn [value_cmp] in E; congruence.
Qed.

(** The four orderings of two values are decided by one three-way comparison *)
Lemma ord_ops w a b :
  binop w KLt a b = Ok (VBool (match value_cmp a b with Some Lt => true | _ => false end)) /\
  binop w KGt a b = Ok (VBool (match value_cmp a b with Some Gt => true | _ => false end)) /\
  binop w KLe a b = Ok (VBool (match value_cmp a b with Some (Lt | Eq) => true | _ => false end)) /\
  binop w KGe a b = Ok (VBool (match value_cmp a b with Some (Gt | Eq) => true | _ => false end)).
Proof. repeat split; erewrite binop_strict by reflexivity; reflexivity. Qed.

Ltac ords w a b := let A := fresh in let B := fresh in let C := fresh in let D := fresh in
  destruct (ord_ops w a b) as (A & B & C & D); rewrite ?A, ?B, ?C, ?D in *; clear A B C D.

Theorem comparison_laws w a b :
  (forall k, In k [KLt; KGt; KLe; KGe; KEq; KNe] -> holds w a b k \/ fails w a b k) /\
  (holds w a b KLt <-> holds w b a KGt) /\
  (holds w a b KLe <-> holds w b a KGe) /\
  (holds w a b KLt -> holds w a b KLe /\ fails w a b KGe) /\
  (holds w a b KGt -> holds w a b KGe /\ fails w a b KLe) /\
  (holds w a b KLe -> holds w a b KGe -> fails w a b KLt /\ fails w a b KGt) /\
  (holds w a b KNe <-> fails w a b KEq) /\
  (comparable a b -> holds w a b KLe \/ holds w a b KGt) /\
  (comparable a b -> holds w a b KGe \/ holds w a b KLt) /\
  (~ comparable a b -> fails w a b KLt /\ fails w a b KGt /\ fails w a b KLe /\ fails w a b KGe).
Proof.
  assert (NE : binop w KNe a b = Ok (VBool (negb (value_eqb a b)))) by reflexivity.
  assert (EQ : binop w KEq a b = Ok (VBool (value_eqb a b))) by reflexivity.
  pose proof (value_cmp_none a b) as C. pose proof (value_cmp_opp a b) as O.
  unfold holds, fails. rewrite NE, EQ. ords w a b. ords w b a. rewrite O.
  split.
  { intros k K. destruct (ord_ops w a b) as (L & G & LE & GE).
    assert (X : exists t : bool, binop w k a b = Ok (VBool t)).
    { simpl in K. destruct K as [<-|[<-|[<-|[<-|[<-|[<-|[]]]]]]]; eauto. }
    destruct X as [[] ->]; auto. }
  destruct (value_cmp a b) as [[]|] eqn:E; cbn; repeat split; intros; try discriminate; auto;
    try (destruct (value_eqb a b); cbn in *; congruence);
    try (exfalso; destruct C as [_ C]; specialize (C H); discriminate C).
  all: exfalso; apply (proj1 C eq_refl); assumption.
Qed.

Theorem int_order w a b :
  (holds w (VInt a) (VInt b) KLt <-> a < b) /\ (holds w (VInt a) (VInt b) KLe <-> a <= b) /\
  (holds w (VInt a) (VInt b) KGt <-> a > b) /\ (holds w (VInt a) (VInt b) KGe <-> a >= b) /\
  (holds w (VInt a) (VInt b) KEq <-> a = b).
Proof.
  assert (EQ : binop w KEq (VInt a) (VInt b) = Ok (VBool (a =? b))) by reflexivity.
  unfold holds. rewrite EQ. ords w (VInt a) (VInt b). cbn [value_cmp].
  destruct (Z.compare_spec a b); repeat split; intros X; try discriminate X; try lia; try reflexivity;
    try (inversion X; lia); f_equal; f_equal; lia.
Qed.

Theorem float_order w a b x y : as_float a x -> as_float b y -> binary64 x -> binary64 y -> ~ both_int a b ->
  (holds w a b KLt <-> float_cmp x y Lt) /\ (holds w a b KGt <-> float_cmp x y Gt) /\
  (holds w a b KLe <-> float_cmp x y Lt \/ float_cmp x y Eq) /\
  (holds w a b KGe <-> float_cmp x y Gt \/ float_cmp x y Eq).
Proof.
  intros A B Bx By N. rewrite !compare_iff by assumption. assert (E : value_cmp a b = SFcompare x y).
  { destruct a as [|i|f|? |? |? |? ], b as [|j|g|? |? |? |? ]; try (exfalso; inversion A; fail); try (exfalso; inversion B; fail);
      [exfalso; apply N; unfold both_int; eauto|..];
      repeat match goal with
        | H : as_float (VInt _) _ |- _ => apply as_float_int in H; subst
        | H : as_float (VFloat _) _ |- _ => apply as_float_float in H; subst
        end; reflexivity. }
  unfold holds. ords w a b. rewrite E. destruct (SFcompare x y) as [[]|]; repeat split; intros X; try discriminate X; auto;
    try (destruct X; discriminate).
Qed.
