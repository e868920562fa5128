(** Laws of the operators *)
From Verif Require Import SpecLaws TextProofs ValueProofs ValueExamples PureProofs SpecEval SpecLaws.
From Coq Require Import ZifyBool.
Open Scope Z_scope.

Lemma arith_wraps h z : h_checks h = false -> arith h z = Ok (VInt (wrap64 z)).
Proof. intros H. unfold arith. rewrite H. destruct (in_i64 z) eqn:E; auto. apply in_i64_fits in E. now rewrite wrap64_fits. Qed.
Lemma arith_exact h z v : h_checks h = true -> arith h z = Ok v -> v = VInt z.
Proof. unfold arith. intros ->. destruct (in_i64 z); congruence. Qed.
Lemma wrap_eq x y : (exists k, x = y + k * 2 ^ 64) -> wrap64 x = wrap64 y.
Proof. intros [k ->]. unfold wrap64. replace (y + k * 2 ^ 64 + 2 ^ 63) with (y + 2 ^ 63 + k * 2 ^ 64) by lia. now rewrite Z.mod_add by lia. Qed.
Lemma wrap_off x : exists k, wrap64 x = x + k * 2 ^ 64.
Proof. destruct (wrap64_wraps x) as [_ [k E]]. exists (- k). lia. Qed.

Lemma calc_ab w k f x y z : strict_op (e_host w) k = Some f -> calc w (op k A B) x y z = f x y.
Proof. intros H. unfold calc, eval_expr, eval_at. cbn. rewrite H. reflexivity. Qed.
Lemma calc_ba w k f x y z : strict_op (e_host w) k = Some f -> calc w (op k B A) x y z = f y x.
Proof. intros H. unfold calc, eval_expr, eval_at. cbn. rewrite H. reflexivity. Qed.

Lemma SFadd_comm p e x y : SFadd p e x y = SFadd p e y x.
Proof.
  destruct x as [sx|sx| |sx mx ex], y as [sy|sy| |sy my ey]; cbn [SFadd]; try reflexivity.
  - destruct sx, sy; reflexivity.
  - destruct sx, sy; reflexivity.
  - rewrite (Z.min_comm ex ey). now rewrite Z.add_comm.
Qed.
Lemma SFmul_comm p e x y : SFmul p e x y = SFmul p e y x.
Proof.
  destruct x as [sx|sx| |sx mx ex], y as [sy|sy| |sy my ey]; cbn [SFmul]; try reflexivity; try (now rewrite xorb_comm).
  now rewrite xorb_comm, Pos.mul_comm, Z.add_comm.
Qed.
Lemma commutes w k x y z :
  In k [KAdd; KMul] /\ is_number x /\ is_number y \/ In k [KBx; KBo; KBa] /\ both_int x y ->
  calc w (op k A B) x y z = calc w (op k B A) x y z.
Proof.
  intros [(J & X & Y)|(J & a & b & -> & ->)].
  - destruct J as [<-|[<-|[]]]; erewrite calc_ab, calc_ba by reflexivity; inversion X; subst; inversion Y; subst;
      cbn [value_add value_mul]; unfold f64_add, f64_mul; rewrite 1?Z.add_comm, 1?Z.mul_comm, 1?SFadd_comm, 1?SFmul_comm; reflexivity.
  - destruct J as [<-|[<-|[<-|[]]]]; erewrite calc_ab, calc_ba by reflexivity; cbn [value_bitxor value_bitor value_bitand];
      now rewrite 1?Z.lxor_comm, 1?Z.lor_comm, 1?Z.land_comm.
Qed.


(** Parts of an expression without calls and lets are worked out in the same state *)
Definition andthen (o : res) (f : value -> res) : res := match o with Ok v => f v | o => o end.
Lemma still_fst w e s : let_names e = [] -> call_count e = 0%nat -> eval_expr w e s = (fst (eval_expr w e s), s).
Proof. intros L K. destruct (pure_still w e s L K) as [o E]. now rewrite E. Qed.
Lemma calc_op w k f l r x y z : strict_op (e_host w) k = Some f -> let_names l = [] -> call_count l = 0%nat -> let_names r = [] -> call_count r = 0%nat ->
  calc w (op k l r) x y z = andthen (calc w l x y z) (fun v1 => andthen (calc w r x y z) (fun v2 => f v1 v2)).
Proof.
  intros F L1 L2 R1 R2. unfold calc, op. set (s := St _ _).
  pose proof (still_fst w l s L1 L2) as E1. pose proof (still_fst w r s R1 R2) as E2. set (o1 := fst (eval_expr w l s)) in *. set (o2 := fst (eval_expr w r s)) in *.
  unfold eval_expr, eval_at in *. cbn [eval tkind]. rewrite F. unfold bind. rewrite E1. destruct o1; try reflexivity. cbv beta iota. rewrite E2. destruct o2; reflexivity.
Qed.
Lemma calc_un w k e x y z : let_names e = [] -> call_count e = 0%nat ->
  calc w (un k e) x y z = andthen (calc w e x y z) (fun v => unary_value (e_host w) (Tok k []) v).
Proof.
  intros L K. unfold calc, un. set (s := St _ _). pose proof (still_fst w e s L K) as E. set (o := fst (eval_expr w e s)) in *.
  unfold eval_expr, eval_at in *. cbn [eval]. unfold bind. rewrite E. destruct o; reflexivity.
Qed.
Lemma calc_a w x y z : calc w A x y z = Ok x. Proof. reflexivity. Qed.
Lemma calc_b w x y z : calc w B x y z = Ok y. Proof. reflexivity. Qed.
Lemma calc_c w x y z : calc w C x y z = Ok z. Proof. reflexivity. Qed.
Ltac work := repeat first [erewrite calc_op by reflexivity|rewrite calc_un by reflexivity|rewrite calc_a|rewrite calc_b|rewrite calc_c].
Ltac values := cbn [andthen value_add value_sub value_mul value_bitxor value_bitor value_bitand unary_value tkind].

(** Both sides exact, or both modulo 2^64 *)
Lemma in_arith h z : h_checks h = true -> arith h z = Ok (VInt z) \/ arith h z = Panic.
Proof. intros H. unfold arith. rewrite H. destruct (in_i64 z); auto. Qed.
Lemma trade w e e' x y z :
  (h_checks (e_host w) = false -> calc w e x y z = calc w e' x y z) ->
  (h_checks (e_host w) = true -> forall v v', calc w e x y z = Ok v -> calc w e' x y z = Ok v' -> v = v') -> interchangeable w e e' x y z.
Proof. intros F T. split; auto. destruct (h_checks (e_host w)); auto. rewrite (F eq_refl). congruence. Qed.
Lemma same_trade w e e' x y z : calc w e x y z = calc w e' x y z -> interchangeable w e e' x y z.
Proof. intros E. split; auto. rewrite E. congruence. Qed.
Ltac checked H := values;
  repeat match goal with
         | |- context [arith ?h ?z] => let E := fresh in destruct (in_arith h z H) as [E|E]; rewrite E; clear E; values; try (intros; discriminate)
         end.
Ltac wrapped H := values; repeat (progress (rewrite ?(arith_wraps _ _ H); values)); apply f_equal, f_equal.

Lemma associates w k a b c : In k [KAdd; KMul; KBx; KBo; KBa] ->
  interchangeable w (op k (op k A B) C) (op k A (op k B C)) (VInt a) (VInt b) (VInt c).
Proof.
  intros [<-|[<-|[<-|[<-|[<-|[]]]]]].
  - apply trade; intros H; work.
    + wrapped H. apply wrap_eq. destruct (wrap_off (a + b)) as [k1 ->], (wrap_off (b + c)) as [k2 ->]. exists (k1 - k2). ring.
    + checked H. intros v v' [= <-] [= <-]. apply (f_equal VInt). ring.
  - apply trade; intros H; work.
    + wrapped H. apply wrap_eq. destruct (wrap_off (a * b)) as [k1 ->], (wrap_off (b * c)) as [k2 ->]. exists (k1 * c - a * k2). ring.
    + checked H. intros v v' [= <-] [= <-]. apply (f_equal VInt). ring.
  - apply same_trade. work. values. now rewrite Z.lxor_assoc.
  - apply same_trade. work. values. now rewrite Z.lor_assoc.
  - apply same_trade. work. values. now rewrite Z.land_assoc.
Qed.
Lemma distributes w k a b c : In k [KAdd; KSub] ->
  interchangeable w (op KMul A (op k B C)) (op k (op KMul A B) (op KMul A C)) (VInt a) (VInt b) (VInt c).
Proof.
  intros [<-|[<-|[]]]; apply trade; intros H; work.
  - wrapped H. apply wrap_eq. destruct (wrap_off (b + c)) as [k0 ->], (wrap_off (a * b)) as [k1 ->], (wrap_off (a * c)) as [k2 ->]. exists (a * k0 - k1 - k2). ring.
  - checked H. intros v v' [= <-] [= <-]. apply (f_equal VInt). ring.
  - wrapped H. apply wrap_eq. destruct (wrap_off (b - c)) as [k0 ->], (wrap_off (a * b)) as [k1 ->], (wrap_off (a * c)) as [k2 ->]. exists (a * k0 - k1 + k2). ring.
  - checked H. intros v v' [= <-] [= <-]. apply (f_equal VInt). ring.
Qed.
Lemma subtracts w a b c : fits a ->
  interchangeable w (op KSub A B) (op KAdd A (un KSub B)) (VInt a) (VInt b) (VInt c) /\
  interchangeable w (op KSub A (op KSub B C)) (op KAdd (op KSub A B) C) (VInt a) (VInt b) (VInt c) /\
  interchangeable w (op KAdd (op KSub A B) B) A (VInt a) (VInt b) (VInt c) /\
  interchangeable w (un KSub (un KSub A)) A (VInt a) (VInt b) (VInt c).
Proof.
  intros FA. split; [|split; [|split]]; apply trade; intros H; work.
  - wrapped H. apply wrap_eq. destruct (wrap_off (- b)) as [k ->]. exists (- k). ring.
  - checked H. intros v v' [= <-] [= <-]. apply (f_equal VInt). ring.
  - wrapped H. apply wrap_eq. destruct (wrap_off (b - c)) as [k1 ->], (wrap_off (a - b)) as [k2 ->]. exists (- k1 - k2). ring.
  - checked H. intros v v' [= <-] [= <-]. apply (f_equal VInt). ring.
  - wrapped H. rewrite <- (wrap64_fits a) at 2 by auto. apply wrap_eq. destruct (wrap_off (a - b)) as [k ->]. exists k. ring.
  - checked H. intros v v' [= <-] [= <-]. apply (f_equal VInt). ring.
  - wrapped H. rewrite <- (wrap64_fits a) at 2 by auto. apply wrap_eq. destruct (wrap_off (- a)) as [k ->]. exists (- k). ring.
  - checked H. intros v v' [= <-] [= <-]. apply (f_equal VInt). ring.
Qed.
Lemma lands a b : Z.land a (Z.lor a b) = a. Proof. apply Z.bits_inj'. intros n _. rewrite Z.land_spec, Z.lor_spec. now destruct (Z.testbit a n), (Z.testbit b n). Qed.
Lemma lors a b : Z.lor a (Z.land a b) = a. Proof. apply Z.bits_inj'. intros n _. rewrite Z.lor_spec, Z.land_spec. now destruct (Z.testbit a n), (Z.testbit b n). Qed.
Lemma bits w a b c : let alike e e' := calc w e (VInt a) (VInt b) (VInt c) = calc w e' (VInt a) (VInt b) (VInt c) in
  alike (op KBa A (op KBo B C)) (op KBo (op KBa A B) (op KBa A C)) /\
  alike (op KBo A (op KBa B C)) (op KBa (op KBo A B) (op KBo A C)) /\
  alike (op KBa A A) A /\ alike (op KBo A A) A /\
  alike (op KBa A (op KBo A B)) A /\ alike (op KBo A (op KBa A B)) A /\
  alike (un KNot (op KBa A B)) (op KBo (un KNot A) (un KNot B)) /\
  alike (un KNot (op KBo A B)) (op KBa (un KNot A) (un KNot B)) /\
  alike (un KNot (un KNot A)) A /\ alike (op KBx (op KBx A B) B) A /\ alike (op KBx A A) (EInt 0).
Proof.
  cbv zeta. repeat apply conj; work; values.
  - now rewrite Z.land_lor_distr_r.
  - now rewrite Z.lor_land_distr_r.
  - now rewrite Z.land_diag.
  - now rewrite Z.lor_diag.
  - now rewrite lands.
  - now rewrite lors.
  - now rewrite Z.lnot_land.
  - now rewrite Z.lnot_lor.
  - now rewrite Z.lnot_involutive.
  - now rewrite Z.lxor_assoc, Z.lxor_nilpotent, Z.lxor_0_r.
  - now rewrite Z.lxor_nilpotent.
Qed.

(** Shifting twice *)
Lemma shl_in h a b : 0 <= b < 64 -> int_shl h a b = Ok (VInt (wrap64 (a * 2 ^ b))).
Proof. intros LB. unfold int_shl. replace ((0 <=? b) && (b <? 64)) with true by lia. now rewrite Z.shiftl_mul_pow2 by lia. Qed.
Lemma shr_in h a b : 0 <= b < 64 -> int_shr h a b = Ok (VInt (Z.shiftr a b)).
Proof. intros LB. unfold int_shr. now replace ((0 <=? b) && (b <? 64)) with true by lia. Qed.
Lemma arith_fits h z : fits z -> arith h z = Ok (VInt z).
Proof. intros F. unfold arith. apply in_i64_fits in F. now rewrite F. Qed.
Lemma shifts w k a b c : In k [KSl; KSr] -> 0 <= b -> 0 <= c -> b + c < 64 ->
  calc w (op k (op k A B) C) (VInt a) (VInt b) (VInt c) = calc w (op k A (op KAdd B C)) (VInt a) (VInt b) (VInt c).
Proof.
  intros J LB LC LS. assert (F : fits (b + c)) by (unfold fits; lia).
  destruct J as [<-|[<-|[]]]; work; values; rewrite (arith_fits _ _ F); values; cbn [value_shl value_shr].
  - rewrite (shl_in _ a b), (shl_in _ a (b + c)) by lia. values. cbn [value_shl]. rewrite shl_in by lia. apply f_equal, f_equal, wrap_eq.
    destruct (wrap_off (a * 2 ^ b)) as [k ->]. exists (k * 2 ^ c). rewrite Z.pow_add_r by lia. ring.
  - rewrite (shr_in _ a b), (shr_in _ a (b + c)) by lia. values. cbn [value_shr]. rewrite shr_in by lia. now rewrite Z.shiftr_shiftr by lia.
Qed.
(** A shift is a multiplication that never aborts *)
Lemma shift_scales w a b c : 0 <= b < 64 -> h_checks (e_host w) = false ->
  calc w (op KSl A B) (VInt a) (VInt b) (VInt c) = calc w (op KMul A C) (VInt a) (VInt b) (VInt (2 ^ b)).
Proof.
  intros LB H. work. values. rewrite (arith_wraps _ _ H). cbn [value_shl]. now apply shl_in.
Qed.
Lemma concatenates w a b c : 
  calc w (op KAdd (op KAdd A B) C) (VStr a) (VStr b) (VStr c) = calc w (op KAdd A (op KAdd B C)) (VStr a) (VStr b) (VStr c) /\
  calc w (op KAdd A (EStr [])) (VStr a) (VStr b) (VStr c) = Ok (VStr a) /\
  calc w (op KAdd (EStr []) A) (VStr a) (VStr b) (VStr c) = Ok (VStr a).
Proof.
  split; [|split]; work; values.
  - now rewrite app_assoc.
  - change (calc w (EStr []) (VStr a) (VStr b) (VStr c)) with (Ok (E := everr) (VStr [])). values. now rewrite app_nil_r.
  - change (calc w (EStr []) (VStr a) (VStr b) (VStr c)) with (Ok (E := everr) (VStr [])). reflexivity.
Qed.

(** The logical operators choose one of their operands *)
Lemma either_groups w t l r q s : tkind t = KLo \/ tkind t = KLa ->
  eval_expr w (EBin t (EBin t l r) q) s = eval_expr w (EBin t l (EBin t r q)) s.
Proof.
  intros [E|E]; unfold eval_expr, eval_at; cbn [eval]; rewrite E; cbn [strict_op]; unfold bind;
    destruct (eval (e_host w) (call_at w _) l s) as [[v|e| |] s1]; auto.
  - destruct (falsy v) eqn:F; [reflexivity|]. unfold ret. now rewrite F.
  - destruct (falsy v) eqn:F; [|reflexivity]. unfold ret. now rewrite F.
Qed.
Lemma calc_or w l r x y z : let_names l = [] -> call_count l = 0%nat ->
  calc w (op KLo l r) x y z = andthen (calc w l x y z) (fun v => if falsy v then calc w r x y z else Ok v).
Proof.
  intros L1 L2. unfold calc, op. set (s := St _ _).
  pose proof (still_fst w l s L1 L2) as E1. set (o1 := fst (eval_expr w l s)) in *.
  unfold eval_expr, eval_at in *. cbn [eval tkind strict_op]. unfold bind. rewrite E1. destruct o1; try reflexivity. cbv beta iota. cbn [andthen]. now destruct (falsy a).
Qed.
Lemma calc_and w l r x y z : let_names l = [] -> call_count l = 0%nat ->
  calc w (op KLa l r) x y z = andthen (calc w l x y z) (fun v => if falsy v then Ok v else calc w r x y z).
Proof.
  intros L1 L2. unfold calc, op. set (s := St _ _).
  pose proof (still_fst w l s L1 L2) as E1. set (o1 := fst (eval_expr w l s)) in *.
  unfold eval_expr, eval_at in *. cbn [eval tkind strict_op]. unfold bind. rewrite E1. destruct o1; try reflexivity. cbv beta iota. cbn [andthen]. now destruct (falsy a).
Qed.
Ltac logic := repeat (rewrite ?calc_or, ?calc_and, ?calc_un by reflexivity; rewrite ?calc_a, ?calc_b, ?calc_c; cbn [andthen]).
Lemma choices w x y z : let alike e e' := calc w e x y z = calc w e' x y z in
  alike (op KLo A A) A /\ alike (op KLa A A) A /\
  alike (op KLa A (op KLo A B)) A /\ alike (op KLo A (op KLa A B)) A /\
  alike (op KLa A (op KLo B C)) (op KLo (op KLa A B) (op KLa A C)) /\
  alike (op KLo A (op KLa B C)) (op KLa (op KLo A B) (op KLo A C)).
Proof.
  cbv zeta. repeat apply conj; logic; destruct (falsy x) eqn:X; cbn [andthen]; rewrite ?X; cbn [andthen]; try reflexivity.
Qed.
(** Not an integer *)
Lemma morgan w x y z : (forall i, x <> VInt i) -> let alike e e' := calc w e x y z = calc w e' x y z in
  alike (un KNot (op KLa A B)) (op KLo (un KNot A) (un KNot B)) /\
  alike (un KNot (op KLo A B)) (op KLa (un KNot A) (un KNot B)) /\
  exists b, calc w (un KNot (un KNot A)) x y z = Ok (VBool b) /\ (b = false <-> counts_false x).
Proof.
  intros NI. cbv zeta. repeat apply conj; [| |exists (negb (falsy x)); split]; try (logic; destruct x as [|i|f|[]|t|l|m]; try (now destruct (NI i)); cbn; rewrite ?calc_un by reflexivity; reflexivity).
  unfold counts_false. destruct x as [|i|f|[]|t|l|m]; cbn; split; try tauto; try discriminate; intros [H|H]; discriminate H.
Qed.
Lemma swap_arms w t c a b s : tkind t = KNot -> (forall i s', eval_expr w c s <> (Ok (VInt i), s')) ->
  eval_expr w (EIf (EUn t c) a b) s = eval_expr w (EIf c b a) s.
Proof.
  intros T NI. unfold eval_expr, eval_at in *. cbn [eval]. unfold bind. unfold unary_value. rewrite T.
  destruct (eval (e_host w) (call_at w _) c s) as [[[|i|f|[]|x|l|m]|e| |] s1]; try reflexivity. now destruct (NI i s1).
Qed.

Lemma SFsub_opp p e x y : SFsub p e x y = SFadd p e x (SFopp y).
Proof.
  destruct x as [sx|sx| |sx mx ex], y as [sy|sy| |sy my ey]; cbn [SFsub SFadd SFopp]; try reflexivity; destruct sx, sy; try reflexivity.
Qed.
Lemma floats w x y z : 
  calc w (op KSub A B) (VFloat x) (VFloat y) z = calc w (op KAdd A (un KSub B)) (VFloat x) (VFloat y) z /\
  calc w (un KSub (un KSub A)) (VFloat x) (VFloat y) z = Ok (VFloat x).
Proof.
  split; work; values; apply f_equal, f_equal.
  - unfold f64_sub, f64_add, f64_neg. now rewrite SFsub_opp.
  - unfold f64_neg. destruct x as [[]|[]| |[] m e]; reflexivity.
Qed.
