(** C113 and C114 *)
From Verif Require Import EvaluatorTop EvalExamples ValueExamples LawProofs LawExamples SpecEval SpecLaws.
Open Scope Z_scope.

(** C113.  Laws of arithmetic *)

Theorem C113_commutes : forall w k x y z, In k [KAdd; KMul] /\ is_number x /\ is_number y \/ In k [KBx; KBo; KBa] /\ both_int x y ->
  calc w (op k A B) x y z = calc w (op k B A) x y z.
Proof. exact commutes. Qed.
Print Assumptions C113_commutes.
Example C113_commutes_example : is_number (VInt 1) /\ is_number (VFloat (f64_of_int 2)) /\ ~ is_number (VStr (lit "a")) /\
  calc release (op KAdd A B) (VStr (lit "a")) (VStr (lit "b")) VNull <> calc release (op KAdd B A) (VStr (lit "a")) (VStr (lit "b")) VNull.
Proof. exact commutes_example. Qed.

Theorem C113_associates : forall w k a b c, In k [KAdd; KMul; KBx; KBo; KBa] ->
  interchangeable w (op k (op k A B) C) (op k A (op k B C)) (VInt a) (VInt b) (VInt c).
Proof. exact associates. Qed.
Print Assumptions C113_associates.
Example C113_example : In KMul [KAdd; KMul; KBx; KBo; KBa] /\
  calc release (op KMul (op KMul A B) C) (VInt 4611686018427387904) (VInt 3) (VInt 3) = Ok (VInt 4611686018427387904) /\
  calc release (op KMul A (op KMul B C)) (VInt 4611686018427387904) (VInt 3) (VInt 3) = Ok (VInt 4611686018427387904).
Proof. exact groups_example. Qed.

Theorem C113_distributes : forall w k a b c, In k [KAdd; KSub] ->
  interchangeable w (op KMul A (op k B C)) (op k (op KMul A B) (op KMul A C)) (VInt a) (VInt b) (VInt c).
Proof. exact distributes. Qed.
Print Assumptions C113_distributes.
Theorem C113_subtracts : forall w a b c, fits a ->
  interchangeable w (op KSub A B) (op KAdd A (un KSub B)) (VInt a) (VInt b) (VInt c) /\
  interchangeable w (op KSub A (op KSub B C)) (op KAdd (op KSub A B) C) (VInt a) (VInt b) (VInt c) /\
  interchangeable w (op KAdd (op KSub A B) B) A (VInt a) (VInt b) (VInt c) /\
  interchangeable w (un KSub (un KSub A)) A (VInt a) (VInt b) (VInt c).
Proof. exact subtracts. Qed.
Print Assumptions C113_subtracts.
Example C113_subtracts_example : fits (-5) /\ 
  calc debug (op KSub A (op KSub B C)) (VInt (-5)) (VInt 7) (VInt 9) = Ok (VInt (-3)) /\ calc debug (op KAdd (op KSub A B) C) (VInt (-5)) (VInt 7) (VInt 9) = Ok (VInt (-3)).
Proof. exact subtracts_example. Qed.

Theorem C113_floats : forall w x y z, calc w (op KSub A B) (VFloat x) (VFloat y) z = calc w (op KAdd A (un KSub B)) (VFloat x) (VFloat y) z /\
  calc w (un KSub (un KSub A)) (VFloat x) (VFloat y) z = Ok (VFloat x).
Proof. exact floats. Qed.
Print Assumptions C113_floats.
Theorem C113_bits : forall w a b c, let alike e e' := calc w e (VInt a) (VInt b) (VInt c) = calc w e' (VInt a) (VInt b) (VInt c) in
  alike (op KBa A (op KBo B C)) (op KBo (op KBa A B) (op KBa A C)) /\
  alike (op KBo A (op KBa B C)) (op KBa (op KBo A B) (op KBo A C)) /\
  alike (op KBa A A) A /\ alike (op KBo A A) A /\
  alike (op KBa A (op KBo A B)) A /\ alike (op KBo A (op KBa A B)) A /\
  alike (un KNot (op KBa A B)) (op KBo (un KNot A) (un KNot B)) /\
  alike (un KNot (op KBo A B)) (op KBa (un KNot A) (un KNot B)) /\
  alike (un KNot (un KNot A)) A /\ alike (op KBx (op KBx A B) B) A /\ alike (op KBx A A) (EInt 0).
Proof. exact bits. Qed.
Print Assumptions C113_bits.
Theorem C113_shifts : forall w k a b c, In k [KSl; KSr] -> 0 <= b -> 0 <= c -> b + c < 64 ->
  calc w (op k (op k A B) C) (VInt a) (VInt b) (VInt c) = calc w (op k A (op KAdd B C)) (VInt a) (VInt b) (VInt c).
Proof. exact shifts. Qed.
Print Assumptions C113_shifts.
Example C113_shifts_example : calc debug (op KSl (op KSl A B) C) (VInt 3) (VInt 40) (VInt 23) = Ok (VInt (-9223372036854775808)) /\
  calc debug (op KSl A (op KAdd B C)) (VInt 3) (VInt 40) (VInt 23) = Ok (VInt (-9223372036854775808)).
Proof. exact shifts_example. Qed.

Theorem C113_scales : forall w a b c, 0 <= b < 64 -> h_checks (e_host w) = false ->
  calc w (op KSl A B) (VInt a) (VInt b) (VInt c) = calc w (op KMul A C) (VInt a) (VInt b) (VInt (2 ^ b)).
Proof. exact shift_scales. Qed.
Print Assumptions C113_scales.
Theorem C113_concat : forall w a b c, calc w (op KAdd (op KAdd A B) C) (VStr a) (VStr b) (VStr c) = calc w (op KAdd A (op KAdd B C)) (VStr a) (VStr b) (VStr c) /\
  calc w (op KAdd A (EStr [])) (VStr a) (VStr b) (VStr c) = Ok (VStr a) /\
  calc w (op KAdd (EStr []) A) (VStr a) (VStr b) (VStr c) = Ok (VStr a).
Proof. exact concatenates. Qed.
Print Assumptions C113_concat.
Example C113_concat_example : forall w, calc w (op KAdd A (op KAdd B C)) (VStr (lit "a")) (VStr (lit "b")) (VStr (lit "c")) = Ok (VStr (lit "abc")).
Proof. exact concat_example. Qed.

(** in a build that checks for overflow one side may abort alone *)

Theorem C113_checked_refuted : exists a b c, fits a /\ fits b /\ fits c /\ 
  calc debug (op KAdd (op KAdd A B) C) (VInt a) (VInt b) (VInt c) = Panic /\ calc debug (op KAdd A (op KAdd B C)) (VInt a) (VInt b) (VInt c) = Ok (VInt a).
Proof. exact groups_checked. Qed.
Print Assumptions C113_checked_refuted.
Theorem C113_negated_refuted : exists a b, fits a /\ fits b /\
  calc debug (op KSub A B) (VInt a) (VInt b) VNull = Ok (VInt 9223372036854775807) /\ calc debug (op KAdd A (un KSub B)) (VInt a) (VInt b) VNull = Panic.
Proof. exact subtracts_checked. Qed.
Print Assumptions C113_negated_refuted.
(** sums of floats cannot be regrouped, and shifts by 64 or more in all cannot be joined *)

Theorem C113_floats_refuted : exists x y z, parse_f64 (lit "0.1") = Some x /\ parse_f64 (lit "0.2") = Some y /\ parse_f64 (lit "0.3") = Some z /\ forall w,
  calc w (op KEq (op KAdd (op KAdd A B) C) (op KAdd A (op KAdd B C))) (VFloat x) (VFloat y) (VFloat z) = Ok (VBool false).
Proof. exact floats_group. Qed.
Print Assumptions C113_floats_refuted.
Theorem C113_shifts_refuted : exists a b c, 0 <= b < 64 /\ 0 <= c < 64 /\ 
  calc release (op KSl (op KSl A B) C) (VInt a) (VInt b) (VInt c) = Ok (VInt 0) /\ calc release (op KSl A (op KAdd B C)) (VInt a) (VInt b) (VInt c) = Ok (VInt a).
Proof. exact shifts_far. Qed.
Print Assumptions C113_shifts_refuted.
Theorem C113_mixed_refuted : exists x y z, forall w, exists e, calc w (op KAdd (op KAdd A B) C) x y z = Err e.
Proof. exact concat_mixed. Qed.
Print Assumptions C113_mixed_refuted.
(** C114.  Laws of the logical operators *)

Theorem C114_associates : forall w t l r q s, tkind t = KLo \/ tkind t = KLa ->
  eval_expr w (EBin t (EBin t l r) q) s = eval_expr w (EBin t l (EBin t r q)) s.
Proof. exact either_groups. Qed.
Print Assumptions C114_associates.
Example C114_associates_example : exists l r q s, tkind (Tok KLo []) = KLo /\ eval_expr release (EBin (Tok KLo []) (EBin (Tok KLo []) l r) q) s = (Ok (VInt 3), St (Ctx [(lit "x", VBool false)] [] []) []).
Proof. exact either_example. Qed.

Theorem C114_choices : forall w x y z, let alike e e' := calc w e x y z = calc w e' x y z in
  alike (op KLo A A) A /\ alike (op KLa A A) A /\
  alike (op KLa A (op KLo A B)) A /\ alike (op KLo A (op KLa A B)) A /\
  alike (op KLa A (op KLo B C)) (op KLo (op KLa A B) (op KLa A C)) /\
  alike (op KLo A (op KLa B C)) (op KLa (op KLo A B) (op KLo A C)).
Proof. exact choices. Qed.
Print Assumptions C114_choices.
Example C114_choices_example : forall w, calc w (op KLo (op KLa A B) C) (VInt 0) VNull (VStr (lit "c")) = Ok (VStr (lit "c")) /\
  calc w (op KLa A (op KLo B C)) (VInt 0) VNull (VStr (lit "c")) = Ok (VStr (lit "c")).
Proof. exact choices_example. Qed.

Theorem C114_negates : forall w x y z, (forall i, x <> VInt i) -> let alike e e' := calc w e x y z = calc w e' x y z in
  alike (un KNot (op KLa A B)) (op KLo (un KNot A) (un KNot B)) /\
  alike (un KNot (op KLo A B)) (op KLa (un KNot A) (un KNot B)) /\
  exists b, calc w (un KNot (un KNot A)) x y z = Ok (VBool b) /\ (b = false <-> counts_false x).
Proof. exact morgan. Qed.
Print Assumptions C114_negates.
Example C114_negates_example : (forall i, VStr (lit "") <> VInt i) /\ forall w, calc w (un KNot (op KLa A B)) (VStr (lit "")) (VBool false) VNull = Ok (VBool true).
Proof. exact morgan_example. Qed.

Theorem C114_arms : forall w t c a b s, tkind t = KNot -> (forall i s', eval_expr w c s <> (Ok (VInt i), s')) ->
  eval_expr w (EIf (EUn t c) a b) s = eval_expr w (EIf c b a) s.
Proof. exact swap_arms. Qed.
Print Assumptions C114_arms.
Example C114_arms_example : let s := St (Ctx [] [] []) [] in
  (forall i s', eval_expr release (EBool true) s <> (Ok (VInt i), s')) /\
  eval_expr release (EIf (un KNot (EBool true)) [EInt 1] [EInt 2]) s = (Ok (VInt 2), s).
Proof. exact arms_example. Qed.

(** operands cannot be swapped, and an integer is not negated logically *)

Theorem C114_swap_refuted : exists x y, forall w, calc w (op KLa A B) x y VNull <> calc w (op KLa B A) x y VNull.
Proof. exact choices_swap. Qed.
Print Assumptions C114_swap_refuted.
Theorem C114_integer_refuted : exists x y, forall w, calc w (un KNot (op KLa A B)) x y VNull = Ok (VBool false) /\
  calc w (op KLo (un KNot A) (un KNot B)) x y VNull = Ok (VInt (-2)).
Proof. exact morgan_int. Qed.
Print Assumptions C114_integer_refuted.
Theorem C114_arms_refuted : exists c s, forall w, 
  eval_expr w (EIf (un KNot c) [EInt 1] [EInt 2]) s = (Ok (VInt 1), s) /\ eval_expr w (EIf c [EInt 2] [EInt 1]) s = (Ok (VInt 2), s).
Proof. exact arms_int. Qed.
Print Assumptions C114_arms_refuted.
