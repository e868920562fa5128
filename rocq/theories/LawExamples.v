(** Cases of the laws of the operators *)
From Verif Require Import EvalExamples ValueExamples FloatLiteral LawProofs SpecLaws.
Open Scope Z_scope.

Lemma groups_example : In KMul [KAdd; KMul; KBx; KBo; KBa] /\
  calc release (op KMul (op KMul A B) C) (VInt 4611686018427387904) (VInt 3) (VInt 3) = Ok (VInt 4611686018427387904) /\
  calc release (op KMul A (op KMul B C)) (VInt 4611686018427387904) (VInt 3) (VInt 3) = Ok (VInt 4611686018427387904).
Proof. repeat apply conj; try reflexivity. cbn; auto. Qed.
Lemma groups_checked : exists a b c, fits a /\ fits b /\ fits c /\ 
  calc debug (op KAdd (op KAdd A B) C) (VInt a) (VInt b) (VInt c) = Panic /\ calc debug (op KAdd A (op KAdd B C)) (VInt a) (VInt b) (VInt c) = Ok (VInt a).
Proof. exists 9223372036854775807, 1, (-1). repeat apply conj; try reflexivity; vm_compute; try discriminate. Qed.

Lemma commutes_example : is_number (VInt 1) /\ is_number (VFloat (f64_of_int 2)) /\ ~ is_number (VStr (lit "a")) /\
  calc release (op KAdd A B) (VStr (lit "a")) (VStr (lit "b")) VNull <> calc release (op KAdd B A) (VStr (lit "a")) (VStr (lit "b")) VNull.
Proof. repeat apply conj; try constructor; intros H; inversion H. Qed.
Lemma floats_group : exists x y z, parse_f64 (lit "0.1") = Some x /\ parse_f64 (lit "0.2") = Some y /\ parse_f64 (lit "0.3") = Some z /\ forall w,
  calc w (op KEq (op KAdd (op KAdd A B) C) (op KAdd A (op KAdd B C))) (VFloat x) (VFloat y) (VFloat z) = Ok (VBool false).
Proof. do 3 eexists. split; [vm_compute; reflexivity|]. split; [vm_compute; reflexivity|]. split; [vm_compute; reflexivity|]. intros w. vm_compute. reflexivity. Qed.
Lemma subtracts_checked : exists a b, fits a /\ fits b /\
  calc debug (op KSub A B) (VInt a) (VInt b) VNull = Ok (VInt 9223372036854775807) /\ calc debug (op KAdd A (un KSub B)) (VInt a) (VInt b) VNull = Panic.
Proof. exists (-1), (-9223372036854775808). repeat apply conj; try reflexivity; vm_compute; discriminate. Qed.
Lemma subtracts_example : fits (-5) /\ 
  calc debug (op KSub A (op KSub B C)) (VInt (-5)) (VInt 7) (VInt 9) = Ok (VInt (-3)) /\ calc debug (op KAdd (op KSub A B) C) (VInt (-5)) (VInt 7) (VInt 9) = Ok (VInt (-3)).
Proof. repeat apply conj; try reflexivity; vm_compute; discriminate. Qed.
Lemma shifts_example : calc debug (op KSl (op KSl A B) C) (VInt 3) (VInt 40) (VInt 23) = Ok (VInt (-9223372036854775808)) /\
  calc debug (op KSl A (op KAdd B C)) (VInt 3) (VInt 40) (VInt 23) = Ok (VInt (-9223372036854775808)).
Proof. split; reflexivity. Qed.
(** past 63 the two differ *)
Lemma shifts_far : exists a b c, 0 <= b < 64 /\ 0 <= c < 64 /\ 
  calc release (op KSl (op KSl A B) C) (VInt a) (VInt b) (VInt c) = Ok (VInt 0) /\ calc release (op KSl A (op KAdd B C)) (VInt a) (VInt b) (VInt c) = Ok (VInt a).
Proof. exists 5, 32, 32. repeat apply conj; try reflexivity; vm_compute; discriminate. Qed.
Lemma choices_example : forall w, calc w (op KLo (op KLa A B) C) (VInt 0) VNull (VStr (lit "c")) = Ok (VStr (lit "c")) /\
  calc w (op KLa A (op KLo B C)) (VInt 0) VNull (VStr (lit "c")) = Ok (VStr (lit "c")).
Proof. intros w. split; reflexivity. Qed.
Lemma choices_swap : exists x y, forall w, calc w (op KLa A B) x y VNull <> calc w (op KLa B A) x y VNull.
Proof. exists (VInt 1), (VInt 2). intros w H. vm_compute in H. discriminate H. Qed.
Lemma morgan_example : (forall i, VStr (lit "") <> VInt i) /\ forall w, calc w (un KNot (op KLa A B)) (VStr (lit "")) (VBool false) VNull = Ok (VBool true).
Proof. split; [discriminate|reflexivity]. Qed.
Lemma morgan_int : exists x y, forall w, calc w (un KNot (op KLa A B)) x y VNull = Ok (VBool false) /\
  calc w (op KLo (un KNot A) (un KNot B)) x y VNull = Ok (VInt (-2)).
Proof. exists (VInt 1), (VBool true). intros w. split; reflexivity. Qed.
Lemma arms_example : let s := St (Ctx [] [] []) [] in
  (forall i s', eval_expr release (EBool true) s <> (Ok (VInt i), s')) /\
  eval_expr release (EIf (un KNot (EBool true)) [EInt 1] [EInt 2]) s = (Ok (VInt 2), s).
Proof. split; [intros i s' H; vm_compute in H; discriminate H|reflexivity]. Qed.
Lemma arms_int : exists c s, forall w, 
  eval_expr w (EIf (un KNot c) [EInt 1] [EInt 2]) s = (Ok (VInt 1), s) /\ eval_expr w (EIf c [EInt 2] [EInt 1]) s = (Ok (VInt 2), s).
Proof. exists (EInt 5), (St (Ctx [] [] []) []). intros w. split; reflexivity. Qed.
Lemma either_example : exists l r q s, tkind (Tok KLo []) = KLo /\ eval_expr release (EBin (Tok KLo []) (EBin (Tok KLo []) l r) q) s = (Ok (VInt 3), St (Ctx [(lit "x", VBool false)] [] []) []).
Proof. exists (ELet (lit "x") (EBool false)), (EInt 3), (EInt 4), (St (Ctx [] [] []) []). split; reflexivity. Qed.
Lemma concat_example : forall w, calc w (op KAdd A (op KAdd B C)) (VStr (lit "a")) (VStr (lit "b")) (VStr (lit "c")) = Ok (VStr (lit "abc")).
Proof. reflexivity. Qed.
(** a number between strings is not turned into text *)
Lemma concat_mixed : exists x y z, forall w, exists e, calc w (op KAdd (op KAdd A B) C) x y z = Err e.
Proof. exists (VStr (lit "a")), (VInt 1), (VStr (lit "b")). intros w. eexists. reflexivity. Qed.
