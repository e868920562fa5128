(** Proofs about the unary operators. *)
From Verif Require Import EvaluatorTop EvalExamples SpecValue SpecSyntax SpecEval SpecFloat64.
From Coq Require Import QArith Lia.
Open Scope Z_scope.

Lemma unary_eval w t e s v s1 : eval_expr w e s = (Ok v, s1) -> eval_expr w (EUn t e) s = (unary_value (e_host w) t v, s1).
Proof. intros E. unfold eval_expr, eval_at in *. cbn [eval]. unfold bind. rewrite E. reflexivity. Qed.
Theorem not_of w e s v s1 : eval_expr w e s = (Ok v, s1) ->
  exists x, eval_expr w (EUn (op KNot "!") e) s = (Ok x, s1) /\
  ((v = VNull \/ v = VBool false) /\ x = VBool true \/ (exists z, v = VInt z /\ x = VInt (- z - 1)) \/
   v <> VNull /\ v <> VBool false /\ (forall z, v <> VInt z) /\ x = VBool false).
Proof.
  intros E. rewrite (unary_eval _ (op KNot "!") _ _ _ _ E). unfold unary_value. cbn [tkind op].
  destruct v as [|z|f|[]|t|l|l]; eexists; (split; [reflexivity|]); try (left; now auto); try (right; right; repeat split; (discriminate || intros; discriminate)).
  right; left. eexists. split; [reflexivity|]. reflexivity.
Qed.
Theorem minus_of w e s v s1 : eval_expr w e s = (Ok v, s1) ->
  (forall z, v = VInt z -> eval_expr w (EUn (op KSub "-") e) s = (unop w KSub (VInt z), s1)) /\
  (forall f, v = VFloat f -> exists g, eval_expr w (EUn (op KSub "-") e) s = (Ok (VFloat g), s1) /\
     (f = S754_nan /\ g = S754_nan \/ f <> S754_nan /\ g <> S754_nan /\ sign_of g = negb (sign_of f)) /\
     (forall x, value_of f = Some x -> exists y, value_of g = Some y /\ (y == - x)%Q) /\ (value_of f = None -> value_of g = None) /\ (binary64 f -> binary64 g)) /\
  ((forall z, v <> VInt z) -> (forall f, v <> VFloat f) ->
     exists er, eval_expr w (EUn (op KSub "-") e) s = (Err er, s1) /\ everr_text (e_host w) er = lit "unknown operator: -" ++ debug_value (e_host w) v).
Proof.
  intros E. rewrite (unary_eval _ (op KSub "-") _ _ _ _ E). unfold unary_value. cbn [tkind op]. split; [|split].
  - intros z ->. reflexivity.
  - intros f ->. eexists. split; [reflexivity|]. destruct f as [s0|s0| |s0 m k]; cbn; split; try (right; repeat split; (discriminate || reflexivity)); auto; split; auto; try discriminate.
    + intros x [= <-]. exists 0%Q. split; reflexivity.
    + intros x [= <-]. eexists. split; [reflexivity|]. unfold scaled. destruct s0; cbn [negb]; unfold inject_Z.
      * setoid_replace (Zpos m # 1)%Q with (- (Zneg m # 1))%Q by reflexivity. ring.
      * setoid_replace (Zneg m # 1)%Q with (- (Zpos m # 1))%Q by reflexivity. ring.
    + split; auto. discriminate.
  - intros NI NF. destruct v; try (exfalso; now eapply NI); try (exfalso; now eapply NF); eexists; (split; [reflexivity|]); reflexivity.
Qed.
Lemma unary_example : forall w, fst (eval_expr w (EUn (op KNot "!") (EInt 5)) (St ctx_new [])) = Ok (VInt (-6)) /\
  fst (eval_expr w (EUn (op KNot "!") (EStr [])) (St ctx_new [])) = Ok (VBool false) /\
  fst (eval_expr w (EUn (op KSub "-") (EFloat (S754_zero false))) (St ctx_new [])) = Ok (VFloat (S754_zero true)) /\
  exists er, fst (eval_expr w (EUn (op KSub "-") (EBool true)) (St ctx_new [])) = Err er /\ everr_text (e_host w) er = lit "unknown operator: -Boolean(true)".
Proof. intros w. repeat split. eexists. split; reflexivity. Qed.
