(** C102 *)
From Verif Require Import Parser SpecReading ReadComplete ReadExamples.
Open Scope N_scope.

(** C102: exactly these sources are accepted ... *)
Theorem C102_accepted : forall text, (exists src, parse text = Ok src) <->
  exists is w, segment text = w ++ [Tok KEof []] /\ reads_items is w.
Proof. exact accepted. Qed.
Print Assumptions C102_accepted.

(** ... with these contents ... *)
Theorem C102_read : forall text src is w, parse text = Ok src -> segment text = w ++ [Tok KEof []] -> reads_items is w ->
  s_exprs src = item_exprs is /\
  (forall n d, mget n (s_requests src) = Some d <-> last_def n (item_requests is) d) /\
  (forall n b, mget n (s_tests src) = Some b <-> last_def n (item_tests is) b).
Proof. exact read_as. Qed.
Print Assumptions C102_read.

(** ... in one way only ... *)
Theorem C102_one_way : forall is is' w, reads_items is w -> reads_items is' w -> is = is'.
Proof. exact one_way. Qed.
Print Assumptions C102_one_way.

(** ... which is one of those the grammar without precedences allows *)
Theorem C102_writings : forall is w, reads_items is w -> syntax_items is w.
Proof. exact reads_writes. Qed.
Print Assumptions C102_writings.

Example C102_let_operand : exists w, segment (lit "1 + let x = 2; * 3") = w ++ [Tok KEof []] /\
  reads_items [IExpr (EBin (op KMul "*") (EBin (op KAdd "+") (EInt 1) (ELet (lit "x") (EInt 2))) (EInt 3))] w.
Proof. exact let_operand_reading. Qed.

Example C102_no_semi : exists w, segment (lit "a; -let x = b; [0] c") = w ++ [Tok KEof []] /\
  reads_items [IExpr (EIdent (lit "a")); IExpr (EIndex (EUn (op KSub "-") (ELet (lit "x") (EIdent (lit "b")))) (EInt 0)); IExpr (EIdent (lit "c"))] w.
Proof. exact no_semi_reading. Qed.

Example C102_unread : ~ exists is w, segment (lit "let x = b; . c") = w ++ [Tok KEof []] /\ reads_items is w.
Proof. exact unread. Qed.
