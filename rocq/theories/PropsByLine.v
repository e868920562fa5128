(** C117 *)
From Verif Require Import EvalExamples ByLineProofs ByLineExamples SpecEval SpecByLine.
Open Scope N_scope.

(** C117.  Typing a program line by line *)

Theorem C117_typed : forall w ls, unaware w -> Forall (fun l => self_contained (l ++ [10])) ls -> defined_first ls ->
  exists src, parse (one_text ls) = Ok src /\
  forall o s, eval_block w (s_exprs src) (St (ctx_extend ctx_new (s_requests src)) []) = (o, s) -> returns o ->
  exists now later t parts, ls = now ++ later /\ (is_ok o -> later = []) /\ (~ is_ok o -> now <> []) /\
    session w (map Some now) (St ctx_new []) t /\ same_effects s t /\ answered_each parts (s_trace s) (s_trace t) /\ filled now (length parts) /\
    (forall pre l lsrc, now = pre ++ [l] -> parse l = Ok lsrc -> s_exprs lsrc <> [] -> answer w o (last (map snd parts) [])).
Proof. exact line_by_line. Qed.
Print Assumptions C117_typed.
Example C117_example : unaware online /\ Forall (fun l => self_contained (l ++ [10])) five_lines /\ defined_first five_lines /\
  exists e s, script online (one_text five_lines) = Some (Err e, s) /\ map fst (c_vars (s_ctx s)) = [lit "r"] /\ sent_messages (script online (one_text five_lines)) = [lit "GET http://h/"] /\
    printed (s_trace s) = lit "200" ++ [10] /\
    forall t, session online (map Some (firstn 4 five_lines)) (St ctx_new []) t -> map fst (c_vars (s_ctx t)) = [lit "r"] /\
      exists shown, s_trace t = [Printed (lit "null" ++ [10]); Sent (lit "GET http://h/"); Printed shown; Printed (lit "200" ++ [10]); Printed (lit "ident:nothing not found" ++ [10])].
Proof. exact five_example. Qed.

(** without [defined_first] *)

Theorem C117_upside_down_refuted : exists w ls, unaware w /\ Forall (fun l => self_contained (l ++ [10])) ls /\
  (exists v s, script w (one_text ls) = Some (Ok v, s) /\ sent (s_trace s) = 1%nat) /\
  forall t, session w (map Some ls) (St ctx_new []) t -> sent (s_trace t) = 0%nat.
Proof. exact order_matters. Qed.
Print Assumptions C117_upside_down_refuted.
