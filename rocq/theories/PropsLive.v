(** C115 *)
From Verif Require Import EvalExamples ValueExamples RunProofs LiveProofs LiveExamples SpecEval SpecLive.
Open Scope Z_scope.

(** C115.  Only the variables read before they are set matter *)

Theorem C115_block : forall w es s1 s2, same_future w (s_trace s1) (s_trace s2) -> c_reqs (s_ctx s1) = c_reqs (s_ctx s2) ->
  (forall n, needs_block (c_reqs (s_ctx s1)) es n -> mget n (c_vars (s_ctx s1)) = mget n (c_vars (s_ctx s2))) ->
  exists o tr recs v1 v2,
    eval_block w es s1 = (o, St (Ctx v1 (c_reqs (s_ctx s1)) (c_recs (s_ctx s1) ++ recs)) (s_trace s1 ++ tr)) /\
    eval_block w es s2 = (o, St (Ctx v2 (c_reqs (s_ctx s2)) (c_recs (s_ctx s2) ++ recs)) (s_trace s2 ++ tr)) /\
    moved_alike (c_vars (s_ctx s1)) v1 (c_vars (s_ctx s2)) v2 /\
    (forall v n, o = Ok v -> In n (flat_map sure es) -> mget n v1 = mget n v2).
Proof. exact live_block. Qed.
Print Assumptions C115_block.
Example C115_branch_example : let es := [EIf (EIdent (lit "c")) [ELet (lit "a") (EInt 1)] []; EIdent (lit "a")] in
  needs_block [] es (lit "a") /\
  fst (eval_block online es (St (Ctx [(lit "c", VBool false); (lit "a", VInt 5)] [] []) [])) = Ok (VInt 5).
Proof. exact branch_example. Qed.

Theorem C115_closed : forall w es s1 s2, s_trace s1 = s_trace s2 -> c_reqs (s_ctx s1) = c_reqs (s_ctx s2) -> (forall n, ~ needs_block (c_reqs (s_ctx s1)) es n) ->
  exists o tr recs v1 v2,
    eval_block w es s1 = (o, St (Ctx v1 (c_reqs (s_ctx s1)) (c_recs (s_ctx s1) ++ recs)) (s_trace s1 ++ tr)) /\
    eval_block w es s2 = (o, St (Ctx v2 (c_reqs (s_ctx s2)) (c_recs (s_ctx s2) ++ recs)) (s_trace s2 ++ tr)).
Proof. exact closed_block. Qed.
Print Assumptions C115_closed.
Example C115_closed_example : let es := [ELet (lit "a") (EInt 1); EBin (Tok KAdd (lit "+")) (EIdent (lit "a")) (ELet (lit "b") (EInt 2))] in
  (forall n, ~ needs_block [] es n) /\ flat_map sure es = [lit "a"; lit "b"] /\
  fst (eval_block online es (St ctx_new [])) = Ok (VInt 3) /\ fst (eval_block online es (St (Ctx [(lit "a", VInt 9)] [] []) [])) = Ok (VInt 3).
Proof. exact live_example. Qed.

(** what earlier iterations leave behind *)

Theorem C115_fresh : forall w body c k s bs, carries_nothing (c_reqs c) body -> iterated w body c k s bs ->
  exists o tr recs v1 v2,
    eval_block w body s = (o, St (Ctx v1 (c_reqs c) recs) (s_trace s ++ tr)) /\
    eval_block w body (St (Ctx (c_vars c) (c_reqs c) []) (s_trace s)) = (o, St (Ctx v2 (c_reqs c) recs) (s_trace s ++ tr)).
Proof. exact iteration_fresh. Qed.
Print Assumptions C115_fresh.
Theorem C115_iterations : forall w body c, carries_nothing (c_reqs c) body -> memoryless w ->
  forall o s0, eval_block w body (St (Ctx (c_vars c) (c_reqs c) []) []) = (o, s0) -> forall k s bs, iterated w body c k s bs ->
  bs = repeat (c_recs (s_ctx s0)) (N.to_nat k) /\
  exists s1, eval_block w body s = (o, s1) /\ c_recs (s_ctx s1) = c_recs (s_ctx s0) /\ s_trace s1 = s_trace s ++ s_trace s0.
Proof. exact iterations_same. Qed.
Print Assumptions C115_iterations.
Example C115_example : carries_nothing fetch steady_body /\ memoryless online /\
  exists s bs, iterated online steady_body (Ctx [(lit "n", VInt 7)] fetch []) 2 s bs /\ mget (lit "code") (c_vars (s_ctx s)) = Some (VInt 200) /\ map (@length _) bs = [1; 1]%nat.
Proof. exact steady_example. Qed.

(** a body that reads a variable before setting it is not self-contained, and its iterations differ *)

Example C115_counting : needs_block fetch counting_body (lit "n") /\ In (lit "n") (flat_map let_names counting_body).
Proof. exact counting_needs. Qed.

Theorem C115_counting_refuted : exists w body c s a b, memoryless w /\ iterated w body c 2 s [a; b] /\ map (fun r => u_path (rq_url (r_request r))) a = [lit "/8"] /\ map (fun r => u_path (rq_url (r_request r))) b = [lit "/9"].
Proof. exact counting_differs. Qed.
Print Assumptions C115_counting_refuted.
