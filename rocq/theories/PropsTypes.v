(** C119 *)
From Verif Require Import EvalExamples TypesProofs TypesExamples SpecEval SpecSafe SpecRun SpecTypes.
Open Scope nat_scope.

(** C119.  Programs whose operands surely have the right types *)

Theorem C119_sound : forall w reqs G es T G' s, typed_block reqs G [TNull] es T G' -> (forall n, mget n (c_reqs (s_ctx s)) = mget n reqs) -> true_of G (c_vars (s_ctx s)) ->
  match eval_block w es s with
  | (Ok v, s') => has T v /\ true_of G' (c_vars (s_ctx s'))
  | (Err _, _) => False
  | _ => True
  end.
Proof. exact typed_never_errs. Qed.
Print Assumptions C119_sound.
Theorem C119_runs : forall w reqs G es T G' s, typed_block reqs G [TNull] es T G' -> (forall n, mget n (c_reqs (s_ctx s)) = mget n reqs) -> true_of G (c_vars (s_ctx s)) ->
  steady w -> readable_bodies w -> Forall (no_risk (h_checks (e_host w))) es -> no_risk_requests (h_checks (e_host w)) s ->
  exists v s', eval_block w es s = (Ok v, s') /\ has T v /\ true_of G' (c_vars (s_ctx s')).
Proof. exact typed_runs. Qed.
Print Assumptions C119_runs.
Theorem C119_repeats : forall w reqs G body T G' c, typed_block reqs G [TNull] body T G' -> weaker G G' -> (forall n, mget n (c_reqs c) = mget n reqs) -> true_of G (c_vars c) ->
  steady w -> readable_bodies w -> Forall (no_risk (h_checks (e_host w))) body -> no_risk_requests (h_checks (e_host w)) (St c []) ->
  never_fails w body c.
Proof. exact typed_repeats. Qed.
Print Assumptions C119_repeats.
Theorem C119_suite : forall w text src T G, parse text = Ok src -> typed_block (s_requests src) unknown [TNull] (s_exprs src) T G ->
  steady w -> readable_bodies w -> Forall (no_risk (h_checks (e_host w))) (s_exprs src) ->
  (forall n template asserts e, mget n (s_requests src) = Some (template, asserts) -> In e asserts -> no_risk (h_checks (e_host w)) e) ->
  (forall n body, In (n, body) (s_tests src) -> Forall (no_risk (h_checks (e_host w))) body /\ exists U G', typed_block (s_requests src) G [TNull] body U G') ->
  exists c s, test_setup w text = (Ok (Some (s_tests src, c)), s) /\
    forall n body v, In (n, body) (s_tests src) -> steady v -> readable_bodies v -> h_checks (e_host v) = h_checks (e_host w) ->
      (exists x s1, eval_block v body (St (Ctx (c_vars c) (c_reqs c) []) []) = (Ok x, s1)) /\
      (forall U G', typed_block (s_requests src) G [TNull] body U G' -> weaker G G' -> never_fails v body c).
Proof. exact typed_suite. Qed.
Print Assumptions C119_suite.
Theorem C119_json_refuted : exists w es reqs s e, steady w /\ readable_bodies w /\ typed_block reqs unknown [TNull] [ELet (lit "r") (ECall (lit "get") [])] [TAnswer] (with_var (lit "r") [TAnswer] unknown) /\
  es = [ELet (lit "r") (ECall (lit "get") []); EField (EField (EIdent (lit "r")) (lit "json")) (lit "n")] /\ c_reqs (s_ctx s) = reqs /\
  Forall (no_risk (h_checks (e_host w))) es /\ no_risk_requests (h_checks (e_host w)) s /\ fst (eval_block w es s) = Err e.
Proof. exact json_missing. Qed.
Print Assumptions C119_json_refuted.
Example C119_suite_example : parse suite_text = Ok suite_source /\ typed_block (s_requests suite_source) unknown [TNull] (s_exprs suite_source) [TStr] after_setup /\
  typed_block (s_requests suite_source) after_setup [TNull] suite_body [TInt] with_n /\ weaker after_setup with_n /\
  steady online /\ readable_bodies online /\ h_checks (e_host online) = true /\ Forall (no_risk true) (s_exprs suite_source) /\ Forall (no_risk true) suite_body.
Proof. exact suite_example. Qed.

Example C119_harmless_example : Forall (no_risk true) (s_exprs suite_source) /\ Forall (no_risk true) suite_body /\
  (forall n template asserts e, mget n suite_requests = Some (template, asserts) -> In e asserts -> no_risk true e).
Proof. exact suite_harmless. Qed.

