(** C127 *)
From Verif Require Import EvalExamples AssertExamples VerdictExamples PrintsProofs PrintsExamples ChainProofs ChainExamples SpecProcess SpecChain ProcessExamples.
Open Scope N_scope.

(** C127.  What was found in a response is sent in the next request *)

Theorem C127_run : forall iter w root threads duration number record pod d g vars a ta ca b tb cb t x part p ps ts ma q, definable vars a ta -> definable vars b tb -> a <> b -> Forall well_written ca -> Forall well_written cb -> new_name t -> new_name x -> into p part -> Forall2 turn_written (p :: ps) ts ->
  filled vars ta ma -> (forall v, filled (vars ++ [(x, v)]) ta ma) ->
  read_node (fst root) (snd root) = Some (chain_suite vars a ta ca b tb cb t x (List.concat ts)) -> threads <> 0 ->
  goes g (launch iter w root (Some t) threads duration number record pod d) q -> p_main q = Gone true ->
  (forall id, answered (g_world g id) ma) -> (forall id v mb, filled (vars ++ [(x, v)]) tb mb -> answered (g_world g id) mb) ->
  (forall id tr rs, heard (g_world g id) tr ma rs -> Forall (decidable_for rs) ca /\ exists y u, found rs part ps y /\ part_text y u) ->
  (forall id v mb tr rs, filled (vars ++ [(x, v)]) tb mb -> heard (g_world g id) tr mb rs -> Forall (decidable_for rs) cb) ->
  forall id, id < threads -> exists ls, events_of (Tester id) (p_log q) = links_events ma ls /\ links_rightly (g_world g id) vars ma a ca b tb cb x part ps ls /\
    N.of_nat (length ls) <= share duration number threads /\ (p_flag q = true -> N.of_nat (length ls) = share duration number threads).
Proof. exact chain_run. Qed.
Print Assumptions C127_run.
Theorem C127_missing : forall w s a ta ca x p root ps ma rest, mget a (c_reqs (s_ctx s)) = Some (ta, map expr_of ca) -> Forall well_written ca -> into p root ->
  message_of w (s_ctx s) ta ma -> answered w ma -> (forall rs, heard w (s_trace s) ma rs -> Forall (decidable_for rs) ca /\ (exists d, SpecAssert.part_of rs root d) /\ forall y, ~ found rs root ps y) ->
  (exists e s', eval_block w (ELet x (fold_left access (p :: ps) (ECall a [])) :: rest) s = (Err e, s') /\ s_trace s' = s_trace s ++ [Sent ma]) \/
  exists s', eval_expr w (ELet x (fold_left access (p :: ps) (ECall a []))) s = (Ok VNull, s') /\ shown w (s_ctx s') x = lit "null".
Proof. exact chain_missing. Qed.
Print Assumptions C127_missing.
Example C127_example : definable shop_vars (lit "look") shop_template /\ definable shop_vars (lit "take") (lit "GET http://{host}/{what}") /\ Forall well_written shop_checks /\ Forall well_written name_check /\
  new_name (lit "t") /\ new_name (lit "what") /\
  Forall2 turn_written (Field (lit "json") :: path_turns) [lit ".json"; lit ".items"; lit "[1]"; lit "[""name""]"] /\
  filled shop_vars shop_template shop_message /\ (forall v, filled (shop_vars ++ [(lit "what", v)]) shop_template shop_message) /\
  read_node (fst (at_file chain_text)) (snd (at_file chain_text)) = Some chain_text /\
  goes stock_setting (launch (fun l => l) shelf (at_file chain_text) (Some (lit "t")) 2 None 4 false [] []) chain_end /\ p_main chain_end = Gone true /\ p_flag chain_end = true /\
  (forall id msg, answered (g_world stock_setting id) msg) /\
  (forall id tr msg rs, heard (g_world stock_setting id) tr msg rs -> Forall (decidable_for rs) shop_checks /\ Forall (decidable_for rs) name_check /\
     exists y u, found rs (lit "json") path_turns y /\ part_text y u) /\
  chain_text = lit "let host = ""h"";" ++ [10] ++ lit "request look`GET http://{host}/`[json[""items""][01].name != ""c"", status == 200, json.items[2] >= 1.50]" ++ [10] ++
    lit "request take`GET http://{host}/{what}`[status == 200]" ++ [10] ++ lit "test t { let what = look().json.items[1][""name""]; take() }" /\
  events_of (Tester 1) (p_log chain_end) = [Sent shop_message; Sent take_message; Printed shop_report; Printed take_report; Sent shop_message; Sent take_message; Printed shop_report; Printed take_report].
Proof. exact chain_example. Qed.

Example C127_missing_example : (forall tr msg rs, heard shelf tr msg rs -> (exists d, SpecAssert.part_of rs (lit "json") d) /\ forall y, ~ found rs (lit "json") [Field (lit "items"); SpecAssert.Nth 2] y) /\
  fst (eval_block shelf [ELet (lit "what") (fold_left access [Field (lit "json"); Field (lit "items"); SpecAssert.Nth 2] (ECall (lit "look") [])); EIdent (lit "what")]
    (St (Ctx [] [(lit "look", (shop_message, []))] []) [])) = Ok VNull /\
  (exists e, fst (eval_block shelf [ELet (lit "what") (fold_left access [Field (lit "json"); Field (lit "items"); SpecAssert.Nth 2; Key (lit "name")] (ECall (lit "look") [])); EIdent (lit "what")]
    (St (Ctx [] [(lit "look", (shop_message, []))] []) [])) = Err e).
Proof. exact missing_example. Qed.

