(** C134 *)
From Verif Require Import EvalExamples NewExamples GrownExamples MovedProofs MovedExamples SpecReading SpecMoved ProcessExamples.
Open Scope N_scope.

(** C134.  The order of files and definitions does not matter *)

Theorem C134_source : forall iter iter' w root root' text text' src src' name threads duration number record pod d g p, parse text = Ok src -> parse text' = Ok src' -> alike src src' ->
  read_node (fst root) (snd root) = Some text -> read_node (fst root') (snd root') = Some text' -> (name = None -> iter' (s_tests src') = iter (s_tests src)) ->
  goes g (launch iter w root name threads duration number record pod d) p -> exists p', goes g (launch iter' w root' name threads duration number record pod d) p' /\ looks_like p p'.
Proof. exact alike_run. Qed.
Print Assumptions C134_source.
Theorem C134_tests : forall text text' src src', parse text = Ok src -> parse text' = Ok src' -> alike src src' -> Permutation (s_tests src) (s_tests src') /\ Permutation (s_requests src) (s_requests src').
Proof. exact alike_tests. Qed.
Print Assumptions C134_tests.
Theorem C134_files : forall files files', moved files files' -> Forall self_contained files -> Forall self_contained files' /\
  exists src src', parse (List.concat files) = Ok src /\ parse (List.concat files') = Ok src' /\ alike src src'.
Proof. exact files_moved. Qed.
Print Assumptions C134_files.
Theorem C134_any_order : forall l m, Permutation l m -> ForallOrdPairs independent l -> moved l m.
Proof. exact permuted_moved. Qed.
Print Assumptions C134_any_order.
Theorem C134_run : forall iter iter' w root root' files files' name threads duration number record pod d g p, moved files files' -> Forall self_contained files ->
  read_node (fst root) (snd root) = Some (List.concat files) -> read_node (fst root') (snd root') = Some (List.concat files') ->
  (forall src src', parse (List.concat files) = Ok src -> parse (List.concat files') = Ok src' -> name = None -> iter' (s_tests src') = iter (s_tests src)) ->
  goes g (launch iter w root name threads duration number record pod d) p -> exists p', goes g (launch iter' w root' name threads duration number record pod d) p' /\ looks_like p p'.
Proof. exact moved_run. Qed.
Print Assumptions C134_run.
Theorem C134_definitions : forall text text' src src' is is' w w', parse text = Ok src -> parse text' = Ok src' ->
  segment text = w ++ [Tok KEof []] -> reads_items is w -> segment text' = w' ++ [Tok KEof []] -> reads_items is' w' ->
  item_exprs is' = item_exprs is -> Permutation (item_requests is) (item_requests is') -> NoDup (map fst (item_requests is)) ->
  Permutation (item_tests is) (item_tests is') -> NoDup (map fst (item_tests is)) -> alike src src'.
Proof. exact items_alike. Qed.
Print Assumptions C134_definitions.
Example C134_example : Forall self_contained [let_file; request_file; test_file] /\ ForallOrdPairs independent [let_file; request_file; test_file] /\
  Permutation [let_file; request_file; test_file] [test_file; let_file; request_file] /\
  (let root := three let_file request_file test_file in read_node (fst root) (snd root) = Some (List.concat [let_file; request_file; test_file])) /\
  (let root := three test_file let_file request_file in read_node (fst root) (snd root) = Some (List.concat [test_file; let_file; request_file])) /\
  goes quiet (three_launch (three let_file request_file test_file)) (three_done (three let_file request_file test_file)) /\ p_main (three_done (three let_file request_file test_file)) = Gone true /\
  hd_error (p_log (three_done (three let_file request_file test_file))) = Some (Tester 0, Sent (lit "GET http://x/")).
Proof. exact moved_example. Qed.

Example C134_definitions_example : exists src src' w w', parse order_a = Ok src /\ parse order_b = Ok src' /\
  segment order_a = w ++ [Tok KEof []] /\ reads_items [r_item; t_item; q_item] w /\ segment order_b = w' ++ [Tok KEof []] /\ reads_items [q_item; r_item; t_item] w' /\
  item_exprs [q_item; r_item; t_item] = item_exprs [r_item; t_item; q_item] /\ Permutation (item_requests [r_item; t_item; q_item]) (item_requests [q_item; r_item; t_item]) /\
  NoDup (map fst (item_requests [r_item; t_item; q_item])) /\ Permutation (item_tests [r_item; t_item; q_item]) (item_tests [q_item; r_item; t_item]) /\ NoDup (map fst (item_tests [r_item; t_item; q_item])) /\
  s_requests src <> s_requests src'.
Proof. exact definitions_example. Qed.

Theorem C134_same_name_refuted : exists a b c, Forall self_contained [a; b] /\
  let run root := launch (fun l => l) online root (Some (lit "t")) 1 None 1 false [] [] in
  exists p p', goes quiet (run (three a b c)) p /\ p_main p = Gone true /\ p_flag p = true /\ goes quiet (run (three b a c)) p' /\ p_main p' = Gone true /\ p_flag p' = true /\
  In (Tester 0, Sent (lit "GET http://y/")) (p_log p) /\ In (Tester 0, Sent (lit "GET http://x/")) (p_log p').
Proof. exact same_name_matters. Qed.
Print Assumptions C134_same_name_refuted.
