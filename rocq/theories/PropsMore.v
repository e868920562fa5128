(** C64-C67 *)
From Verif Require Import SpecLex SpecEval SpecValid LiteralProofs FloatLiteral ValidProofs ValidEval TestCommand TestProofs EvalExamples ValueExamples.
From Coq Require Import Permutation Lia.
Open Scope N_scope.

(** C64.  [w] only supplies the text of error messages. *)

Theorem C64_integer : forall w l, l <> [] -> Forall digit l ->
  ((Z.of_N (decimal l) < 2 ^ 63)%Z ->
     parse l = Ok (Source [EInt (Z.of_N (decimal l))] [] []) /\
     forall s, eval_expr w (EInt (Z.of_N (decimal l))) s = (Ok (VInt (Z.of_N (decimal l))), s)) /\
  ((2 ^ 63 <= Z.of_N (decimal l))%Z -> exists e, parse l = Err e /\ perr_text e = lit "parse integer error: " ++ l).
Proof. exact integer_literal. Qed.
Print Assumptions C64_integer.
Theorem C64_float : forall w a b, a <> [] -> Forall digit a -> Forall digit b -> exists f,
  (forall f', float_literal (a ++ 46 :: b) f' <-> f' = f) /\
  parse (a ++ 46 :: b) = Ok (Source [EFloat f] [] []) /\
  forall s, eval_expr w (EFloat f) s = (Ok (VFloat f), s).
Proof. exact float_literal_source. Qed.
Print Assumptions C64_float.
Theorem C64_two_dots : forall a b c, a <> [] -> Forall digit a -> Forall (fun x => digit x \/ x = 46) b -> Forall (fun x => digit x \/ x = 46) c ->
  exists e, parse (a ++ 46 :: b ++ 46 :: c) = Err e /\ perr_text e = lit "parse float error: " ++ a ++ 46 :: b ++ 46 :: c.
Proof. exact two_dots. Qed.
Print Assumptions C64_two_dots.
Theorem C64_string : forall w s, ~ In 34 s ->
  parse (34 :: s ++ [34]) = Ok (Source [EStr s] [] []) /\ forall st, eval_expr w (EStr s) st = (Ok (VStr s), st).
Proof. exact string_literal. Qed.
Print Assumptions C64_string.
Example C64_example : parse (lit "9223372036854775807") = Ok (Source [EInt 9223372036854775807] [] []) /\
  parse (lit "9223372036854775808") = Err (EBadInt (lit "9223372036854775808")) /\
  parse (lit "0.5") = Ok (Source [EFloat (S754_finite false 4503599627370496 (-53))] [] []) /\
  parse (lit "1.2.3") = Err (EBadFloat (lit "1.2.3")) /\ decimal (lit "007") = 7 /\
  parse (34 :: lit "a b" ++ [34]) = Ok (Source [EStr (lit "a b")] [] []).
Proof. vm_compute. repeat split. Qed.

(** C65.  [start_valid] is the state every program starts in, [extend_valid] is
    loading a source; evaluation keeps it up. *)

Theorem C65_expression : forall w e s o s', valid_state s -> read_from_text e -> eval_expr w e s = (o, s') ->
  valid_state s' /\ forall v, o = Ok v -> valid v.
Proof. exact values_valid. Qed.
Print Assumptions C65_expression.
Theorem C65_block : forall w es s o s', valid_state s -> (forall e, In e es -> read_from_text e) ->
  eval_block w es s = (o, s') -> valid_state s' /\ forall v, o = Ok v -> valid v.
Proof. exact block_valid. Qed.
Print Assumptions C65_block.
Theorem C65_source : forall text src s, scalars text -> parse text = Ok src -> valid_state s ->
  valid_state (upd (fun c => ctx_extend c (s_requests src)) s).
Proof. exact extend_valid. Qed.
Print Assumptions C65_source.
Theorem C65_start : valid_state (St ctx_new []).
Proof. exact start_valid. Qed.
Print Assumptions C65_start.
Theorem C65_parts : forall v, valid v ->
  (forall l x, v = VArr l -> In x l -> valid x) /\
  (forall l, v = VMap l -> NoDup (map fst l) /\ forall k x, In (k, x) l -> scalars k /\ valid x) /\ unique_keys v.
Proof. exact sub_valid. Qed.
Print Assumptions C65_parts.
Example C65_example : read_from_text (EInt 7) /\ valid (VMap [(lit "a", VArr [VInt 1; VStr (lit "b")])]) /\
  ~ valid (VInt (2 ^ 63)) /\ ~ valid (VMap [(lit "a", VNull); (lit "a", VNull)]) /\ ~ valid (VStr [0xD800]).
Proof.
  split; [|split; [|split; [|split]]].
  - exists (lit "7"), (Source [EInt 7] [] []). split; [repeat constructor|]. split; [vm_compute; reflexivity|]. left. now left.
  - cbn. repeat constructor; cbn; try lia; try tauto; unfold fits; lia.
  - cbn. unfold fits. lia.
  - cbn. intros [H _]. inversion H as [|? ? N _]; subst. apply N. now left.
  - cbn. intros H. inversion H as [|? ? S _]; subst. vm_compute in S. congruence.
Qed.

(** C66.  The first component of [main_test] is the list of threads started; None
    means that the command returned before starting any, the statistics thread
    included. *)

Theorem C66_bad_source : forall (iter : list (str * list expr) -> list (str * list expr)) (w : env) (text : str) (threads : N) (duration : option N) (number : N) (pod : option str) name e, parse text = Err e ->
    exists s, main_test iter w text name threads duration number pod = (Ok None, s) /\ s_trace s = [Printed (perr_text e ++ [10])].
Proof. exact bad_source. Qed.
Print Assumptions C66_bad_source.

Theorem C66_bad_setup : forall (iter : list (str * list expr) -> list (str * list expr)) (w : env) (text : str) (threads : N) (duration : option N) (number : N) (pod : option str) name src e s1, parse text = Ok src -> eval_block w (s_exprs src) (St (Ctx [] (mextend [] (s_requests src)) []) []) = (Err e, s1) ->
    exists s, main_test iter w text name threads duration number pod = (Ok None, s) /\ s_trace s = s_trace s1 ++ [Printed (everr_text (e_host w) e ++ [10])].
Proof. exact bad_setup. Qed.
Print Assumptions C66_bad_setup.

Theorem C66_lost_source : forall (iter : list (str * list expr) -> list (str * list expr)) (w : env) (text : str) (threads : N) (duration : option N) (number : N) (pod : option str) name, parse text = Diverge -> fst (main_test iter w text name threads duration number pod) = Diverge.
Proof. exact lost_source. Qed.
Print Assumptions C66_lost_source.

Theorem C66_lost_setup : forall (iter : list (str * list expr) -> list (str * list expr)) (w : env) (text : str) (threads : N) (duration : option N) (number : N) (pod : option str) name src o s1, parse text = Ok src -> eval_block w (s_exprs src) (St (Ctx [] (mextend [] (s_requests src)) []) []) = (o, s1) ->
    (o = Panic -> main_test iter w text name threads duration number pod = (Panic, s1)) /\ (o = Diverge -> main_test iter w text name threads duration number pod = (Diverge, s1)).
Proof. exact lost_setup. Qed.
Print Assumptions C66_lost_setup.

Theorem C66_unknown_test : forall (iter : list (str * list expr) -> list (str * list expr)) (w : env) (text : str) (threads : N) (duration : option N) (number : N) (pod : option str) name src v s1, parse text = Ok src -> eval_block w (s_exprs src) (St (Ctx [] (mextend [] (s_requests src)) []) []) = (Ok v, s1) ->
    mget name (s_tests src) = None ->
    exists s, main_test iter w text (Some name) threads duration number pod = (Ok (Some []), s) /\ s_trace s = s_trace s1 ++ [Printed (lit "Test not found: " ++ name ++ [10])].
Proof. exact unknown_test. Qed.
Print Assumptions C66_unknown_test.

Theorem C66_named : forall (iter : list (str * list expr) -> list (str * list expr)) (w : env) (text : str) (threads : N) (duration : option N) (number : N) (pod : option str) name body src v s1, parse text = Ok src -> eval_block w (s_exprs src) (St (Ctx [] (mextend [] (s_requests src)) []) []) = (Ok v, s1) ->
    mget name (s_tests src) = Some body ->
    (threads = 0 -> main_test iter w text (Some name) threads duration number pod = (Panic, s1)) /\
    (threads <> 0 -> exists js, main_test iter w text (Some name) threads duration number pod = (Ok (Some js), s1) /\ map j_thread js = indices (N.to_nat threads) /\
       (forall j, In j js -> j_name j = name /\ j_body j = body /\ starts_like (s_ctx s1) j /\
          j_limit j = Some (match duration with Some _ => 4294967295 | None => number end / threads) /\
          j_file j = match pod with Some p => Some (file_name p (j_thread j)) | None => None end) /\
       (pod <> None -> NoDup (map j_file js))).
Proof. exact named_test. Qed.
Print Assumptions C66_named.

Theorem C66_all : forall (iter : list (str * list expr) -> list (str * list expr)) (w : env) (text : str) (threads : N) (duration : option N) (number : N) (pod : option str) src v s1, parse text = Ok src -> eval_block w (s_exprs src) (St (Ctx [] (mextend [] (s_requests src)) []) []) = (Ok v, s1) ->
    (forall l, Permutation (iter l) l) -> N.of_nat (length (s_tests src)) <= 2 ^ 32 ->
    exists js, main_test iter w text None threads duration number pod = (Ok (Some js), s1) /\ map j_thread js = indices (length (s_tests src)) /\
      Permutation (map (fun j => (j_name j, j_body j)) js) (s_tests src) /\
      (forall j, In j js -> starts_like (s_ctx s1) j /\ j_limit j = None /\
         j_file j = match pod with Some p => Some (file_name p (j_thread j)) | None => None end) /\
      (pod <> None -> NoDup (map j_file js)).
Proof. exact all_tests. Qed.
Print Assumptions C66_all.

Example C66_example : exists s1 s2,
  main_test (fun l => l) debug (lit "let a = 1; test t { a }") (Some (lit "t")) 2 None 5 (Some (lit "p")) =
    (Ok (Some [Job 0 (Some (lit "p000000")) (lit "t") [EIdent (lit "a")] (Some 2) (Ctx [(lit "a", VInt 1)] [] []);
               Job 1 (Some (lit "p000001")) (lit "t") [EIdent (lit "a")] (Some 2) (Ctx [(lit "a", VInt 1)] [] [])]), s1) /\
  main_test (fun l => l) debug (lit "let a = 1; test t { a }") (Some (lit "u")) 2 None 5 None = (Ok (Some []), s2) /\
  s_trace s2 = [Printed (lit "Test not found: u" ++ [10])].
Proof. do 2 eexists. split; [vm_compute; reflexivity|]. split; vm_compute; reflexivity. Qed.

(** C67 *)

Theorem C67_distinct : forall pod a b, file_name pod a = file_name pod b -> a = b.
Proof. exact file_name_inj. Qed.
Print Assumptions C67_distinct.
Theorem C67_ordered : forall pod a b, a < 1000000 -> b < 1000000 -> str_cmp (file_name pod a) (file_name pod b) = N.compare a b.
Proof. exact file_name_order. Qed.
Print Assumptions C67_ordered.
Theorem C67_digits : forall pod n, exists ds, file_name pod n = pod ++ ds /\ Forall digit ds /\ decimal ds = n /\ (length ds >= 6)%nat /\ (n < 1000000 -> length ds = 6%nat).
Proof. exact file_name_digits. Qed.
Print Assumptions C67_digits.
Theorem C67_started : forall iter w text name threads duration number p js s, (forall l, Permutation (iter l) l) -> (forall src, parse text = Ok src -> N.of_nat (length (s_tests src)) <= 2 ^ 32) ->
  main_test iter w text name threads duration number (Some p) = (Ok (Some js), s) ->
  NoDup (map j_file js) /\ Forall (fun j => j_file j = Some (file_name p (j_thread j))) js.
Proof. exact started_files. Qed.
Print Assumptions C67_started.
Example C67_example : file_name (lit "pod-") 12 = lit "pod-000012" /\ str_cmp (file_name [] 9) (file_name [] 10) = Lt /\ file_name [] 1234567 = lit "1234567".
Proof. vm_compute. repeat split. Qed.

