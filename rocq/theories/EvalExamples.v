(** Concrete scripts *)
From Verif Require Import SpecEval SpecSyntax ValueExamples EvaluatorTop.
Open Scope nat_scope.

(** A network on which every request gets the reply [200 OK] with a header and a JSON body *)
Definition reply : bytes := utf8 (lit "HTTP/1.1 200 OK" ++ [13; 10]%N ++ lit "Server: x" ++ [13; 10; 13; 10]%N ++ lit "{""n"":7}").
Definition up : exchange := Exchange 0 0 (inl 1%N) 3 None 4 5 (Reader reply None) 9 10 11.
Definition online : env := Env (some_host true) (fun _ => true) (fun _ _ => up).

(** Parse and evaluate a script *)
Definition script (w : env) (text : str) : option (res * st) :=
  match parse text with
  | Ok src => Some (eval_block w (s_exprs src) (St (ctx_extend ctx_new (s_requests src)) []))
  | _ => None
  end.
(** what an example looks at: outcome, variables, printed text, number of requests, number of records *)
Definition view (x : option (res * st)) :=
  match x with
  | Some (o, s) => Some (match o with Ok v => Some v | _ => None end, c_vars (s_ctx s), printed (s_trace s), sent (s_trace s), length (c_recs (s_ctx s)))
  | None => None
  end.
Definition asserts_of (x : option (res * st)) :=
  match x with
  | Some (_, s) => map (fun r => map (fun a => (a_expr a, a_left a, a_right a, a_result a)) (r_asserts r)) (c_recs (s_ctx s))
  | None => []
  end.
Definition printed_records (x : option (res * st)) :=
  match x with Some (_, s) => map show_record (c_recs (s_ctx s)) | None => [] end.
Definition sent_messages (x : option (res * st)) :=
  match x with Some (_, s) => flat_map (fun ev => match ev with Sent m => [m] | Printed _ => [] end) (s_trace s) | None => [] end.

Definition request_get : str := lit "request get`GET http://{host}/`[status == 200, version == host, (status == 1), status, get() == 1, json.n >= 7]".

Definition empty_state : st := St ctx_new [].
Lemma offline_passes : exists e s', eval_block debug [ECall (lit "get") []] (St (Ctx [] [(lit "get", (lit "GET http://h/", [e]))] []) []) = s' /\
  match s' with
  | (Ok _, s2) => exists r, c_recs (s_ctx s2) = [r] /\ r_error r <> [] /\ r_asserts r = [] /\
      show_record r = lit "=== TEST  get" ++ [10%N] ++ lit "--- PASS  get (0ns)"
  | _ => False end.
Proof.
  exists (EParen (EBin (Tok KEq (lit "==")) (EIdent (lit "status")) (EInt 200))). eexists. split; [reflexivity|].
  vm_compute. eexists. split; [reflexivity|]. split; [discriminate|]. split; reflexivity.
Qed.
