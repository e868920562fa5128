(** Evaluation when a map may be shown with its entries in any order, a new
    one each time.  Every HashMap of Rust has a seed of its own, from which the order
    of its entries follows, so what the program can do is among what is allowed here;
    Evaluator.v fixes one order for the whole run (Syntax.v, [host]).
    value.rs:24-36, evaluator.rs:12-248, response.rs:66-88, command.rs:32-47 *)
From Verif Require Export Command.
From Coq Require Export Permutation.
Open Scope Z_scope.

(** value.rs:16 (Debug); [plain] as in [host] *)
Inductive debug_any (plain : char -> bool) : value -> str -> Prop :=
| da_null : debug_any plain VNull (lit "Null")
| da_int z : debug_any plain (VInt z) (lit "Integer(" ++ show_Z z ++ lit ")")
| da_float f : debug_any plain (VFloat f) (lit "Float(" ++ debug_f64 f ++ lit ")")
| da_bool b : debug_any plain (VBool b) (lit "Boolean(" ++ show_bool b ++ lit ")")
| da_str s : debug_any plain (VStr s) (lit "String(" ++ debug_str plain s ++ lit ")")
| da_arr l ts : Forall2 (debug_any plain) l ts -> debug_any plain (VArr l) (lit "Array([" ++ join (lit ", ") ts ++ lit "])")
| da_map m ks ts : Permutation ks (map fst m) ->
    Forall2 (fun k t => exists v u, mget k m = Some v /\ debug_any plain v u /\ t = debug_str plain k ++ lit ": " ++ u) ks ts ->
    debug_any plain (VMap m) (lit "Map({" ++ join (lit ", ") ts ++ lit "})").

(** value.rs:27-39 (Display) *)
Inductive show_any (plain : char -> bool) : value -> str -> Prop :=
| sa_null : show_any plain VNull (lit "null")
| sa_int z : show_any plain (VInt z) (show_Z z)
| sa_float f : show_any plain (VFloat f) (show_f64 f)
| sa_bool b : show_any plain (VBool b) (show_bool b)
| sa_str s : show_any plain (VStr s) s
| sa_arr l ts : Forall2 (debug_any plain) l ts -> show_any plain (VArr l) (lit "[" ++ join (lit ", ") ts ++ lit "]")
| sa_map m ks ts : Permutation ks (map fst m) ->
    Forall2 (fun k t => exists v u, mget k m = Some v /\ debug_any plain v u /\ t = debug_str plain k ++ lit ": " ++ u) ks ts ->
    show_any plain (VMap m) (lit "{" ++ join (lit ", ") ts ++ lit "}").

(** A value made into text: to be part of a value or of a message, or only to be
    printed or recorded; value.rs:27-39 *)
Inductive shown := ToKeep (v : value) | ToRead (v : value).
(** A step that may go several ways: the state before, the values shown on the way,
    the outcome and the state after; evaluator.rs:12 *)
Definition may A := st -> list shown -> out everr A -> st -> Prop.
(** evaluator.rs:12 *)
Definition may_do {A} (m : evm A) : may A := fun s log o s' => log = [] /\ m s = (o, s').
(** the ? operator; evaluator.rs:109 *)
Definition may_bind {A B} (m : may A) (k : A -> may B) : may B := fun s log o s' =>
  (exists a s1 l1 l2, m s l1 (Ok a) s1 /\ k a s1 l2 o s' /\ log = l1 ++ l2) \/
  match o with
  | Ok _ => False
  | Err e => m s log (Err e) s'
  | Panic => m s log Panic s'
  | Diverge => m s log Diverge s'
  end.
(** to_string; value.rs:27-39 *)
Definition may_show (h : host) (k : value -> shown) (v : value) : may str := fun s log o s' =>
  log = [k v] /\ s' = s /\ exists t, show_any (h_plain h) v t /\ o = Ok t.
(** one after the other; native.rs:36-38, evaluator.rs:175-181 *)
Fixpoint may_texts (h : host) (k : value -> shown) (vs : list value) : may (list str) :=
  match vs with
  | [] => may_do (ret [])
  | v :: vs' => may_bind (may_show h k v) (fun t => may_bind (may_texts h k vs') (fun ts => may_do (ret (t :: ts))))
  end.

(** evaluator.rs:62-85 *)
Definition may_index (h : host) (v i : value) : may value :=
  match v, i with
  | VMap pairs, key =>
      may_bind (may_show h ToKeep key) (fun t => may_do (ret (match mget t pairs with Some x => x | None => VNull end)))
  | _, _ => may_do (lift (index_value h v i))
  end.

(** evaluator.rs:12-30, as [eval] *)
Section Eval.
  Variable h : host.
  Variable call : str -> list value -> may value.

  Fixpoint may_eval (e : expr) : may value :=
    let may_list := fix may_list (es : list expr) : may (list value) :=   (* 242-248 *)
      match es with
      | [] => may_do (ret [])
      | e :: es' => may_bind (may_eval e) (fun v => may_bind (may_list es') (fun vs => may_do (ret (v :: vs))))
      end in
    let may_block := fix may_block (last : value) (es : list expr) : may value :=   (* 234-240 *)
      match es with
      | [] => may_do (ret last)
      | e :: es' => may_bind (may_eval e) (fun v => may_block v es')
      end in
    let may_pairs := fix may_pairs (m : amap value) (ps : list (expr * expr)) : may (amap value) :=   (* 52-60 *)
      match ps with
      | [] => may_do (ret m)
      | (k, v) :: ps' =>
          may_bind (may_eval k) (fun kv => may_bind (may_eval v) (fun vv =>
            may_bind (may_show h ToKeep kv) (fun t => may_pairs (mset t vv m) ps')))
      end in
    match e with
    | EInt z => may_do (ret (VInt z))
    | EFloat f => may_do (ret (VFloat f))
    | EBool b => may_do (ret (VBool b))
    | EStr s => may_do (ret (VStr s))
    | EArr items => may_bind (may_list items) (fun vs => may_do (ret (VArr vs)))
    | EMap pairs => may_bind (may_pairs [] pairs) (fun m => may_do (ret (VMap m)))
    | EIndex v i => may_bind (may_eval v) (fun vv => may_bind (may_eval i) (fun iv => may_index h vv iv))
    | EField m f => may_bind (may_eval m) (fun mv => may_do (lift (field_value mv f)))
    | EIdent n => may_do (fun s =>
        match ctx_get (s_ctx s) n with
        | Some v => (Ok v, s)
        | None => (Err (EIdentNotFound n), s)
        end)
    | ELet n e => may_bind (may_eval e) (fun v => may_do (fun s => (Ok v, upd (fun c => ctx_set c n v) s)))
    | EUn t r => may_bind (may_eval r) (fun v => may_do (lift (unary_value h t v)))
    | EBin t l r =>
        match strict_op h (tkind t) with
        | Some f => may_bind (may_eval l) (fun lv => may_bind (may_eval r) (fun rv => may_do (lift (f lv rv))))
        | None =>
            match tkind t with
            | KLo => may_bind (may_eval l) (fun lv => if falsy lv then may_eval r else may_do (ret lv))
            | KLa => may_bind (may_eval l) (fun lv => if falsy lv then may_do (ret lv) else may_eval r)
            | _ => may_do (lift (Err (EBinaryUnsupported t l r)))
            end
        end
    | EParen e => may_eval e
    | EIf c cs alt =>
        may_bind (may_eval c) (fun cv => if falsy cv then may_block VNull alt else may_block VNull cs)
    | ECall n args => may_bind (may_list args) (fun vs => call n vs)
    end.

  (** evaluator.rs:234-240 *)
  Fixpoint may_exprs (last : value) (es : list expr) : may value :=
    match es with
    | [] => may_do (ret last)
    | e :: es' => may_bind (may_eval e) (fun v => may_exprs v es')
    end.
End Eval.

(** native.rs:23-45 *)
Definition may_format (h : host) (k : value -> shown) (values : list value) : may value :=
  match pop (rev values) with
  | (Some (VStr string), rest) =>
      let ranges := rev (find_iter string) in
      if Nat.eqb (length rest) (length ranges) then
        may_bind (may_texts h k rest) (fun ts =>
          may_do (ret (VStr (fold_left (fun s rt => replace_range s (fst rt) (snd rt)) (combine ranges ts) string))))
      else may_do (lift (Err (EArgCount (length rest) (length ranges))))
  | (None, _) => may_do (lift (Err ENeedParameter))
  | (Some _, _) => may_do (lift (Err EFirstString))
  end.

(** evaluator.rs:223-230, native.rs:3-21 *)
Definition may_native (h : host) (n : str) (args : list value) : may value :=
  if str_eqb n (lit "println") then
    may_bind (may_format h ToRead args) (fun v => may_bind (may_show h ToRead v) (fun t => may_do (fun s => (Ok VNull, emit (Printed (t ++ [10%N])) s))))
  else if str_eqb n (lit "print") then
    may_bind (may_format h ToRead args) (fun v => may_bind (may_show h ToRead v) (fun t => may_do (fun s => (Ok VNull, emit (Printed t) s))))
  else if str_eqb n (lit "format") then may_format h ToKeep args
  else if str_eqb n (lit "length") then may_do (lift (native_length args))
  else if str_eqb n (lit "append") then may_do (lift (native_append args))
  else may_do (lift (Err (EFunctionNotFound n))).

(** evaluator.rs:191-192 *)
Definition may_or_null (m : may value) : may value := fun s log o s' =>
  m s log o s' /\ (forall e, o <> Err e) \/ exists e, m s log (Err e) s' /\ o = Ok VNull.

(** evaluator.rs:186-212 *)
Fixpoint may_asserts (h : host) (ev : expr -> may value) (asserts : list expr) : may (list assertion) :=
  match asserts with
  | [] => may_do (ret [])
  | EBin t l r :: rest =>
      may_bind (may_or_null (ev l)) (fun lv =>
      may_bind (may_or_null (ev r)) (fun rv =>
      may_bind (match compare_op (tkind t) with
                | Some f =>
                    may_bind (may_show h ToRead lv) (fun lt => may_bind (may_show h ToRead rv) (fun rt =>
                    may_do (ret [Assert (show_expr l ++ lit " " ++ tlit t ++ lit " " ++ show_expr r) lt (tlit t) rt (f lv rv)])))
                | None => may_do (ret [])
                end) (fun a =>
      may_bind (may_asserts h ev rest) (fun as_ => may_do (ret (a ++ as_))))))
  | _ :: rest => may_asserts h ev rest
  end.

(** evaluator.rs:168-182 *)
Definition may_message (h : host) (message : str) : may str := fun s =>
  let ranges := rev (find_iter message) in
  may_bind (may_texts h ToKeep (map (fun r => match ctx_get (s_ctx s) (placeholder_name message r) with Some v => v | None => VNull end) ranges))
    (fun ts => may_do (ret (fold_left (fun m rt => replace_range m (fst rt) (snd rt)) (combine ranges ts) message))) s.

(** syntax.rs:33-50 *)
Fixpoint may_json (h : host) (e : expr) : may value :=
  let may_items := fix may_items (es : list expr) : may (list value) :=
    match es with
    | [] => may_do (ret [])
    | e :: es' => may_bind (may_json h e) (fun v => may_bind (may_items es') (fun vs => may_do (ret (v :: vs))))
    end in
  let may_entries := fix may_entries (ps : list (expr * expr)) : may (list (str * value)) :=
    match ps with
    | [] => may_do (ret [])
    | (k, v) :: ps' =>
        may_bind (may_json h k) (fun kv => may_bind (may_show h ToKeep kv) (fun t => may_bind (may_json h v) (fun vv =>
          may_bind (may_entries ps') (fun es => may_do (ret ((t, vv) :: es))))))
    end in
  match e with
  | EInt z => may_do (ret (VInt z))
  | EFloat f => may_do (ret (VFloat f))
  | EBool b => may_do (ret (VBool b))
  | EStr s => may_do (ret (VStr s))
  | EArr items => may_bind (may_items items) (fun vs => may_do (ret (VArr vs)))
  | EMap pairs => may_bind (may_entries pairs) (fun es => may_do (ret (VMap (mextend [] es))))
  | _ => may_do (ret VNull)
  end.

(** response.rs:66-88 *)
Definition may_to_map (h : host) (r : response) : may (amap value) :=
  let m := mset (lit "version") (VStr (rs_version r)) [] in
  let m := mset (lit "status") (VInt (Z.of_N (rs_status r))) m in
  let m := mset (lit "reason") (VStr (rs_reason r)) m in
  let m := mset (lit "headers") (VMap (header_map (rs_headers r))) m in
  let m := mset (lit "body") (VStr (rs_body r)) m in
  match parse (rs_body r) with
  | Ok src =>
      match s_exprs src with
      | e :: _ => may_bind (may_json h e) (fun v => may_do (ret (mset (lit "json") v m)))
      | [] => may_do (ret m)
      end
  | Err _ => may_do (ret m)
  | Panic => may_do (lift Panic)
  | Diverge => may_do (lift Diverge)
  end.

(** evaluator.rs:186-221: the asserts run in a context of their own *)
Definition may_checks (h : host) (ev : expr -> may value) (n : str) (t : time) (rq : request) (rs : response) (error : str)
  (asserts : list expr) (map_ : amap value) : may value := fun s log o s' =>
  exists oa sl, may_asserts h ev asserts (St (ctx_from map_) (s_trace s)) log oa sl /\
    match oa with
    | Ok as_ => o = Ok (VMap (ctx_into_map (s_ctx sl))) /\ s' = St (ctx_push (s_ctx s) (Record_ n t rq rs as_ error)) (s_trace sl)
    | Err e => o = Err e /\ s' = St (s_ctx s) (s_trace sl)
    | Panic => o = Panic /\ s' = St (s_ctx s) (s_trace sl)
    | Diverge => o = Diverge /\ s' = St (s_ctx s) (s_trace sl)
    end.

(** evaluator.rs:166-221 *)
Definition may_request (w : env) (ev : expr -> may value) (n : str) (message : str) (asserts : list expr) : may value :=
  may_bind (may_message (e_host w) message) (fun msg =>
  may_bind (may_do (fun s => (client_send (e_prepare w) (e_net w (s_trace s) msg) msg, emit (Sent msg) s))) (fun x =>
    match x with
    | (rq, rs, t, error) =>
        may_bind (may_to_map (e_host w) rs) (may_checks (e_host w) ev n t rq rs error asserts)
    end)).

(** evaluator.rs:164-232 *)
Fixpoint may_call (w : env) (depth : nat) (n : str) (args : list value) : may value := fun s =>
  match ctx_request (s_ctx s) n with
  | Some (message, asserts) =>
      match depth with
      | O => may_do (lift Diverge) s
      | S d => may_request w (may_eval (e_host w) (may_call w d)) n message asserts s
      end
  | None => may_native (e_host w) n args s
  end.
(** evaluator.rs:234-240 *)
Definition may_run (w : env) (es : list expr) : may value := may_exprs (e_host w) (may_call w 1) VNull es.

(** The text of an error; value.rs:50-152, native.rs:34-72, evaluator.rs:83-229 *)
Definition may_error (h : host) (e : everr) : may str := fun s log o s' =>
  s' = s /\
  match e with
  | ETypeMismatch op l r => log = [ToRead l; ToRead r] /\ exists a b, show_any (h_plain h) l a /\ show_any (h_plain h) r b /\
      o = Ok (lit "type mismatch: " ++ a ++ lit " " ++ op ++ lit " " ++ b)
  | EIndexUnsupported v => log = [ToRead v] /\ exists a, debug_any (h_plain h) v a /\ o = Ok (lit "index operator not support: " ++ a)
  | EFieldUnsupported v => log = [ToRead v] /\ exists a, debug_any (h_plain h) v a /\ o = Ok (lit "field operator not support: " ++ a)
  | EUnaryUnknown t v => log = [ToRead v] /\ exists a, debug_any (h_plain h) v a /\ o = Ok (lit "unknown operator: " ++ tlit t ++ a)
  | ELengthType v => log = [ToRead v] /\ exists a, debug_any (h_plain h) v a /\ o = Ok (lit "function length not supported type " ++ a)
  | _ => log = [] /\ o = Ok (everr_text h e)
  end.

(** the text printed for the value or the error of an evaluation; command.rs:37-43 *)
Definition may_then (m : may value) (ok : value -> may str) (err : everr -> may str) : may unit := fun s log o s' =>
  (exists v s1 l1 l2 t, m s l1 (Ok v) s1 /\ ok v s1 l2 (Ok t) s1 /\ log = l1 ++ l2 /\ o = Ok tt /\ s' = println_ t s1) \/
  (exists e s1 l1 l2 t, m s l1 (Err e) s1 /\ err e s1 l2 (Ok t) s1 /\ log = l1 ++ l2 /\ o = Ok tt /\ s' = println_ t s1) \/
  (m s log Panic s' /\ o = Panic) \/ (m s log Diverge s' /\ o = Diverge).

(** command.rs:32-47 *)
Definition may_command (w : env) (text : str) : may unit := fun s =>
  match parse text with
  | Ok src =>
      may_then (may_run w (s_exprs src)) (may_show (e_host w) ToRead) (may_error (e_host w)) (upd (fun c => ctx_extend c (s_requests src)) s)
  | Err e => may_do (fun s => (Ok tt, println_ (perr_text e) s)) s
  | Panic => may_do (lift Panic) s
  | Diverge => may_do (lift Diverge) s
  end.
