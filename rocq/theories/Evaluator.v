(** lib/src/evaluator.rs *)
From Verif Require Export Context.
Open Scope Z_scope.

(** What an evaluation does to the outside world, in order: text written to
    standard output (native.rs:7,17) and messages handed to the HTTP client
    (evaluator.rs:183). *)
Inductive event := Printed (t : str) | Sent (message : str).

(** The outside world: what the standard library decides, whether a multipart
    body can be prepared, and how each exchange with a server goes.  The latter
    may depend on everything this evaluation did before; client.rs:18-42 *)
Record env := Env {
  e_host : host;
  e_prepare : list part -> bool;
  e_net : list event -> str -> exchange
}.

(** evaluator.rs:12, native.rs:7 *)
Record st := St { s_ctx : ctx; s_trace : list event }.

(** native.rs:7, client.rs:28 *)
Definition emit (ev : event) (s : st) : st := St (s_ctx s) (s_trace s ++ [ev]).
(** context.rs:43-53 *)
Definition upd (f : ctx -> ctx) (s : st) : st := St (f (s_ctx s)) (s_trace s).

(** An evaluation step: its outcome and the state it leaves behind.  State
    changes made before an error stay, as in the code; evaluator.rs:12 *)
Definition evm A := st -> out everr A * st.
(** evaluator.rs:33 *)
Definition ret {A} (a : A) : evm A := fun s => (Ok a, s).
(** evaluator.rs:128 *)
Definition lift {A} (r : out everr A) : evm A := fun s => (r, s).
(** the ? operator; for example evaluator.rs:109 *)
Definition bind {A B} (m : evm A) (k : A -> evm B) : evm B :=
  fun s =>
    match m s with
    | (Ok a, s') => k a s'
    | (Err e, s') => (Err e, s')
    | (Panic, s') => (Panic, s')
    | (Diverge, s') => (Diverge, s')
    end.

(** [false] and [null] are the values || && ! and if treat as false
    (evaluator.rs:117,139,143,159) *)
Definition falsy (v : value) : bool :=
  match v with VBool false => true | VNull => true | _ => false end.

(** evaluator.rs:62-85; [index as usize] makes negative indices huge *)
Definition index_value (h : host) (v i : value) : res :=
  match v, i with
  | VArr items, VInt z =>
      if (0 <=? z) && (z <? Z.of_nat (length items))
      then Ok (nth (Z.to_nat z) items VNull) else Ok VNull
  | VMap pairs, key =>
      match mget (show_value h key) pairs with Some x => Ok x | None => Ok VNull end
  | _, _ => Err (EIndexUnsupported v)
  end.

(** evaluator.rs:87-99 *)
Definition field_value (v : value) (f : str) : res :=
  match v with
  | VMap pairs => match mget f pairs with Some x => Ok x | None => Ok VNull end
  | _ => Err (EFieldUnsupported v)
  end.

(** evaluator.rs:114-124 *)
Definition unary_value (h : host) (t : token) (v : value) : res :=
  match tkind t, v with
  | KNot, VBool false => Ok (VBool true)
  | KNot, VNull => Ok (VBool true)
  | KNot, VInt z => Ok (VInt (Z.lnot z))
  | KNot, _ => Ok (VBool false)
  | KSub, VInt z => arith h (- z)
  | KSub, VFloat f => Ok (VFloat (f64_neg f))
  | _, _ => Err (EUnaryUnknown t v)
  end.

(** The strict operators of evaluator.rs:128-137, 146-151 *)
Definition strict_op (h : host) (k : kind) : option (value -> value -> res) :=
  match k with
  | KAdd => Some (value_add h) | KSub => Some (value_sub h) | KMul => Some (value_mul h)
  | KDiv => Some value_div | KRem => Some value_rem
  | KBx => Some value_bitxor | KBo => Some value_bitor | KBa => Some value_bitand
  | KSl => Some (value_shl h) | KSr => Some (value_shr h)
  | KLt => Some (fun l r => Ok (VBool (value_lt l r)))
  | KGt => Some (fun l r => Ok (VBool (value_gt l r)))
  | KLe => Some (fun l r => Ok (VBool (value_le l r)))
  | KGe => Some (fun l r => Ok (VBool (value_ge l r)))
  | KEq => Some (fun l r => Ok (VBool (value_eqb l r)))
  | KNe => Some (fun l r => Ok (VBool (negb (value_eqb l r))))
  | _ => None
  end.

(** evaluator.rs:193-201 *)
Definition compare_op (k : kind) : option (value -> value -> bool) :=
  match k with
  | KLt => Some value_lt | KGt => Some value_gt | KLe => Some value_le | KGe => Some value_ge
  | KEq => Some value_eqb | KNe => Some (fun l r => negb (value_eqb l r))
  | _ => None
  end.

(** evaluator.rs:12-30 and the functions it calls.  [call] is what happens once
    the arguments of a call are evaluated (eval_call_expr from line 167 on). *)
Section Eval.
  Variable h : host.
  Variable call : str -> list value -> evm value.

  Fixpoint eval (e : expr) : evm value :=
    let eval_list := fix eval_list (es : list expr) : evm (list value) :=   (* 242-248 *)
      match es with
      | [] => ret []
      | e :: es' => bind (eval e) (fun v => bind (eval_list es') (fun vs => ret (v :: vs)))
      end in
    let eval_block := fix eval_block (last : value) (es : list expr) : evm value :=   (* 234-240 *)
      match es with
      | [] => ret last
      | e :: es' => bind (eval e) (fun v => eval_block v es')
      end in
    let eval_pairs := fix eval_pairs (m : amap value) (ps : list (expr * expr)) : evm (amap value) :=   (* 52-60 *)
      match ps with
      | [] => ret m
      | (k, v) :: ps' =>
          bind (eval k) (fun kv => bind (eval v) (fun vv => eval_pairs (mset (show_value h kv) vv m) ps'))
      end in
    match e with
    | EInt z => ret (VInt z)                                        (* 32-34 *)
    | EFloat f => ret (VFloat f)                                    (* 36-38 *)
    | EBool b => ret (VBool b)                                      (* 40-42 *)
    | EStr s => ret (VStr s)                                        (* 44-46 *)
    | EArr items => bind (eval_list items) (fun vs => ret (VArr vs))   (* 48-50 *)
    | EMap pairs => bind (eval_pairs [] pairs) (fun m => ret (VMap m))
    | EIndex v i => bind (eval v) (fun vv => bind (eval i) (fun iv => lift (index_value h vv iv)))
    | EField m f => bind (eval m) (fun mv => lift (field_value mv f))
    | EIdent n => fun s =>                                          (* 101-106 *)
        match ctx_get (s_ctx s) n with
        | Some v => (Ok v, s)
        | None => (Err (EIdentNotFound n), s)
        end
    | ELet n e => bind (eval e) (fun v s => (Ok v, upd (fun c => ctx_set c n v) s))   (* 108-112 *)
    | EUn t r => bind (eval r) (fun v => lift (unary_value h t v))
    | EBin t l r =>                                                 (* 126-154 *)
        match strict_op h (tkind t) with
        | Some f => bind (eval l) (fun lv => bind (eval r) (fun rv => lift (f lv rv)))
        | None =>
            match tkind t with
            | KLo => bind (eval l) (fun lv => if falsy lv then eval r else ret lv)   (* 138-141 *)
            | KLa => bind (eval l) (fun lv => if falsy lv then ret lv else eval r)   (* 142-145 *)
            | _ => lift (Err (EBinaryUnsupported t l r))
            end
        end
    | EParen e => eval e
    | EIf c cs alt =>                                               (* 156-162 *)
        bind (eval c) (fun cv => if falsy cv then eval_block VNull alt else eval_block VNull cs)
    | ECall n args => bind (eval_list args) (fun vs => call n vs)
    end.

  (** evaluator.rs:234-240 *)
  Fixpoint eval_exprs (last : value) (es : list expr) : evm value :=
    match es with
    | [] => ret last
    | e :: es' => bind (eval e) (fun v => eval_exprs v es')
    end.
End Eval.

(** evaluator.rs:223-230 *)
Definition native_call (h : host) (n : str) (args : list value) : evm value :=
  if str_eqb n (lit "println") then
    fun s => match native_println h args with
             | (Ok v, t) => (Ok v, emit (Printed t) s)
             | (r, _) => (r, s)
             end
  else if str_eqb n (lit "print") then
    fun s => match native_print h args with
             | (Ok v, t) => (Ok v, emit (Printed t) s)
             | (r, _) => (r, s)
             end
  else if str_eqb n (lit "format") then lift (native_format h args)
  else if str_eqb n (lit "length") then lift (native_length args)
  else if str_eqb n (lit "append") then lift (native_append args)
  else lift (Err (EFunctionNotFound n)).

(** unwrap_or(Value::Null), evaluator.rs:191-192: only a [Result::Err] is
    replaced *)
Definition or_null (m : evm value) : evm value :=
  fun s => match m s with (Err _, s') => (Ok VNull, s') | r => r end.

(** evaluator.rs:186-212: the asserts of a request, evaluated in the local
    context; filter_map over the list *)
Fixpoint eval_asserts (h : host) (ev : expr -> evm value) (asserts : list expr) : evm (list assertion) :=
  match asserts with
  | [] => ret []
  | EBin t l r :: rest =>
      bind (or_null (ev l)) (fun lv =>
      bind (or_null (ev r)) (fun rv =>
      bind (eval_asserts h ev rest) (fun as_ =>
      ret (match compare_op (tkind t) with
           | Some f =>
               Assert (show_expr l ++ lit " " ++ tlit t ++ lit " " ++ show_expr r)
                      (show_value h lv) (tlit t) (show_value h rv) (f lv rv) :: as_
           | None => as_
           end))))
  | _ :: rest => eval_asserts h ev rest
  end.

(** evaluator.rs:176-179: the text of a variable in a request template *)
Definition var_text (h : host) (c : ctx) (n : str) : str :=
  match ctx_get c n with Some v => show_value h v | None => show_value h VNull end.

(** evaluator.rs:166-221.  The response is turned into a context of its own with
    no requests and no records; only the events of evaluating the asserts are
    shared. *)
Definition request_call (w : env) (ev : expr -> evm value) (n : str) (message : str) (asserts : list expr) : evm value :=
  fun s =>
    let h := e_host w in
    let msg := substitute (var_text h (s_ctx s)) message in
    let x := e_net w (s_trace s) msg in
    let s1 := emit (Sent msg) s in
    match client_send (e_prepare w) x msg with
    | Err e => (Err e, s1)
    | Panic => (Panic, s1)
    | Diverge => (Diverge, s1)
    | Ok (rq, rs, t, error) =>
        match to_map h rs with
        | Err e => (Err e, s1)
        | Panic => (Panic, s1)
        | Diverge => (Diverge, s1)
        | Ok map_ =>
            match eval_asserts h ev asserts (St (ctx_from map_) (s_trace s1)) with
            | (Ok as_, sl) =>
                (Ok (VMap (ctx_into_map (s_ctx sl))),
                 St (ctx_push (s_ctx s) (Record_ n t rq rs as_ error)) (s_trace sl))
            | (Err e, sl) => (Err e, St (s_ctx s) (s_trace sl))
            | (Panic, sl) => (Panic, St (s_ctx s) (s_trace sl))
            | (Diverge, sl) => (Diverge, St (s_ctx s) (s_trace sl))
            end
        end
    end.

(** evaluator.rs:164-232 after evaluating the arguments.  A request's asserts are
    evaluated by the same evaluator; [depth] bounds that nesting.  One level
    is enough because the context of the asserts holds no requests
    (EvaluatorProofs.depth_enough). *)
Fixpoint call_at (w : env) (depth : nat) (n : str) (args : list value) : evm value :=
  fun s =>
    match ctx_request (s_ctx s) n with
    | Some (message, asserts) =>
        match depth with
        | O => (Diverge, s)
        | S d => request_call w (eval (e_host w) (call_at w d)) n message asserts s
        end
    | None => native_call (e_host w) n args s
    end.

(** evaluator.rs:12-30 *)
Definition eval_at (w : env) (depth : nat) : expr -> evm value := eval (e_host w) (call_at w depth).

(** evaluator.rs:12-30 *)
Definition eval_expr (w : env) : expr -> evm value := eval_at w 1.
(** evaluator.rs:234-240 *)
Definition eval_block (w : env) (es : list expr) : evm value :=
  eval_exprs (e_host w) (call_at w 1) VNull es.
