(** How deep the calls nest: the parser, the evaluator and the reading of response
    bodies, with the greatest number of their calls under way at once.

    parse_expr, eval_expr and Expr::eval are the functions through which everything else
    recurses; between two nested calls of one of them there are at most three frames of
    others (parser.rs:92-308, evaluator.rs:12-248, syntax.rs:33-50).  Parsing is
    Parser.v and evaluation Evaluator.v again, with that number.  Displaying and dropping
    a nested value or expression also recurse and are not counted. *)
From Verif Require Export Command.
Open Scope N_scope.

(** a result and the depth reached; parser.rs:92 *)
Definition deep (A : Type) : Type := (pres A * nat)%type.
(** the ? operator, parser.rs:92-149 *)
Definition dbind {A B} (x : deep A) (f : A -> toks -> deep B) : deep B :=
  match fst x with
  | POk a ts => let y := f a ts in (fst y, Nat.max (snd x) (snd y))
  | PErr e => (PErr e, snd x)
  | PFuel => (PFuel, snd x)
  end.
(** no call of parse_expr, parser.rs:43-54 *)
Definition d0 {A} (x : pres A) : deep A := (x, O).
(** parser.rs:92 *)
Definition dok {A} (a : A) (ts : toks) : deep A := d0 (POk a ts).
(** parser.rs:92 *)
Definition derr {A} (e : perr) : deep A := d0 (PErr e).
(** parser.rs:92 *)
Definition dfuel {A} : deep A := d0 PFuel.
(** inside a call of parse_expr, parser.rs:92 *)
Definition deeper {A} (x : deep A) : deep A := (fst x, S (snd x)).

(** parser.rs:92-308, as in Parser.v.  [deep_loop] is the [while] of deep_expr (110-147),
    [deep_list_loop]/[deep_map_loop]/[deep_block_loop] the ones of
    parse_expr_list (250-256), parse_map_literal (268-278) and parse_block_expr
    (299-305). *)
Fixpoint deep_expr (n : nat) (prec : N) (ts : toks) {struct n} : deep expr :=
  match n with
  | O => dfuel
  | S n =>
      deeper (match tkind (current ts) with
      | KIdent => deep_loop n prec (EIdent (tlit (current ts))) ts
      | KInteger => dbind (d0 (parse_integer_literal ts)) (fun e ts => deep_loop n prec e ts)
      | KFloat => dbind (d0 (parse_float_literal ts)) (fun e ts => deep_loop n prec e ts)
      | KTrue | KFalse => dbind (d0 (parse_boolean_literal ts)) (fun e ts => deep_loop n prec e ts)
      | KString => deep_loop n prec (EStr (tlit (current ts))) ts
      | KLet => dbind (deep_let n ts) (fun e ts => deep_loop n prec_max e ts)
      | KNot | KSub => dbind (deep_unary n ts) (fun e ts => deep_loop n prec e ts)
      | KLp => dbind (deep_paren n ts) (fun e ts => deep_loop n prec e ts)
      | KIf => dbind (deep_if n ts) (fun e ts => deep_loop n prec e ts)
      | KLs => dbind (deep_array n ts) (fun e ts => deep_loop n prec e ts)
      | KLb => dbind (deep_map n ts) (fun e ts => deep_loop n prec e ts)
      | _ => derr (EBadExpr (tlit (current ts)))
      end)
  end
(** parser.rs:110-147 *)
with deep_loop (n : nat) (prec : N) (left : expr) (ts : toks) {struct n} : deep expr :=
  match n with
  | O => dfuel
  | S n =>
      if negb (peek_is KSemi ts) && (prec <? peek_precedence ts) then
        match peek ts with
        | Some t =>
            if is_binop (tkind t) then
              dbind (deep_binary n left (next ts)) (fun e ts => deep_loop n prec e ts)
            else
              match tkind t with
              | KLp => dbind (deep_call n left (next ts)) (fun e ts => deep_loop n prec e ts)
              | KLs => dbind (deep_index n left (next ts)) (fun e ts => deep_loop n prec e ts)
              | KDot => dbind (d0 (parse_field left (next ts))) (fun e ts => deep_loop n prec e ts)
              | _ => deep_loop n prec left ts
              end
        | None => deep_loop n prec left ts
        end
      else dok left ts
  end
(* parser.rs:187-197 *)
with deep_let (n : nat) (ts : toks) {struct n} : deep expr :=
  match n with
  | O => dfuel
  | S n =>
      dbind (d0 (expect KIdent ts)) (fun _ ts =>
      let name := tlit (current ts) in
      dbind (d0 (expect KAssign ts)) (fun _ ts =>
      dbind (deep_expr n prec_min (next ts)) (fun v ts =>
      dok (ELet name v) (skip_semi ts))))
  end
(* parser.rs:199-208 *)
with deep_unary (n : nat) (ts : toks) {struct n} : deep expr :=
  match n with
  | O => dfuel
  | S n =>
      let t := current ts in
      let p := precedence (tkind t) + (if kind_eqb (tkind t) KSub then 2 else 0) in
      dbind (deep_expr n p (next ts)) (fun r ts => dok (EUn t r) ts)
  end
(* parser.rs:210-216 *)
with deep_binary (n : nat) (left : expr) (ts : toks) {struct n} : deep expr :=
  match n with
  | O => dfuel
  | S n =>
      let t := current ts in
      dbind (deep_expr n (precedence (tkind t)) (next ts)) (fun r ts => dok (EBin t left r) ts)
  end
(* parser.rs:218-223 *)
with deep_paren (n : nat) (ts : toks) {struct n} : deep expr :=
  match n with
  | O => dfuel
  | S n =>
      dbind (deep_expr n prec_min (next ts)) (fun e ts =>
      dbind (d0 (expect KRp ts)) (fun _ ts => dok (EParen e) ts))
  end
(* parser.rs:225-237 *)
with deep_if (n : nat) (ts : toks) {struct n} : deep expr :=
  match n with
  | O => dfuel
  | S n =>
      dbind (d0 (expect KLp ts)) (fun _ ts =>
      dbind (deep_expr n prec_min (next ts)) (fun c ts =>
      dbind (d0 (expect KRp ts)) (fun _ ts =>
      dbind (deep_block n ts) (fun cs ts =>
      if peek_is KElse ts then
        dbind (deep_block n (next ts)) (fun alt ts => dok (EIf c cs alt) ts)
      else dok (EIf c cs []) ts))))
  end
(* parser.rs:239-246 *)
with deep_call (n : nat) (f : expr) (ts : toks) {struct n} : deep expr :=
  match n with
  | O => dfuel
  | S n =>
      dbind (deep_list n KRp ts) (fun args ts =>
      match f with
      | EIdent name => dok (ECall name args) ts
      | _ => derr (EBadCall f)
      end)
  end
(* parser.rs:248-259 *)
with deep_list (n : nat) (stop : kind) (ts : toks) {struct n} : deep (list expr) :=
  match n with
  | O => dfuel
  | S n =>
      dbind (deep_list_loop n stop ts) (fun es ts =>
      dbind (d0 (expect stop ts)) (fun _ ts => dok es ts))
  end
(** parser.rs:250-258 *)
with deep_list_loop (n : nat) (stop : kind) (ts : toks) {struct n} : deep (list expr) :=
  match n with
  | O => dfuel
  | S n =>
      if peek_is stop ts then dok [] ts
      else
        dbind (deep_expr n prec_min (next ts)) (fun e ts =>
        if peek_is stop ts then
          dbind (deep_list_loop n stop ts) (fun es ts => dok (e :: es) ts)
        else
          dbind (d0 (expect KComma ts)) (fun _ ts =>
          dbind (deep_list_loop n stop ts) (fun es ts => dok (e :: es) ts)))
  end
(* parser.rs:261-264 *)
with deep_array (n : nat) (ts : toks) {struct n} : deep expr :=
  match n with
  | O => dfuel
  | S n => dbind (deep_list n KRs ts) (fun es ts => dok (EArr es) ts)
  end
(* parser.rs:266-281 *)
with deep_map (n : nat) (ts : toks) {struct n} : deep expr :=
  match n with
  | O => dfuel
  | S n =>
      dbind (deep_map_loop n ts) (fun ps ts =>
      dbind (d0 (expect KRb ts)) (fun _ ts => dok (EMap ps) ts))
  end
(** parser.rs:268-280 *)
with deep_map_loop (n : nat) (ts : toks) {struct n} : deep (list (expr * expr)) :=
  match n with
  | O => dfuel
  | S n =>
      if peek_is KRb ts then dok [] ts
      else
        dbind (deep_expr n prec_min (next ts)) (fun k ts =>
        dbind (d0 (expect KColon ts)) (fun _ ts =>
        dbind (deep_expr n prec_min (next ts)) (fun v ts =>
        if peek_is KRb ts then
          dbind (deep_map_loop n ts) (fun ps ts => dok ((k, v) :: ps) ts)
        else
          dbind (d0 (expect KComma ts)) (fun _ ts =>
          dbind (deep_map_loop n ts) (fun ps ts => dok ((k, v) :: ps) ts)))))
  end
(* parser.rs:283-288 *)
with deep_index (n : nat) (left : expr) (ts : toks) {struct n} : deep expr :=
  match n with
  | O => dfuel
  | S n =>
      dbind (deep_expr n prec_min (next ts)) (fun i ts =>
      dbind (d0 (expect KRs ts)) (fun _ ts => dok (EIndex left i) ts))
  end
(* parser.rs:296-308 *)
with deep_block (n : nat) (ts : toks) {struct n} : deep (list expr) :=
  match n with
  | O => dfuel
  | S n =>
      dbind (d0 (expect KLb ts)) (fun _ ts =>
      dbind (deep_block_loop n ts) (fun es ts =>
      dbind (d0 (expect KRb ts)) (fun _ ts => dok es ts)))
  end
(** parser.rs:299-307 *)
with deep_block_loop (n : nat) (ts : toks) {struct n} : deep (list expr) :=
  match n with
  | O => dfuel
  | S n =>
      if peek_is KRb ts then dok [] ts
      else
        dbind (deep_expr n prec_min (next ts)) (fun e ts =>
        dbind (deep_block_loop n (skip_semi ts)) (fun es ts => dok (e :: es) ts))
  end.

(** parser.rs:310-321 *)
Definition deep_request (n : nat) (ts : toks) : deep (str * str * list expr) :=
  dbind (d0 (expect KIdent ts)) (fun _ ts =>
  let name := tlit (current ts) in
  dbind (d0 (expect KTemplate ts)) (fun _ ts =>
  let message := tlit (current ts) in
  if peek_is KLs ts then
    dbind (deep_list n KRs (next ts)) (fun asserts ts => dok (name, message, asserts) ts)
  else dok (name, message, []) ts)).

(** parser.rs:323-328 *)
Definition deep_test (n : nat) (ts : toks) : deep (str * list expr) :=
  dbind (d0 (expect KIdent ts)) (fun _ ts =>
  let name := tlit (current ts) in
  dbind (deep_block n ts) (fun block ts => dok (name, block) ts)).

(** parser.rs:72-88: the top-level loop; [src] accumulates the three collections *)
Fixpoint deep_top (n : nat) (src : source) (ts : toks) {struct n} : deep source :=
  match n with
  | O => dfuel
  | S n =>
      match tkind (current ts) with
      | KEof => dok src ts
      | KRequest =>
          dbind (deep_request n ts) (fun '(name, message, asserts) ts =>
          deep_top n (Source (s_exprs src) (mset name (message, asserts) (s_requests src)) (s_tests src))
            (next (skip_semi ts)))
      | KTest =>
          dbind (deep_test n ts) (fun '(name, block) ts =>
          deep_top n (Source (s_exprs src) (s_requests src) (mset name block (s_tests src)))
            (next (skip_semi ts)))
      | _ =>
          dbind (deep_expr n prec_min ts) (fun e ts =>
          deep_top n (Source (s_exprs src ++ [e]) (s_requests src) (s_tests src))
            (next (skip_semi ts)))
      end
  end.


(** The nested calls of parse_expr that parsing a text needs, parser.rs:68-90 *)
Definition parse_depth (text : str) : nat :=
  snd (deep_top (fuel_for (segment text)) (Source [] [] []) (segment text)).

(** Expr::eval, syntax.rs:34-49: the nested calls reading an expression needs *)
Fixpoint read_depth (e : expr) : nat :=
  match e with
  | EArr items => S (list_max (map read_depth items))
  | EMap pairs => S (list_max (map (fun kv => Nat.max (read_depth (fst kv)) (read_depth (snd kv))) pairs))
  | _ => 1
  end.

(** response.rs:82-86: the nested calls turning a body into values needs *)
Definition body_depth (text : str) : nat :=
  Nat.max (parse_depth text)
    (match parse text with
     | Ok src => match s_exprs src with e :: _ => read_depth e | [] => 0%nat end
     | _ => 0%nat
     end).

(** An evaluation step with the depth reached; evaluator.rs:12 *)
Definition evd A := st -> (out everr A * st) * nat.
(** a step without a call of eval_expr, evaluator.rs:33 *)
Definition flat {A} (m : evm A) : evd A := fun s => (m s, O).
(** the ? operator; for example evaluator.rs:109 *)
Definition ebind {A B} (m : evd A) (k : A -> evd B) : evd B :=
  fun s =>
    let x := m s in
    match fst x with
    | (Ok a, s') => let y := k a s' in (fst y, Nat.max (snd x) (snd y))
    | (Err e, s') => ((Err e, s'), snd x)
    | (Panic, s') => ((Panic, s'), snd x)
    | (Diverge, s') => ((Diverge, s'), snd x)
    end.
(** inside a call of eval_expr, evaluator.rs:12 *)
Definition entered {A} (m : evd A) : evd A := fun s => (fst (m s), S (snd (m s))).

(** evaluator.rs:12-30 and the functions it calls, as in Evaluator.v *)
Section Eval.
  Variable h : host.
  Variable call : str -> list value -> evd value.

  Fixpoint deep_eval (e : expr) : evd value :=
    let deep_args := fix deep_args (es : list expr) : evd (list value) :=   (* 242-248 *)
      match es with
      | [] => flat (ret [])
      | e :: es' => ebind (deep_eval e) (fun v => ebind (deep_args es') (fun vs => flat (ret (v :: vs))))
      end in
    let deep_body := fix deep_body (last : value) (es : list expr) : evd value :=   (* 234-240 *)
      match es with
      | [] => flat (ret last)
      | e :: es' => ebind (deep_eval e) (fun v => deep_body v es')
      end in
    let deep_pairs := fix deep_pairs (m : amap value) (ps : list (expr * expr)) : evd (amap value) :=   (* 52-60 *)
      match ps with
      | [] => flat (ret m)
      | (k, v) :: ps' =>
          ebind (deep_eval k) (fun kv => ebind (deep_eval v) (fun vv => deep_pairs (mset (show_value h kv) vv m) ps'))
      end in
    entered (match e with
    | EInt z => flat (ret (VInt z))
    | EFloat f => flat (ret (VFloat f))
    | EBool b => flat (ret (VBool b))
    | EStr s => flat (ret (VStr s))
    | EArr items => ebind (deep_args items) (fun vs => flat (ret (VArr vs)))
    | EMap pairs => ebind (deep_pairs [] pairs) (fun m => flat (ret (VMap m)))
    | EIndex v i => ebind (deep_eval v) (fun vv => ebind (deep_eval i) (fun iv => flat (lift (index_value h vv iv))))
    | EField m f => ebind (deep_eval m) (fun mv => flat (lift (field_value mv f)))
    | EIdent n => flat (fun s =>
        match ctx_get (s_ctx s) n with
        | Some v => (Ok v, s)
        | None => (Err (EIdentNotFound n), s)
        end)
    | ELet n e => ebind (deep_eval e) (fun v => flat (fun s => (Ok v, upd (fun c => ctx_set c n v) s)))
    | EUn t r => ebind (deep_eval r) (fun v => flat (lift (unary_value h t v)))
    | EBin t l r =>
        match strict_op h (tkind t) with
        | Some f => ebind (deep_eval l) (fun lv => ebind (deep_eval r) (fun rv => flat (lift (f lv rv))))
        | None =>
            match tkind t with
            | KLo => ebind (deep_eval l) (fun lv => if falsy lv then deep_eval r else flat (ret lv))
            | KLa => ebind (deep_eval l) (fun lv => if falsy lv then flat (ret lv) else deep_eval r)
            | _ => flat (lift (Err (EBinaryUnsupported t l r)))
            end
        end
    | EParen e => deep_eval e
    | EIf c cs alt =>
        ebind (deep_eval c) (fun cv => if falsy cv then deep_body VNull alt else deep_body VNull cs)
    | ECall n args => ebind (deep_args args) (fun vs => call n vs)
    end).

  (** evaluator.rs:234-240 *)
  Fixpoint deep_exprs (last : value) (es : list expr) : evd value :=
    match es with
    | [] => flat (ret last)
    | e :: es' => ebind (deep_eval e) (fun v => deep_exprs v es')
    end.
End Eval.

(** unwrap_or(Value::Null), evaluator.rs:191-192 *)
Definition deep_or_null (m : evd value) : evd value :=
  fun s => (match fst (m s) with (Err _, s') => (Ok VNull, s') | r => r end, snd (m s)).

(** evaluator.rs:186-212 *)
Fixpoint deep_asserts (h : host) (ev : expr -> evd value) (asserts : list expr) : evd (list assertion) :=
  match asserts with
  | [] => flat (ret [])
  | EBin t l r :: rest =>
      ebind (deep_or_null (ev l)) (fun lv =>
      ebind (deep_or_null (ev r)) (fun rv =>
      ebind (deep_asserts h ev rest) (fun as_ =>
      flat (ret (match compare_op (tkind t) with
           | Some f =>
               Assert (show_expr l ++ lit " " ++ tlit t ++ lit " " ++ show_expr r)
                      (show_value h lv) (tlit t) (show_value h rv) (f lv rv) :: as_
           | None => as_
           end)))))
  | _ :: rest => deep_asserts h ev rest
  end.

(** evaluator.rs:166-221: the body is parsed and read, then the asserts are evaluated *)
Definition deep_request_call (w : env) (ev : expr -> evd value) (n : str) (message : str) (asserts : list expr) : evd value :=
  fun s =>
    let h := e_host w in
    let msg := substitute (var_text h (s_ctx s)) message in
    let x := e_net w (s_trace s) msg in
    let s1 := emit (Sent msg) s in
    match client_send (e_prepare w) x msg with
    | Err e => ((Err e, s1), O)
    | Panic => ((Panic, s1), O)
    | Diverge => ((Diverge, s1), O)
    | Ok (rq, rs, t, error) =>
        match to_map h rs with
        | Err e => ((Err e, s1), body_depth (rs_body rs))
        | Panic => ((Panic, s1), body_depth (rs_body rs))
        | Diverge => ((Diverge, s1), body_depth (rs_body rs))
        | Ok map_ =>
            let y := deep_asserts h ev asserts (St (ctx_from map_) (s_trace s1)) in
            (match fst y with
             | (Ok as_, sl) =>
                 (Ok (VMap (ctx_into_map (s_ctx sl))),
                  St (ctx_push (s_ctx s) (Record_ n t rq rs as_ error)) (s_trace sl))
             | (Err e, sl) => (Err e, St (s_ctx s) (s_trace sl))
             | (Panic, sl) => (Panic, St (s_ctx s) (s_trace sl))
             | (Diverge, sl) => (Diverge, St (s_ctx s) (s_trace sl))
             end, Nat.max (body_depth (rs_body rs)) (snd y))
        end
    end.

(** evaluator.rs:164-232 after evaluating the arguments *)
Fixpoint deep_call_at (w : env) (depth : nat) (n : str) (args : list value) : evd value :=
  fun s =>
    match ctx_request (s_ctx s) n with
    | Some (message, asserts) =>
        match depth with
        | O => ((Diverge, s), O)
        | S d => deep_request_call w (deep_eval (e_host w) (deep_call_at w d)) n message asserts s
        end
    | None => flat (native_call (e_host w) n args) s
    end.

(** evaluator.rs:234-240: the evaluation of a block with the nested calls it needs *)
Definition deep_eval_block (w : env) (es : list expr) : evd value :=
  deep_exprs (e_host w) (deep_call_at w 1) VNull es.
