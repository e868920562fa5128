(** How much is done: the parser, the evaluator and the reading of response bodies,
    with the number of their calls and iterations.

    Parsing is Parser.v again with the number of calls of parse_expr and of iterations
    of the loops (parser.rs:72-88, 110-147, 250-256, 268-278, 299-305); evaluation is
    Evaluator.v again with the number of calls of eval_expr, to which the work on the
    response bodies is added (the calls of Expr::eval, syntax.rs:33-50, included). *)
From Verif Require Export Command.
Open Scope N_scope.

(** a result and the work done; parser.rs:92 *)
Definition work (A : Type) : Type := (pres A * nat)%type.
(** the ? operator, parser.rs:92-149 *)
Definition wbind {A B} (x : work A) (f : A -> toks -> work B) : work B :=
  match fst x with
  | POk a ts => let y := f a ts in (fst y, (snd x + snd y)%nat)
  | PErr e => (PErr e, snd x)
  | PFuel => (PFuel, snd x)
  end.
(** neither a call of parse_expr nor an iteration, parser.rs:43-54 *)
Definition w0 {A} (x : pres A) : work A := (x, O).
(** parser.rs:92 *)
Definition wok {A} (a : A) (ts : toks) : work A := w0 (POk a ts).
(** parser.rs:92 *)
Definition werr {A} (e : perr) : work A := w0 (PErr e).
(** parser.rs:92 *)
Definition wfuel {A} : work A := w0 PFuel.
(** a call of parse_expr or an iteration, parser.rs:92,110 *)
Definition counted {A} (x : work A) : work A := (fst x, S (snd x)).

(** parser.rs:92-308, as in Parser.v.  [work_loop] is the [while] of work_expr (110-147),
    [work_list_loop]/[work_map_loop]/[work_block_loop] the ones of
    parse_expr_list (250-256), parse_map_literal (268-278) and parse_block_expr
    (299-305). *)
Fixpoint work_expr (n : nat) (prec : N) (ts : toks) {struct n} : work expr :=
  match n with
  | O => wfuel
  | S n =>
      counted (match tkind (current ts) with
      | KIdent => work_loop n prec (EIdent (tlit (current ts))) ts
      | KInteger => wbind (w0 (parse_integer_literal ts)) (fun e ts => work_loop n prec e ts)
      | KFloat => wbind (w0 (parse_float_literal ts)) (fun e ts => work_loop n prec e ts)
      | KTrue | KFalse => wbind (w0 (parse_boolean_literal ts)) (fun e ts => work_loop n prec e ts)
      | KString => work_loop n prec (EStr (tlit (current ts))) ts
      | KLet => wbind (work_let n ts) (fun e ts => work_loop n prec_max e ts)
      | KNot | KSub => wbind (work_unary n ts) (fun e ts => work_loop n prec e ts)
      | KLp => wbind (work_paren n ts) (fun e ts => work_loop n prec e ts)
      | KIf => wbind (work_if n ts) (fun e ts => work_loop n prec e ts)
      | KLs => wbind (work_array n ts) (fun e ts => work_loop n prec e ts)
      | KLb => wbind (work_map n ts) (fun e ts => work_loop n prec e ts)
      | _ => werr (EBadExpr (tlit (current ts)))
      end)
  end
(** parser.rs:110-147 *)
with work_loop (n : nat) (prec : N) (left : expr) (ts : toks) {struct n} : work expr :=
  match n with
  | O => wfuel
  | S n =>
      counted (if negb (peek_is KSemi ts) && (prec <? peek_precedence ts) then
        match peek ts with
        | Some t =>
            if is_binop (tkind t) then
              wbind (work_binary n left (next ts)) (fun e ts => work_loop n prec e ts)
            else
              match tkind t with
              | KLp => wbind (work_call n left (next ts)) (fun e ts => work_loop n prec e ts)
              | KLs => wbind (work_index n left (next ts)) (fun e ts => work_loop n prec e ts)
              | KDot => wbind (w0 (parse_field left (next ts))) (fun e ts => work_loop n prec e ts)
              | _ => work_loop n prec left ts
              end
        | None => work_loop n prec left ts
        end
      else wok left ts)
  end
(* parser.rs:187-197 *)
with work_let (n : nat) (ts : toks) {struct n} : work expr :=
  match n with
  | O => wfuel
  | S n =>
      wbind (w0 (expect KIdent ts)) (fun _ ts =>
      let name := tlit (current ts) in
      wbind (w0 (expect KAssign ts)) (fun _ ts =>
      wbind (work_expr n prec_min (next ts)) (fun v ts =>
      wok (ELet name v) (skip_semi ts))))
  end
(* parser.rs:199-208 *)
with work_unary (n : nat) (ts : toks) {struct n} : work expr :=
  match n with
  | O => wfuel
  | S n =>
      let t := current ts in
      let p := precedence (tkind t) + (if kind_eqb (tkind t) KSub then 2 else 0) in
      wbind (work_expr n p (next ts)) (fun r ts => wok (EUn t r) ts)
  end
(* parser.rs:210-216 *)
with work_binary (n : nat) (left : expr) (ts : toks) {struct n} : work expr :=
  match n with
  | O => wfuel
  | S n =>
      let t := current ts in
      wbind (work_expr n (precedence (tkind t)) (next ts)) (fun r ts => wok (EBin t left r) ts)
  end
(* parser.rs:218-223 *)
with work_paren (n : nat) (ts : toks) {struct n} : work expr :=
  match n with
  | O => wfuel
  | S n =>
      wbind (work_expr n prec_min (next ts)) (fun e ts =>
      wbind (w0 (expect KRp ts)) (fun _ ts => wok (EParen e) ts))
  end
(* parser.rs:225-237 *)
with work_if (n : nat) (ts : toks) {struct n} : work expr :=
  match n with
  | O => wfuel
  | S n =>
      wbind (w0 (expect KLp ts)) (fun _ ts =>
      wbind (work_expr n prec_min (next ts)) (fun c ts =>
      wbind (w0 (expect KRp ts)) (fun _ ts =>
      wbind (work_block n ts) (fun cs ts =>
      if peek_is KElse ts then
        wbind (work_block n (next ts)) (fun alt ts => wok (EIf c cs alt) ts)
      else wok (EIf c cs []) ts))))
  end
(* parser.rs:239-246 *)
with work_call (n : nat) (f : expr) (ts : toks) {struct n} : work expr :=
  match n with
  | O => wfuel
  | S n =>
      wbind (work_list n KRp ts) (fun args ts =>
      match f with
      | EIdent name => wok (ECall name args) ts
      | _ => werr (EBadCall f)
      end)
  end
(* parser.rs:248-259 *)
with work_list (n : nat) (stop : kind) (ts : toks) {struct n} : work (list expr) :=
  match n with
  | O => wfuel
  | S n =>
      wbind (work_list_loop n stop ts) (fun es ts =>
      wbind (w0 (expect stop ts)) (fun _ ts => wok es ts))
  end
(** parser.rs:250-258 *)
with work_list_loop (n : nat) (stop : kind) (ts : toks) {struct n} : work (list expr) :=
  match n with
  | O => wfuel
  | S n =>
      counted (if peek_is stop ts then wok [] ts
      else
        wbind (work_expr n prec_min (next ts)) (fun e ts =>
        if peek_is stop ts then
          wbind (work_list_loop n stop ts) (fun es ts => wok (e :: es) ts)
        else
          wbind (w0 (expect KComma ts)) (fun _ ts =>
          wbind (work_list_loop n stop ts) (fun es ts => wok (e :: es) ts))))
  end
(* parser.rs:261-264 *)
with work_array (n : nat) (ts : toks) {struct n} : work expr :=
  match n with
  | O => wfuel
  | S n => wbind (work_list n KRs ts) (fun es ts => wok (EArr es) ts)
  end
(* parser.rs:266-281 *)
with work_map (n : nat) (ts : toks) {struct n} : work expr :=
  match n with
  | O => wfuel
  | S n =>
      wbind (work_map_loop n ts) (fun ps ts =>
      wbind (w0 (expect KRb ts)) (fun _ ts => wok (EMap ps) ts))
  end
(** parser.rs:268-280 *)
with work_map_loop (n : nat) (ts : toks) {struct n} : work (list (expr * expr)) :=
  match n with
  | O => wfuel
  | S n =>
      counted (if peek_is KRb ts then wok [] ts
      else
        wbind (work_expr n prec_min (next ts)) (fun k ts =>
        wbind (w0 (expect KColon ts)) (fun _ ts =>
        wbind (work_expr n prec_min (next ts)) (fun v ts =>
        if peek_is KRb ts then
          wbind (work_map_loop n ts) (fun ps ts => wok ((k, v) :: ps) ts)
        else
          wbind (w0 (expect KComma ts)) (fun _ ts =>
          wbind (work_map_loop n ts) (fun ps ts => wok ((k, v) :: ps) ts))))))
  end
(* parser.rs:283-288 *)
with work_index (n : nat) (left : expr) (ts : toks) {struct n} : work expr :=
  match n with
  | O => wfuel
  | S n =>
      wbind (work_expr n prec_min (next ts)) (fun i ts =>
      wbind (w0 (expect KRs ts)) (fun _ ts => wok (EIndex left i) ts))
  end
(* parser.rs:296-308 *)
with work_block (n : nat) (ts : toks) {struct n} : work (list expr) :=
  match n with
  | O => wfuel
  | S n =>
      wbind (w0 (expect KLb ts)) (fun _ ts =>
      wbind (work_block_loop n ts) (fun es ts =>
      wbind (w0 (expect KRb ts)) (fun _ ts => wok es ts)))
  end
(** parser.rs:299-307 *)
with work_block_loop (n : nat) (ts : toks) {struct n} : work (list expr) :=
  match n with
  | O => wfuel
  | S n =>
      counted (if peek_is KRb ts then wok [] ts
      else
        wbind (work_expr n prec_min (next ts)) (fun e ts =>
        wbind (work_block_loop n (skip_semi ts)) (fun es ts => wok (e :: es) ts)))
  end.

(** parser.rs:310-321 *)
Definition work_request (n : nat) (ts : toks) : work (str * str * list expr) :=
  wbind (w0 (expect KIdent ts)) (fun _ ts =>
  let name := tlit (current ts) in
  wbind (w0 (expect KTemplate ts)) (fun _ ts =>
  let message := tlit (current ts) in
  if peek_is KLs ts then
    wbind (work_list n KRs (next ts)) (fun asserts ts => wok (name, message, asserts) ts)
  else wok (name, message, []) ts)).

(** parser.rs:323-328 *)
Definition work_test (n : nat) (ts : toks) : work (str * list expr) :=
  wbind (w0 (expect KIdent ts)) (fun _ ts =>
  let name := tlit (current ts) in
  wbind (work_block n ts) (fun block ts => wok (name, block) ts)).

(** parser.rs:72-88: the top-level loop; [src] accumulates the three collections *)
Fixpoint work_top (n : nat) (src : source) (ts : toks) {struct n} : work source :=
  match n with
  | O => wfuel
  | S n =>
      counted (match tkind (current ts) with
      | KEof => wok src ts
      | KRequest =>
          wbind (work_request n ts) (fun '(name, message, asserts) ts =>
          work_top n (Source (s_exprs src) (mset name (message, asserts) (s_requests src)) (s_tests src))
            (next (skip_semi ts)))
      | KTest =>
          wbind (work_test n ts) (fun '(name, block) ts =>
          work_top n (Source (s_exprs src) (s_requests src) (mset name block (s_tests src)))
            (next (skip_semi ts)))
      | _ =>
          wbind (work_expr n prec_min ts) (fun e ts =>
          work_top n (Source (s_exprs src ++ [e]) (s_requests src) (s_tests src))
            (next (skip_semi ts)))
      end)
  end.


(** The calls and iterations that parsing a text takes, parser.rs:68-90 *)
Definition parse_work (text : str) : nat :=
  snd (work_top (fuel_for (segment text)) (Source [] [] []) (segment text)).

(** Expr::eval, syntax.rs:34-49: the calls reading an expression takes *)
Fixpoint read_work (e : expr) : nat :=
  match e with
  | EArr items => S (list_sum (map read_work items))
  | EMap pairs => S (list_sum (map (fun kv => (read_work (fst kv) + read_work (snd kv))%nat) pairs))
  | _ => 1
  end.

(** response.rs:82-86: what turning a body into values takes *)
Definition body_work (text : str) : nat :=
  (parse_work text +
    (match parse text with
     | Ok src => match s_exprs src with e :: _ => read_work e | [] => 0%nat end
     | _ => 0%nat
     end))%nat.

(** An evaluation step with the work done; evaluator.rs:12 *)
Definition evw A := st -> (out everr A * st) * nat.
(** a step without a call of eval_expr, evaluator.rs:33 *)
Definition idle {A} (m : evm A) : evw A := fun s => (m s, O).
(** the ? operator; for example evaluator.rs:109 *)
Definition tbind {A B} (m : evw A) (k : A -> evw B) : evw B :=
  fun s =>
    let x := m s in
    match fst x with
    | (Ok a, s') => let y := k a s' in (fst y, (snd x + snd y)%nat)
    | (Err e, s') => ((Err e, s'), snd x)
    | (Panic, s') => ((Panic, s'), snd x)
    | (Diverge, s') => ((Diverge, s'), snd x)
    end.
(** a call of eval_expr, evaluator.rs:12 *)
Definition stepped {A} (m : evw A) : evw A := fun s => (fst (m s), S (snd (m s))).

(** evaluator.rs:12-30 and the functions it calls, as in Evaluator.v *)
Section Eval.
  Variable h : host.
  Variable call : str -> list value -> evw value.

  Fixpoint work_eval (e : expr) : evw value :=
    let work_args := fix work_args (es : list expr) : evw (list value) :=   (* 242-248 *)
      match es with
      | [] => idle (ret [])
      | e :: es' => tbind (work_eval e) (fun v => tbind (work_args es') (fun vs => idle (ret (v :: vs))))
      end in
    let work_body := fix work_body (last : value) (es : list expr) : evw value :=   (* 234-240 *)
      match es with
      | [] => idle (ret last)
      | e :: es' => tbind (work_eval e) (fun v => work_body v es')
      end in
    let work_pairs := fix work_pairs (m : amap value) (ps : list (expr * expr)) : evw (amap value) :=   (* 52-60 *)
      match ps with
      | [] => idle (ret m)
      | (k, v) :: ps' =>
          tbind (work_eval k) (fun kv => tbind (work_eval v) (fun vv => work_pairs (mset (show_value h kv) vv m) ps'))
      end in
    stepped (match e with
    | EInt z => idle (ret (VInt z))
    | EFloat f => idle (ret (VFloat f))
    | EBool b => idle (ret (VBool b))
    | EStr s => idle (ret (VStr s))
    | EArr items => tbind (work_args items) (fun vs => idle (ret (VArr vs)))
    | EMap pairs => tbind (work_pairs [] pairs) (fun m => idle (ret (VMap m)))
    | EIndex v i => tbind (work_eval v) (fun vv => tbind (work_eval i) (fun iv => idle (lift (index_value h vv iv))))
    | EField m f => tbind (work_eval m) (fun mv => idle (lift (field_value mv f)))
    | EIdent n => idle (fun s =>
        match ctx_get (s_ctx s) n with
        | Some v => (Ok v, s)
        | None => (Err (EIdentNotFound n), s)
        end)
    | ELet n e => tbind (work_eval e) (fun v => idle (fun s => (Ok v, upd (fun c => ctx_set c n v) s)))
    | EUn t r => tbind (work_eval r) (fun v => idle (lift (unary_value h t v)))
    | EBin t l r =>
        match strict_op h (tkind t) with
        | Some f => tbind (work_eval l) (fun lv => tbind (work_eval r) (fun rv => idle (lift (f lv rv))))
        | None =>
            match tkind t with
            | KLo => tbind (work_eval l) (fun lv => if falsy lv then work_eval r else idle (ret lv))
            | KLa => tbind (work_eval l) (fun lv => if falsy lv then idle (ret lv) else work_eval r)
            | _ => idle (lift (Err (EBinaryUnsupported t l r)))
            end
        end
    | EParen e => work_eval e
    | EIf c cs alt =>
        tbind (work_eval c) (fun cv => if falsy cv then work_body VNull alt else work_body VNull cs)
    | ECall n args => tbind (work_args args) (fun vs => call n vs)
    end).

  (** evaluator.rs:234-240 *)
  Fixpoint work_exprs (last : value) (es : list expr) : evw value :=
    match es with
    | [] => idle (ret last)
    | e :: es' => tbind (work_eval e) (fun v => work_exprs v es')
    end.
End Eval.

(** unwrap_or(Value::Null), evaluator.rs:191-192 *)
Definition work_or_null (m : evw value) : evw value :=
  fun s => (match fst (m s) with (Err _, s') => (Ok VNull, s') | r => r end, snd (m s)).

(** evaluator.rs:186-212 *)
Fixpoint work_asserts (h : host) (ev : expr -> evw value) (asserts : list expr) : evw (list assertion) :=
  match asserts with
  | [] => idle (ret [])
  | EBin t l r :: rest =>
      tbind (work_or_null (ev l)) (fun lv =>
      tbind (work_or_null (ev r)) (fun rv =>
      tbind (work_asserts h ev rest) (fun as_ =>
      idle (ret (match compare_op (tkind t) with
           | Some f =>
               Assert (show_expr l ++ lit " " ++ tlit t ++ lit " " ++ show_expr r)
                      (show_value h lv) (tlit t) (show_value h rv) (f lv rv) :: as_
           | None => as_
           end)))))
  | _ :: rest => work_asserts h ev rest
  end.

(** evaluator.rs:166-221: the body is parsed and read, then the asserts are evaluated *)
Definition work_request_call (w : env) (ev : expr -> evw value) (n : str) (message : str) (asserts : list expr) : evw value :=
  fun s =>
    let h := e_host w in
    let msg := substitute (var_text h (s_ctx s)) message in
    let x := e_net w (s_trace s) msg in
    let s1 := emit (Sent msg) s in
    match client_send (e_prepare w) x msg with
    | Err e => ((Err e, s1), O)
    | Panic => ((Panic, s1), O)
    | Diverge => ((Diverge, s1), O)
    | Ok (rq, rs, t, error) =>
        match to_map h rs with
        | Err e => ((Err e, s1), body_work (rs_body rs))
        | Panic => ((Panic, s1), body_work (rs_body rs))
        | Diverge => ((Diverge, s1), body_work (rs_body rs))
        | Ok map_ =>
            let y := work_asserts h ev asserts (St (ctx_from map_) (s_trace s1)) in
            (match fst y with
             | (Ok as_, sl) =>
                 (Ok (VMap (ctx_into_map (s_ctx sl))),
                  St (ctx_push (s_ctx s) (Record_ n t rq rs as_ error)) (s_trace sl))
             | (Err e, sl) => (Err e, St (s_ctx s) (s_trace sl))
             | (Panic, sl) => (Panic, St (s_ctx s) (s_trace sl))
             | (Diverge, sl) => (Diverge, St (s_ctx s) (s_trace sl))
             end, (body_work (rs_body rs) + snd y)%nat)
        end
    end.

(** evaluator.rs:164-232 after evaluating the arguments *)
Fixpoint work_call_at (w : env) (depth : nat) (n : str) (args : list value) : evw value :=
  fun s =>
    match ctx_request (s_ctx s) n with
    | Some (message, asserts) =>
        match depth with
        | O => ((Diverge, s), O)
        | S d => work_request_call w (work_eval (e_host w) (work_call_at w d)) n message asserts s
        end
    | None => idle (native_call (e_host w) n args) s
    end.

(** evaluator.rs:234-240: the evaluation of a block with the work it takes *)
Definition work_eval_block (w : env) (es : list expr) : evw value :=
  work_exprs (e_host w) (work_call_at w 1) VNull es.
