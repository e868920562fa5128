(** lib/src/parser.rs:7-329.

    The parser state [tokens, index] is represented by the suffix of [tokens]
    that starts at [index]; its head is the current token.  [segment] never
    returns an empty list and [next_token] never moves past the last token, so
    the suffix is never empty ([current] of an empty suffix is unreachable).

    Every function takes fuel and every call uses one unit: exhausting it is the
    separate outcome [PFuel].  [parse_expr]'s loop can spin forever without
    consuming a token (parser.rs:145), which is why fuel is needed at all. *)
From Verif Require Export Syntax Lexer.
Open Scope N_scope.

(** The error texts of parser.rs:49,52,108,163,171,179,244 as data;
    [perr_text] below renders them. *)
Inductive perr : Type :=
| EExpectFound (want found : kind)
| EExpectNone (want : kind)
| EBadExpr (l : str)
| EBadInt (l : str)
| EBadFloat (l : str)
| EBadBool (l : str)
| EBadCall (e : expr).

(** parser.rs:49-52, 108, 163, 171, 179, 244 *)
Definition perr_text (e : perr) : str :=
  match e with
  | EExpectFound w f => lit "token expect " ++ kind_debug w ++ lit " but found " ++ kind_debug f
  | EExpectNone w => lit "token expect " ++ kind_debug w ++ lit " but found none"
  | EBadExpr l => lit "parse expr error: " ++ l
  | EBadInt l => lit "parse integer error: " ++ l
  | EBadFloat l => lit "parse float error: " ++ l
  | EBadBool l => lit "parse boolean error: " ++ l
  | EBadCall e => lit "parse call expr error: " ++ show_expr e
  end.

(** parser.rs:13-16 *)
Definition toks := list token.

(** parser.rs:92 *)
Inductive pres (A : Type) : Type :=
| POk (a : A) (ts : toks)
| PErr (e : perr)
| PFuel.
Arguments POk {A} a ts.
Arguments PErr {A} e.
Arguments PFuel {A}.

(** the ? operator, parser.rs:92-149 *)
Definition pbind {A B} (x : pres A) (f : A -> toks -> pres B) : pres B :=
  match x with
  | POk a ts => f a ts
  | PErr e => PErr e
  | PFuel => PFuel
  end.

(** parser.rs:31-33 *)
Definition current (ts : toks) : token := match ts with t :: _ => t | [] => Tok KEof [] end.
(** parser.rs:26-29 *)
Definition next (ts : toks) : toks := match ts with _ :: (t :: r) => t :: r | _ => ts end.
(** parser.rs:35-37 *)
Definition peek (ts : toks) : option token := match ts with _ :: t :: _ => Some t | _ => None end.
(** parser.rs:39-41 *)
Definition peek_is (k : kind) (ts : toks) : bool :=
  match peek ts with Some t => kind_eqb k (tkind t) | None => false end.
(** parser.rs:43-54 *)
Definition expect (k : kind) (ts : toks) : pres unit :=
  match peek ts with
  | Some t => if kind_eqb k (tkind t) then POk tt (next ts) else PErr (EExpectFound k (tkind t))
  | None => PErr (EExpectNone k)
  end.
(** parser.rs:60-66 *)
Definition peek_precedence (ts : toks) : N :=
  match peek ts with Some t => precedence (tkind t) | None => 0 end.
(** the recurring [if self.peek_token_is(Kind::Semi) { self.next_token() }]:
    parser.rs:84-86,193-195,302-304 *)
Definition skip_semi (ts : toks) : toks := if peek_is KSemi ts then next ts else ts.

(** parser.rs:112-129: kinds handled by parse_binary_expr *)
Definition is_binop (k : kind) : bool :=
  match k with
  | KAdd | KSub | KMul | KDiv | KRem | KBx | KBo | KBa | KSl | KSr | KLa | KLo
  | KLt | KGt | KLe | KGe | KEq | KNe => true
  | _ => false
  end.

(** parser.rs:161 *)
Definition i64_max : Z := 2 ^ 63 - 1.

(** parser.rs:159-165; str::parse::<i64> on the digits the lexer produced *)
Definition parse_integer_literal (ts : toks) : pres expr :=
  let l := tlit (current ts) in
  match digits_val 0 l with
  | Some n => if (Z.of_N n <=? i64_max)%Z then POk (EInt (Z.of_N n)) ts else PErr (EBadInt l)
  | None => PErr (EBadInt l)
  end.
(** parser.rs:167-173 *)
Definition parse_float_literal (ts : toks) : pres expr :=
  let l := tlit (current ts) in
  match parse_f64 l with
  | Some f => POk (EFloat f) ts
  | None => PErr (EBadFloat l)
  end.
(** parser.rs:175-181; str::parse::<bool> accepts "true" and "false" *)
Definition parse_boolean_literal (ts : toks) : pres expr :=
  let l := tlit (current ts) in
  if str_eqb l (lit "true") then POk (EBool true) ts
  else if str_eqb l (lit "false") then POk (EBool false) ts
  else PErr (EBadBool l).

(** u8::MIN and u8::MAX as used for precedences (parser.rs:82,100) *)
Definition prec_min : N := 0.
(** u8::MAX, parser.rs:100 *)
Definition prec_max : N := 255.

(** parser.rs:290-294 *)
Definition parse_field (left : expr) (ts : toks) : pres expr :=
  pbind (expect KIdent ts) (fun _ ts => POk (EField left (tlit (current ts))) ts).

(** parser.rs:92-308.  [parse_loop] is the [while] of parse_expr (110-147),
    [parse_list_loop]/[parse_map_loop]/[parse_block_loop] the ones of
    parse_expr_list (250-256), parse_map_literal (268-278) and parse_block_expr
    (299-305). *)
Fixpoint parse_expr (n : nat) (prec : N) (ts : toks) {struct n} : pres expr :=
  match n with
  | O => PFuel
  | S n =>
      match tkind (current ts) with
      | KIdent => parse_loop n prec (EIdent (tlit (current ts))) ts
      | KInteger => pbind (parse_integer_literal ts) (fun e ts => parse_loop n prec e ts)
      | KFloat => pbind (parse_float_literal ts) (fun e ts => parse_loop n prec e ts)
      | KTrue | KFalse => pbind (parse_boolean_literal ts) (fun e ts => parse_loop n prec e ts)
      | KString => parse_loop n prec (EStr (tlit (current ts))) ts
      | KLet => pbind (parse_let n ts) (fun e ts => parse_loop n prec_max e ts)
      | KNot | KSub => pbind (parse_unary n ts) (fun e ts => parse_loop n prec e ts)
      | KLp => pbind (parse_paren n ts) (fun e ts => parse_loop n prec e ts)
      | KIf => pbind (parse_if n ts) (fun e ts => parse_loop n prec e ts)
      | KLs => pbind (parse_array n ts) (fun e ts => parse_loop n prec e ts)
      | KLb => pbind (parse_map n ts) (fun e ts => parse_loop n prec e ts)
      | _ => PErr (EBadExpr (tlit (current ts)))
      end
  end
(** parser.rs:110-147 *)
with parse_loop (n : nat) (prec : N) (left : expr) (ts : toks) {struct n} : pres expr :=
  match n with
  | O => PFuel
  | S n =>
      if negb (peek_is KSemi ts) && (prec <? peek_precedence ts) then
        match peek ts with
        | Some t =>
            if is_binop (tkind t) then
              pbind (parse_binary n left (next ts)) (fun e ts => parse_loop n prec e ts)
            else
              match tkind t with
              | KLp => pbind (parse_call n left (next ts)) (fun e ts => parse_loop n prec e ts)
              | KLs => pbind (parse_index n left (next ts)) (fun e ts => parse_loop n prec e ts)
              | KDot => pbind (parse_field left (next ts)) (fun e ts => parse_loop n prec e ts)
              | _ => parse_loop n prec left ts
              end
        | None => parse_loop n prec left ts
        end
      else POk left ts
  end
(* parser.rs:187-197 *)
with parse_let (n : nat) (ts : toks) {struct n} : pres expr :=
  match n with
  | O => PFuel
  | S n =>
      pbind (expect KIdent ts) (fun _ ts =>
      let name := tlit (current ts) in
      pbind (expect KAssign ts) (fun _ ts =>
      pbind (parse_expr n prec_min (next ts)) (fun v ts =>
      POk (ELet name v) (skip_semi ts))))
  end
(* parser.rs:199-208 *)
with parse_unary (n : nat) (ts : toks) {struct n} : pres expr :=
  match n with
  | O => PFuel
  | S n =>
      let t := current ts in
      let p := precedence (tkind t) + (if kind_eqb (tkind t) KSub then 2 else 0) in
      pbind (parse_expr n p (next ts)) (fun r ts => POk (EUn t r) ts)
  end
(* parser.rs:210-216 *)
with parse_binary (n : nat) (left : expr) (ts : toks) {struct n} : pres expr :=
  match n with
  | O => PFuel
  | S n =>
      let t := current ts in
      pbind (parse_expr n (precedence (tkind t)) (next ts)) (fun r ts => POk (EBin t left r) ts)
  end
(* parser.rs:218-223 *)
with parse_paren (n : nat) (ts : toks) {struct n} : pres expr :=
  match n with
  | O => PFuel
  | S n =>
      pbind (parse_expr n prec_min (next ts)) (fun e ts =>
      pbind (expect KRp ts) (fun _ ts => POk (EParen e) ts))
  end
(* parser.rs:225-237 *)
with parse_if (n : nat) (ts : toks) {struct n} : pres expr :=
  match n with
  | O => PFuel
  | S n =>
      pbind (expect KLp ts) (fun _ ts =>
      pbind (parse_expr n prec_min (next ts)) (fun c ts =>
      pbind (expect KRp ts) (fun _ ts =>
      pbind (parse_block n ts) (fun cs ts =>
      if peek_is KElse ts then
        pbind (parse_block n (next ts)) (fun alt ts => POk (EIf c cs alt) ts)
      else POk (EIf c cs []) ts))))
  end
(* parser.rs:239-246 *)
with parse_call (n : nat) (f : expr) (ts : toks) {struct n} : pres expr :=
  match n with
  | O => PFuel
  | S n =>
      pbind (parse_list n KRp ts) (fun args ts =>
      match f with
      | EIdent name => POk (ECall name args) ts
      | _ => PErr (EBadCall f)
      end)
  end
(* parser.rs:248-259 *)
with parse_list (n : nat) (stop : kind) (ts : toks) {struct n} : pres (list expr) :=
  match n with
  | O => PFuel
  | S n =>
      pbind (parse_list_loop n stop ts) (fun es ts =>
      pbind (expect stop ts) (fun _ ts => POk es ts))
  end
(** parser.rs:250-258 *)
with parse_list_loop (n : nat) (stop : kind) (ts : toks) {struct n} : pres (list expr) :=
  match n with
  | O => PFuel
  | S n =>
      if peek_is stop ts then POk [] ts
      else
        pbind (parse_expr n prec_min (next ts)) (fun e ts =>
        if peek_is stop ts then
          pbind (parse_list_loop n stop ts) (fun es ts => POk (e :: es) ts)
        else
          pbind (expect KComma ts) (fun _ ts =>
          pbind (parse_list_loop n stop ts) (fun es ts => POk (e :: es) ts)))
  end
(* parser.rs:261-264 *)
with parse_array (n : nat) (ts : toks) {struct n} : pres expr :=
  match n with
  | O => PFuel
  | S n => pbind (parse_list n KRs ts) (fun es ts => POk (EArr es) ts)
  end
(* parser.rs:266-281 *)
with parse_map (n : nat) (ts : toks) {struct n} : pres expr :=
  match n with
  | O => PFuel
  | S n =>
      pbind (parse_map_loop n ts) (fun ps ts =>
      pbind (expect KRb ts) (fun _ ts => POk (EMap ps) ts))
  end
(** parser.rs:268-280 *)
with parse_map_loop (n : nat) (ts : toks) {struct n} : pres (list (expr * expr)) :=
  match n with
  | O => PFuel
  | S n =>
      if peek_is KRb ts then POk [] ts
      else
        pbind (parse_expr n prec_min (next ts)) (fun k ts =>
        pbind (expect KColon ts) (fun _ ts =>
        pbind (parse_expr n prec_min (next ts)) (fun v ts =>
        if peek_is KRb ts then
          pbind (parse_map_loop n ts) (fun ps ts => POk ((k, v) :: ps) ts)
        else
          pbind (expect KComma ts) (fun _ ts =>
          pbind (parse_map_loop n ts) (fun ps ts => POk ((k, v) :: ps) ts)))))
  end
(* parser.rs:283-288 *)
with parse_index (n : nat) (left : expr) (ts : toks) {struct n} : pres expr :=
  match n with
  | O => PFuel
  | S n =>
      pbind (parse_expr n prec_min (next ts)) (fun i ts =>
      pbind (expect KRs ts) (fun _ ts => POk (EIndex left i) ts))
  end
(* parser.rs:296-308 *)
with parse_block (n : nat) (ts : toks) {struct n} : pres (list expr) :=
  match n with
  | O => PFuel
  | S n =>
      pbind (expect KLb ts) (fun _ ts =>
      pbind (parse_block_loop n ts) (fun es ts =>
      pbind (expect KRb ts) (fun _ ts => POk es ts)))
  end
(** parser.rs:299-307 *)
with parse_block_loop (n : nat) (ts : toks) {struct n} : pres (list expr) :=
  match n with
  | O => PFuel
  | S n =>
      if peek_is KRb ts then POk [] ts
      else
        pbind (parse_expr n prec_min (next ts)) (fun e ts =>
        pbind (parse_block_loop n (skip_semi ts)) (fun es ts => POk (e :: es) ts))
  end.

(** parser.rs:310-321 *)
Definition parse_request (n : nat) (ts : toks) : pres (str * str * list expr) :=
  pbind (expect KIdent ts) (fun _ ts =>
  let name := tlit (current ts) in
  pbind (expect KTemplate ts) (fun _ ts =>
  let message := tlit (current ts) in
  if peek_is KLs ts then
    pbind (parse_list n KRs (next ts)) (fun asserts ts => POk (name, message, asserts) ts)
  else POk (name, message, []) ts)).

(** parser.rs:323-328 *)
Definition parse_test (n : nat) (ts : toks) : pres (str * list expr) :=
  pbind (expect KIdent ts) (fun _ ts =>
  let name := tlit (current ts) in
  pbind (parse_block n ts) (fun block ts => POk (name, block) ts)).

(** parser.rs:7-11 *)
Record source := Source {
  s_exprs : list expr;
  s_requests : amap (str * list expr);
  s_tests : amap (list expr)
}.

(** parser.rs:72-88: the top-level loop; [src] accumulates the three collections *)
Fixpoint parse_top (n : nat) (src : source) (ts : toks) {struct n} : pres source :=
  match n with
  | O => PFuel
  | S n =>
      match tkind (current ts) with
      | KEof => POk src ts
      | KRequest =>
          pbind (parse_request n ts) (fun '(name, message, asserts) ts =>
          parse_top n (Source (s_exprs src) (mset name (message, asserts) (s_requests src)) (s_tests src))
            (next (skip_semi ts)))
      | KTest =>
          pbind (parse_test n ts) (fun '(name, block) ts =>
          parse_top n (Source (s_exprs src) (s_requests src) (mset name block (s_tests src)))
            (next (skip_semi ts)))
      | _ =>
          pbind (parse_expr n prec_min ts) (fun e ts =>
          parse_top n (Source (s_exprs src ++ [e]) (s_requests src) (s_tests src))
            (next (skip_semi ts)))
      end
  end.

(** parser.rs:68-90 with explicit fuel *)
Definition parse_fuel (n : nat) (ts : toks) : pres source := parse_top n (Source [] [] []) ts.

(** Enough fuel for every token stream on which the code terminates
    (ParserFuel.fuel_suffices); parser.rs:68-90 *)
Definition fuel_for (ts : toks) : nat := 8 * length ts + 8.

(** Parser::new(text).parse(), parser.rs:19-24,68-90: out of fuel at [fuel_for]
    means the Rust loop never ends. *)
Definition parse (text : str) : out perr source :=
  match parse_fuel (fuel_for (segment text)) (segment text) with
  | POk src _ => Ok src
  | PErr e => Err e
  | PFuel => Diverge
  end.
