(** lib/src/lexer.rs:4-162 *)
From Verif Require Export Token.
Open Scope N_scope.

(** lexer.rs:88 *)
Definition quote : char := 34.    (* double quote *)
(** lexer.rs:101 *)
Definition backtick : char := 96. (* '`' *)

(** lexer.rs:88-100 and 101-113: characters up to the closing delimiter [d],
    which is consumed but not kept; without one, everything up to the end. *)
Definition lex_quoted (d : char) (s : str) : str * str :=
  let (body, rest) := span (fun c => negb (c =? d)) s in
  (body, match rest with [] => [] | _ :: r => r end).

(** lexer.rs:114-133 (the first digit is in [c]) *)
Definition lex_number (c : char) (s : str) : kind * str * str :=
  let (ds, rest) := span (fun x => is_digit x || (x =? 46)) s in
  let has_dot := existsb (fun x => x =? 46) ds in
  (if has_dot then KFloat else KInteger, c :: ds, rest).

(** lexer.rs:144-153 *)
Definition keyword (w : str) : kind :=
  if str_eqb w (lit "true") then KTrue
  else if str_eqb w (lit "false") then KFalse
  else if str_eqb w (lit "request") then KRequest
  else if str_eqb w (lit "let") then KLet
  else if str_eqb w (lit "if") then KIf
  else if str_eqb w (lit "else") then KElse
  else if str_eqb w (lit "test") then KTest
  else KIdent.

(** lexer.rs:134-154 *)
Definition lex_word (c : char) (s : str) : kind * str * str :=
  let (cs, rest) := span is_ident_char s in
  (keyword (c :: cs), c :: cs, rest).

(** lexer.rs:10-27,34-77: [c] followed by [d] is the two-character operator
    [k2], otherwise [c] alone is [k1] *)
Definition op2 (c d : char) (k2 k1 : kind) (s : str) : kind * str * str :=
  match s with
  | x :: s' => if x =? d then (k2, [c; x], s') else (k1, [c], s)
  | [] => (k1, [c], s)
  end.

(** lexer.rs:52-77: three-way choice for '<' and '>' *)
Definition op3 (c d2 d3 : char) (k2 k3 k1 : kind) (s : str) : kind * str * str :=
  match s with
  | x :: s' => if x =? d2 then (k2, [c; x], s')
               else if x =? d3 then (k3, [c; x], s')
               else (k1, [c], s)
  | [] => (k1, [c], s)
  end.

(** lexer.rs:9-156: the [match char], for a non-whitespace [c] followed by [s];
    result: kind, literal, remaining characters *)
Definition lex_one (c : char) (s : str) : kind * str * str :=
  if c =? 61 then op2 c 61 KEq KAssign s                  (* = == *)
  else if c =? 33 then op2 c 61 KNe KNot s                (* ! != *)
  else if c =? 43 then (KAdd, [c], s)
  else if c =? 45 then (KSub, [c], s)
  else if c =? 42 then (KMul, [c], s)
  else if c =? 47 then (KDiv, [c], s)
  else if c =? 37 then (KRem, [c], s)
  else if c =? 94 then (KBx, [c], s)
  else if c =? 124 then op2 c 124 KLo KBo s               (* | || *)
  else if c =? 38 then op2 c 38 KLa KBa s                 (* & && *)
  else if c =? 60 then op3 c 61 60 KLe KSl KLt s          (* < <= << *)
  else if c =? 62 then op3 c 61 62 KGe KSr KGt s          (* > >= >> *)
  else if c =? 44 then (KComma, [c], s)
  else if c =? 59 then (KSemi, [c], s)
  else if c =? 58 then (KColon, [c], s)
  else if c =? 46 then (KDot, [c], s)
  else if c =? 40 then (KLp, [c], s)
  else if c =? 41 then (KRp, [c], s)
  else if c =? 123 then (KLb, [c], s)
  else if c =? 125 then (KRb, [c], s)
  else if c =? 91 then (KLs, [c], s)
  else if c =? 93 then (KRs, [c], s)
  else if c =? quote then let (b, r) := lex_quoted quote s in (KString, b, r)
  else if c =? backtick then let (b, r) := lex_quoted backtick s in (KTemplate, b, r)
  else if is_digit c then lex_number c s
  else if is_ident_start c then lex_word c s
  else (KIllegal, [c], s).

(** lexer.rs:7-159, the [while let] loop: one unit of fuel per iteration.  Each
    iteration consumes at least one character, so [length s] units always
    suffice (LexerProofs.segment_fuel_enough); running out yields no tokens. *)
Fixpoint segment_loop (fuel : nat) (s : str) : list token :=
  match fuel with
  | O => []
  | S f =>
      match s with
      | [] => []
      | c :: s' =>
          if is_ws c then segment_loop f s'
          else let '(k, l, r) := lex_one c s' in Tok k l :: segment_loop f r
      end
  end.

(** lexer.rs:4-162 *)
Definition segment (text : str) : list token :=
  segment_loop (length text) text ++ [Tok KEof []].
