(** What a token is, independently of how lexer.rs finds it. *)
From Verif Require Import Token.
Open Scope N_scope.

(** Unicode white space *)
Definition ws_chars : list char :=
  [9; 10; 11; 12; 13; 32; 133; 160; 5760;
   8192; 8193; 8194; 8195; 8196; 8197; 8198; 8199; 8200; 8201; 8202;
   8232; 8233; 8239; 8287; 12288].
Definition ws (c : char) : Prop := In c ws_chars.
Definition blank (s : str) : Prop := Forall ws s.

Definition operators : list (kind * str) :=
  [(KAssign, lit "="); (KEq, lit "=="); (KNot, lit "!"); (KNe, lit "!=");
   (KAdd, lit "+"); (KSub, lit "-"); (KMul, lit "*"); (KDiv, lit "/"); (KRem, lit "%");
   (KBx, lit "^"); (KBo, lit "|"); (KLo, lit "||"); (KBa, lit "&"); (KLa, lit "&&");
   (KLt, lit "<"); (KLe, lit "<="); (KSl, lit "<<"); (KGt, lit ">"); (KGe, lit ">="); (KSr, lit ">>");
   (KComma, lit ","); (KSemi, lit ";"); (KColon, lit ":"); (KDot, lit ".");
   (KLp, lit "("); (KRp, lit ")"); (KLb, lit "{"); (KRb, lit "}"); (KLs, lit "["); (KRs, lit "]")].

Definition keywords : list (kind * str) :=
  [(KTrue, lit "true"); (KFalse, lit "false"); (KRequest, lit "request"); (KLet, lit "let");
   (KIf, lit "if"); (KElse, lit "else"); (KTest, lit "test")].

Definition digit (c : char) : Prop := 48 <= c <= 57.
(** Value of a decimal numeral *)
Definition decimal (l : str) : N := fold_left (fun a c => 10 * a + (c - 48)) l 0.
Definition letter (c : char) : Prop := 65 <= c <= 90 \/ 97 <= c <= 122 \/ c = 95.

(** The two kinds of quotation *)
Definition delimiters : list (kind * char) := [(KString, 34); (KTemplate, 96)].

(** [spells w t]: the text [w] is a way (the only one) to write the token [t]. *)
Inductive spells : str -> token -> Prop :=
| sp_op k s : In (k, s) operators -> spells s (Tok k s)
| sp_int c s : digit c -> Forall digit s -> spells (c :: s) (Tok KInteger (c :: s))
| sp_float c s : digit c -> Forall (fun x => digit x \/ x = 46) s -> In 46 s ->
    spells (c :: s) (Tok KFloat (c :: s))
| sp_keyword k s : In (k, s) keywords -> spells s (Tok k s)
| sp_ident c s : letter c -> Forall (fun x => letter x \/ digit x) s ->
    (forall k, ~ In (k, c :: s) keywords) -> spells (c :: s) (Tok KIdent (c :: s))
| sp_quoted k d body : In (k, d) delimiters -> ~ In d body -> spells (d :: body ++ [d]) (Tok k body)
| sp_illegal c : ~ ws c -> ~ digit c -> ~ letter c ->
    (forall k s, ~ In (k, c :: s) operators) -> (forall k, ~ In (k, c) delimiters) ->
    spells [c] (Tok KIllegal [c]).

(** Repeatedly skip white space and take the longest prefix that spells a token.
    A quotation that is never closed extends to the end of the text. *)
Inductive lexes : str -> list token -> Prop :=
| lx_end : lexes [] []
| lx_ws c s ts : ws c -> lexes s ts -> lexes (c :: s) ts
| lx_token w t rest ts :
    spells w t ->
    (forall w' t' rest', w ++ rest = w' ++ rest' -> spells w' t' -> (length w' <= length w)%nat) ->
    lexes rest ts -> lexes (w ++ rest) (t :: ts)
| lx_unclosed k d body : In (k, d) delimiters -> ~ In d body -> lexes (d :: body) [Tok k body].

(** The text ends outside any quotation *)
Inductive closed : str -> Prop :=
| cl_end : closed []
| cl_ws c s : ws c -> closed s -> closed (c :: s)
| cl_token w t rest :
    spells w t ->
    (forall w' t' rest', w ++ rest = w' ++ rest' -> spells w' t' -> (length w' <= length w)%nat) ->
    closed rest -> closed (w ++ rest).

(** [laid_out ts s]: [s] is the tokens [ts] spelled in order with blanks around
    and between them (possibly none), the last one possibly an unclosed
    quotation. *)
Inductive laid_out : list token -> str -> Prop :=
| lo_end gap : blank gap -> laid_out [] gap
| lo_token gap w t ts s : blank gap -> spells w t -> laid_out ts s -> laid_out (t :: ts) (gap ++ w ++ s)
| lo_unclosed gap k d body : blank gap -> In (k, d) delimiters -> ~ In d body ->
    laid_out [Tok k body] (gap ++ d :: body).

(** [spaced ts s]: [s] is the tokens [ts] spelled in order, a non-empty blank
    after each of them *)
Inductive spaced : list token -> str -> Prop :=
| spd_end gap : blank gap -> spaced [] gap
| spd_last gap w t : blank gap -> spells w t -> spaced [t] (gap ++ w)
| spd_token gap w t c ts s : blank gap -> spells w t -> ws c -> spaced ts (c :: s) ->
    spaced (t :: ts) (gap ++ w ++ c :: s).
