(** Why a program is rejected, and what the message says *)
From Verif Require Export SpecSyntax.
Open Scope N_scope.

(** How messages name the kinds of tokens *)
Definition names : list (kind * str) :=
  [(KIllegal, lit "Illegal"); (KEof, lit "Eof"); (KIdent, lit "Ident"); (KInteger, lit "Integer"); (KFloat, lit "Float");
   (KTrue, lit "True"); (KFalse, lit "False"); (KString, lit "String"); (KTemplate, lit "Template");
   (KAdd, lit "Add"); (KSub, lit "Sub"); (KMul, lit "Mul"); (KDiv, lit "Div"); (KRem, lit "Rem"); (KNot, lit "Not");
   (KBx, lit "Bx"); (KBo, lit "Bo"); (KBa, lit "Ba"); (KSl, lit "Sl"); (KSr, lit "Sr"); (KLo, lit "Lo"); (KLa, lit "La");
   (KLt, lit "Lt"); (KGt, lit "Gt"); (KLe, lit "Le"); (KGe, lit "Ge"); (KEq, lit "Eq"); (KNe, lit "Ne");
   (KAssign, lit "Assign"); (KComma, lit "Comma"); (KSemi, lit "Semi"); (KColon, lit "Colon"); (KDot, lit "Dot");
   (KLp, lit "Lp"); (KRp, lit "Rp"); (KLb, lit "Lb"); (KRb, lit "Rb"); (KLs, lit "Ls"); (KRs, lit "Rs");
   (KRequest, lit "Request"); (KLet, lit "Let"); (KIf, lit "If"); (KElse, lit "Else"); (KTest, lit "Test")].

(** The kinds of tokens an expression can start with *)
Definition starters : list kind :=
  [KIdent; KInteger; KFloat; KTrue; KFalse; KString; KLet; KNot; KSub; KLp; KIf; KLs; KLb].

(** [lacks k p t]: after the tokens [p] only a token of kind [k] could come (for
    [KComma] also the closing bracket), and [t] is not one *)
Inductive lacks : kind -> list token -> token -> Prop :=
| lk_ident x b t : In (tkind b) [KLet; KDot; KRequest; KTest] -> tkind t <> KIdent -> lacks KIdent (x ++ [b]) t
| lk_assign x n t : tkind t <> KAssign -> lacks KAssign (x ++ [op KLet "let"; Tok KIdent n]) t
| lk_template x n t : tkind t <> KTemplate -> lacks KTemplate (x ++ [op KRequest "request"; Tok KIdent n]) t
| lk_lp x t : tkind t <> KLp -> lacks KLp (x ++ [op KIf "if"]) t
| lk_rp x e w t : syntax false e w -> tkind t <> KRp -> lacks KRp (x ++ op KLp "(" :: w) t
| lk_rs x e w t : syntax false e w -> tkind t <> KRs -> lacks KRs (x ++ op KLs "[" :: w) t
| lk_lb_test x n t : tkind t <> KLb -> lacks KLb (x ++ [op KTest "test"; Tok KIdent n]) t
| lk_lb_if x e w t : syntax false e w -> tkind t <> KLb -> lacks KLb (x ++ op KIf "if" :: op KLp "(" :: w ++ [op KRp ")"]) t
| lk_lb_else x t : tkind t <> KLb -> lacks KLb (x ++ [op KElse "else"]) t
| lk_comma x b stop es w t : In (tkind b, stop) [(KLp, KRp); (KLs, KRs)] -> es <> [] -> syntax_list false es w ->
    tkind t <> KComma -> tkind t <> stop -> lacks KComma (x ++ b :: w) t
| lk_comma_map x ps w t : ps <> [] -> syntax_pairs false ps w -> tkind t <> KComma -> tkind t <> KRb ->
    lacks KComma (x ++ op KLb "{" :: w) t
| lk_colon x b e w t : In (tkind b) [KLb; KComma] -> syntax false e w -> tkind t <> KColon -> lacks KColon (x ++ b :: w) t.

(** [reason m p t]: after the tokens [p] the token [t] is wrong, and [m] says why *)
Inductive reason : str -> list token -> token -> Prop :=
| re_lacks k p t a b : lacks k p t -> In (k, a) names -> In (tkind t, b) names ->
    reason (lit "token expect " ++ a ++ lit " but found " ++ b) p t
| re_start p t : ~ In (tkind t) starters -> reason (lit "parse expr error: " ++ tlit t) p t
| re_integer p l : (2 ^ 63 <= Z.of_N (decimal l))%Z -> reason (lit "parse integer error: " ++ l) p (Tok KInteger l)
| re_float p l : (forall f, ~ float_literal l f) -> reason (lit "parse float error: " ++ l) p (Tok KFloat l)
| re_call x f wf es w : syntax false f wf -> (forall n, f <> EIdent n) -> syntax_list false es w ->
    reason (lit "parse call expr error: " ++ show_expr f) (x ++ wf ++ op KLp "(" :: w) (op KRp ")").
