(** Which sources are accepted and how they are read, exactly: the writings of
    SpecSyntax.v with every choice settled by the tokens alone.  [reads k e w]
    says that the tokens [w], followed by a token of kind [k], are read as [e]. *)
From Verif Require Export SpecSyntax.
Open Scope N_scope.

(** The tokens that carry on an expression before them *)
Definition carries (k : kind) : Prop := binary k \/ In k [KNot; KLp; KLs; KDot].
(** [e] is over when a token of kind [k] comes: only a [let] ends before a token
    that could carry it on (its [;] has been read) *)
Definition over (k : kind) (e : expr) : Prop := carries k -> is_let e.

(** The binary operators at the left edge of an expression *)
Fixpoint edge (e : expr) : list token :=
  match e with
  | EBin t l _ => t :: edge l
  | EIndex e _ | EField e _ => edge e
  | _ => []
  end.

(** What an index or a field access applies to: no [let], and an operator
    expression only if its last operand is a [let] *)
Definition applicable (e : expr) : Prop :=
  match e with
  | ELet _ _ => False
  | EUn _ e => is_let e
  | EBin _ _ r => is_let r
  | _ => True
  end.

(** The kind of the first token of [w], [k] if there is none *)
Definition first (w : list token) (k : kind) : kind := match w with t :: _ => tkind t | [] => k end.

Inductive reads : kind -> expr -> list token -> Prop :=
| rd_int k l : l <> [] -> Forall digit l -> (Z.of_N (decimal l) < 2 ^ 63)%Z ->
    reads k (EInt (Z.of_N (decimal l))) [Tok KInteger l]
| rd_float k l f : float_literal l f -> reads k (EFloat f) [Tok KFloat l]
| rd_true k : reads k (EBool true) [op KTrue "true"]
| rd_false k : reads k (EBool false) [op KFalse "false"]
| rd_str k s : reads k (EStr s) [Tok KString s]
| rd_ident k n : reads k (EIdent n) [Tok KIdent n]
| rd_arr k es w : reads_list KRs es w -> reads k (EArr es) (op KLs "[" :: w ++ [op KRs "]"])
| rd_map k ps w : reads_pairs ps w -> reads k (EMap ps) (op KLb "{" :: w ++ [op KRb "}"])
| rd_index k e w i wi : reads KLs e w -> applicable e -> reads KRs i wi ->
    reads k (EIndex e i) (w ++ op KLs "[" :: wi ++ [op KRs "]"])
| rd_field k e w f : reads KDot e w -> applicable e -> reads k (EField e f) (w ++ [op KDot "."; Tok KIdent f])
(** a [let] takes the [;] after its value, if there is one *)
| rd_let k n v w : reads k v w -> over k v -> k <> KSemi ->
    reads k (ELet n v) (op KLet "let" :: Tok KIdent n :: op KAssign "=" :: w)
| rd_let_semi k n v w : reads KSemi v w ->
    reads k (ELet n v) (op KLet "let" :: Tok KIdent n :: op KAssign "=" :: w ++ [op KSemi ";"])
(** the operand of a unary operator contains no binary one outside brackets *)
| rd_un k t e w : unary (tkind t) -> reads k e w -> edge e = [] -> reads k (EUn t e) (t :: w)
(** the left operand is not a looser binary expression, unless that ends in a
    [let]; all operators at the edge of the right operand are tighter *)
| rd_bin k t l wl r wr : binary (tkind t) -> reads (tkind t) l wl -> reads k r wr ->
    ~ is_let l -> (forall t' a b, l = EBin t' a b -> looser (tkind t') (tkind t) -> is_let b) ->
    (forall t', In t' (edge r) -> looser (tkind t) (tkind t')) ->
    reads k (EBin t l r) (wl ++ t :: wr)
| rd_paren k e w : reads KRp e w -> reads k (EParen e) (op KLp "(" :: w ++ [op KRp ")"])
| rd_if k c wc cs wcs : reads KRp c wc -> reads_block cs wcs -> k <> KElse ->
    reads k (EIf c cs []) (op KIf "if" :: op KLp "(" :: wc ++ op KRp ")" :: op KLb "{" :: wcs ++ [op KRb "}"])
| rd_if_else k c wc cs wcs alt walt : reads KRp c wc -> reads_block cs wcs -> reads_block alt walt ->
    reads k (EIf c cs alt)
      (op KIf "if" :: op KLp "(" :: wc ++ op KRp ")" :: op KLb "{" :: wcs ++
       op KRb "}" :: op KElse "else" :: op KLb "{" :: walt ++ [op KRb "}"])
| rd_call k n es w : reads_list KRp es w ->
    reads k (ECall n es) (Tok KIdent n :: op KLp "(" :: w ++ [op KRp ")"])
(** a list before the bracket [stop] *)
with reads_list : kind -> list expr -> list token -> Prop :=
| rl_nil stop : reads_list stop [] []
| rl_last stop e w : reads stop e w -> reads_list stop [e] w
| rl_cons stop e w es w' : reads KComma e w -> reads_list stop es w' ->
    reads_list stop (e :: es) (w ++ op KComma "," :: w')
with reads_pairs : list (expr * expr) -> list token -> Prop :=
| rp_nil : reads_pairs [] []
| rp_last k wk v wv : reads KColon k wk -> reads KRb v wv -> reads_pairs [(k, v)] (wk ++ op KColon ":" :: wv)
| rp_cons k wk v wv ps w' : reads KColon k wk -> reads KComma v wv -> reads_pairs ps w' ->
    reads_pairs ((k, v) :: ps) (wk ++ op KColon ":" :: wv ++ op KComma "," :: w')
(** the [;] between the expressions of a block may be left out where the next
    token does not carry on the expression before it *)
with reads_block : list expr -> list token -> Prop :=
| rb_nil : reads_block [] []
| rb_semi e w es w' : reads KSemi e w -> reads_block es w' -> reads_block (e :: es) (w ++ op KSemi ";" :: w')
| rb_next e w es w' : reads (first w' KRb) e w -> over (first w' KRb) e -> reads_block es w' ->
    reads_block (e :: es) (w ++ w').

Scheme reads_mut := Induction for reads Sort Prop
  with reads_list_mut := Induction for reads_list Sort Prop
  with reads_pairs_mut := Induction for reads_pairs Sort Prop
  with reads_block_mut := Induction for reads_block Sort Prop.
Combined Scheme reads_all from reads_mut, reads_list_mut, reads_pairs_mut, reads_block_mut.

Inductive reads_item : kind -> item -> list token -> Prop :=
| rt_expr k e w : reads k e w -> over k e -> reads_item k (IExpr e) w
| rt_request k n m : k <> KLs ->
    reads_item k (IRequest n m []) [op KRequest "request"; Tok KIdent n; Tok KTemplate m]
| rt_request_asserts k n m es w : reads_list KRs es w ->
    reads_item k (IRequest n m es)
      (op KRequest "request" :: Tok KIdent n :: Tok KTemplate m :: op KLs "[" :: w ++ [op KRs "]"])
| rt_test k n b w : reads_block b w ->
    reads_item k (ITest n b) (op KTest "test" :: Tok KIdent n :: op KLb "{" :: w ++ [op KRb "}"]).

(** A whole source, up to its end *)
Inductive reads_items : list item -> list token -> Prop :=
| rs_nil : reads_items [] []
| rs_semi i w is w' : reads_item KSemi i w -> reads_items is w' -> reads_items (i :: is) (w ++ op KSemi ";" :: w')
| rs_next i w is w' : reads_item (first w' KEof) i w -> reads_items is w' -> reads_items (i :: is) (w ++ w').
