(** The language, independently of how parser.rs recognises it: which token
    sequences are ways to write an expression, which trees respect operator
    precedence, and how a source is made of items. *)
From Verif Require Export Syntax SpecLex SpecFloat64.
Open Scope N_scope.

(** The token with the given fixed spelling *)
Definition op (k : kind) (s : String.string) : token := Tok k (lit s).
Arguments op k s%string_scope.

(** Binary operators from loosest to tightest *)
Definition levels : list (list kind) :=
  [[KLo]; [KLa]; [KBo]; [KBx]; [KBa]; [KEq; KNe]; [KLt; KGt; KLe; KGe]; [KSl; KSr]; [KAdd; KSub]; [KMul; KDiv; KRem]].
(** [rank k n]: [k] is a binary operator of the [n]-th level *)
Definition rank (k : kind) (n : nat) : Prop := exists l, nth_error levels n = Some l /\ In k l.
Definition binary (k : kind) : Prop := exists n, rank k n.
(** [looser k k']: [k] binds less tightly than [k'] *)
Definition looser (k k' : kind) : Prop := exists n n', rank k n /\ rank k' n' /\ (n < n')%nat.
Definition same_level (k k' : kind) : Prop := exists n, rank k n /\ rank k' n.

Definition unary (k : kind) : Prop := k = KNot \/ k = KSub.

(** [syntax strict e w]: the tokens [w] are a way to write [e], disregarding
    precedence.  A strict writing has [;] between the expressions of a block and
    no [;] inside a [let]; a lax one may omit the former and have the latter.
    Lists and maps may have a trailing comma, blocks a trailing [;]. *)
Inductive syntax (strict : bool) : expr -> list token -> Prop :=
| sx_int l : l <> [] -> Forall digit l -> (Z.of_N (decimal l) < 2 ^ 63)%Z ->
    syntax strict (EInt (Z.of_N (decimal l))) [Tok KInteger l]
| sx_float l f : float_literal l f -> syntax strict (EFloat f) [Tok KFloat l]
| sx_true : syntax strict (EBool true) [op KTrue "true"]
| sx_false : syntax strict (EBool false) [op KFalse "false"]
| sx_str s : syntax strict (EStr s) [Tok KString s]
| sx_ident n : syntax strict (EIdent n) [Tok KIdent n]
| sx_arr es w : syntax_list strict es w -> syntax strict (EArr es) (op KLs "[" :: w ++ [op KRs "]"])
| sx_map ps w : syntax_pairs strict ps w -> syntax strict (EMap ps) (op KLb "{" :: w ++ [op KRb "}"])
| sx_index e w i wi : syntax strict e w -> syntax strict i wi ->
    syntax strict (EIndex e i) (w ++ op KLs "[" :: wi ++ [op KRs "]"])
| sx_field e w f : syntax strict e w -> syntax strict (EField e f) (w ++ [op KDot "."; Tok KIdent f])
| sx_let n v w : syntax strict v w -> syntax strict (ELet n v) (op KLet "let" :: Tok KIdent n :: op KAssign "=" :: w)
| sx_let_semi n v w : strict = false -> syntax strict v w ->
    syntax strict (ELet n v) (op KLet "let" :: Tok KIdent n :: op KAssign "=" :: w ++ [op KSemi ";"])
| sx_un t e w : unary (tkind t) -> syntax strict e w -> syntax strict (EUn t e) (t :: w)
| sx_bin t l wl r wr : binary (tkind t) -> syntax strict l wl -> syntax strict r wr ->
    syntax strict (EBin t l r) (wl ++ t :: wr)
| sx_paren e w : syntax strict e w -> syntax strict (EParen e) (op KLp "(" :: w ++ [op KRp ")"])
| sx_if c wc cs wcs : syntax strict c wc -> syntax_block strict cs wcs ->
    syntax strict (EIf c cs []) (op KIf "if" :: op KLp "(" :: wc ++ op KRp ")" :: op KLb "{" :: wcs ++ [op KRb "}"])
| sx_if_else c wc cs wcs alt walt : syntax strict c wc -> syntax_block strict cs wcs -> syntax_block strict alt walt ->
    syntax strict (EIf c cs alt)
      (op KIf "if" :: op KLp "(" :: wc ++ op KRp ")" :: op KLb "{" :: wcs ++
       op KRb "}" :: op KElse "else" :: op KLb "{" :: walt ++ [op KRb "}"])
| sx_call n es w : syntax_list strict es w ->
    syntax strict (ECall n es) (Tok KIdent n :: op KLp "(" :: w ++ [op KRp ")"])
with syntax_list (strict : bool) : list expr -> list token -> Prop :=
| sl_nil : syntax_list strict [] []
| sl_last e w : syntax strict e w -> syntax_list strict [e] w
| sl_cons e w es w' : syntax strict e w -> syntax_list strict es w' ->
    syntax_list strict (e :: es) (w ++ op KComma "," :: w')
with syntax_pairs (strict : bool) : list (expr * expr) -> list token -> Prop :=
| sp_nil : syntax_pairs strict [] []
| sp_last k wk v wv : syntax strict k wk -> syntax strict v wv ->
    syntax_pairs strict [(k, v)] (wk ++ op KColon ":" :: wv)
| sp_cons k wk v wv ps w' : syntax strict k wk -> syntax strict v wv -> syntax_pairs strict ps w' ->
    syntax_pairs strict ((k, v) :: ps) (wk ++ op KColon ":" :: wv ++ op KComma "," :: w')
with syntax_block (strict : bool) : list expr -> list token -> Prop :=
| sb_nil : syntax_block strict [] []
| sb_last e w : syntax strict e w -> syntax_block strict [e] w
| sb_cons e w es w' : syntax strict e w -> syntax_block strict es w' ->
    syntax_block strict (e :: es) (w ++ op KSemi ";" :: w')
| sb_next e w es w' : strict = false -> syntax strict e w -> syntax_block strict es w' ->
    syntax_block strict (e :: es) (w ++ w').

Scheme syntax_mut := Induction for syntax Sort Prop
  with syntax_list_mut := Induction for syntax_list Sort Prop
  with syntax_pairs_mut := Induction for syntax_pairs Sort Prop
  with syntax_block_mut := Induction for syntax_block Sort Prop.
Combined Scheme syntax_all from syntax_mut, syntax_list_mut, syntax_pairs_mut, syntax_block_mut.

Definition is_let (e : expr) : Prop := match e with ELet _ _ => True | _ => False end.
Definition is_unary (e : expr) : Prop := match e with EUn _ _ => True | _ => False end.
Definition is_binary (e : expr) : Prop := match e with EBin _ _ _ => True | _ => False end.

Section Everywhere.
  (** [everywhere P e]: [P] holds of [e] and of every expression inside it *)
  Variable P : expr -> Prop.
  Fixpoint everywhere (e : expr) : Prop :=
    let fix all (l : list expr) : Prop := match l with [] => True | e :: l => everywhere e /\ all l end in
    let fix all2 (l : list (expr * expr)) : Prop :=
      match l with [] => True | (k, v) :: l => everywhere k /\ everywhere v /\ all2 l end in
    P e /\
    match e with
    | EInt _ | EFloat _ | EBool _ | EStr _ | EIdent _ => True
    | EArr es => all es
    | EMap ps => all2 ps
    | EIndex e i => everywhere e /\ everywhere i
    | EField e _ => everywhere e
    | ELet _ e => everywhere e
    | EUn _ e => everywhere e
    | EBin _ l r => everywhere l /\ everywhere r
    | EParen e => everywhere e
    | EIf c cs alt => everywhere c /\ all cs /\ all alt
    | ECall _ es => all es
    end.
End Everywhere.

(** No [let] as the operand of a unary or the right operand of a binary operator *)
Definition no_let_operand : expr -> Prop :=
  everywhere (fun e => match e with
    | EUn _ e => ~ is_let e
    | EBin _ _ r => ~ is_let r
    | _ => True
    end).

(** Every float literal is a number with a fraction: neither whole nor infinite *)
Definition fractional : expr -> Prop := everywhere (fun e => forall f, e = EFloat f -> has_fraction f).
(** No field access directly on a number literal *)
Definition no_number_field : expr -> Prop :=
  everywhere (fun e => (forall z n, e <> EField (EInt z) n) /\ forall f n, e <> EField (EFloat f) n).

(** Operator precedence: the left operand of a binary operator is not a looser
    binary expression, the right one not a looser or equally tight one, the
    operand of a unary operator is not binary, and the target of an index or
    field access is neither unary nor binary. *)
Definition prec_ok : expr -> Prop :=
  everywhere (fun e => match e with
    | EBin t l r =>
        ~ is_let l /\
        (forall t' a b, l = EBin t' a b -> ~ looser (tkind t') (tkind t)) /\
        (forall t' a b, r = EBin t' a b -> looser (tkind t) (tkind t'))
    | EUn _ e => ~ is_binary e
    | EIndex e _ | EField e _ => ~ is_let e /\ ~ is_unary e /\ ~ is_binary e
    | _ => True
    end).

(** A source is a sequence of items *)
Inductive item : Type :=
| IExpr (e : expr)
| IRequest (name message : str) (asserts : list expr)
| ITest (name : str) (block : list expr).

Inductive syntax_item (strict : bool) : item -> list token -> Prop :=
| si_expr e w : syntax strict e w -> syntax_item strict (IExpr e) w
| si_request n m : syntax_item strict (IRequest n m []) [op KRequest "request"; Tok KIdent n; Tok KTemplate m]
| si_request_asserts n m es w : syntax_list strict es w ->
    syntax_item strict (IRequest n m es)
      (op KRequest "request" :: Tok KIdent n :: Tok KTemplate m :: op KLs "[" :: w ++ [op KRs "]"])
| si_test n b w : syntax_block strict b w ->
    syntax_item strict (ITest n b) (op KTest "test" :: Tok KIdent n :: op KLb "{" :: w ++ [op KRb "}"]).

(** Items one after the other, each optionally followed by a [;] *)
Inductive syntax_items : list item -> list token -> Prop :=
| sis_nil : syntax_items [] []
| sis_cons i w is w' : syntax_item false i w -> syntax_items is w' -> syntax_items (i :: is) (w ++ w')
| sis_semi i w is w' : syntax_item false i w -> syntax_items is w' -> syntax_items (i :: is) (w ++ op KSemi ";" :: w').

(** A source in which every expression but the last item is followed by [;].
    A definition needs none, unless the next item starts with [[], which would be
    read as the assertions of a request. *)
Inductive program : list item -> list token -> Prop :=
| pg_nil : program [] []
| pg_last i w : syntax_item true i w -> program [i] w
| pg_semi i w is w' : syntax_item true i w -> program is w' -> program (i :: is) (w ++ op KSemi ";" :: w')
| pg_def i w is w' : syntax_item true i w -> (forall e, i <> IExpr e) -> program is w' ->
    (forall t r, w' = t :: r -> tkind t <> KLs) -> program (i :: is) (w ++ w').

(** All expressions of an item *)
Definition in_item (e : expr) (i : item) : Prop :=
  match i with IExpr e' => e = e' | IRequest _ _ es => In e es | ITest _ b => In e b end.

(** The expressions of a source, in order *)
Definition item_exprs (is : list item) : list expr :=
  flat_map (fun i => match i with IExpr e => [e] | _ => [] end) is.
(** The requests and tests of a source, in order *)
Definition item_requests (is : list item) : list (str * (str * list expr)) :=
  flat_map (fun i => match i with IRequest n m es => [(n, (m, es))] | _ => [] end) is.
Definition item_tests (is : list item) : list (str * list expr) :=
  flat_map (fun i => match i with ITest n b => [(n, b)] | _ => [] end) is.

(** [last_def n l v]: [v] is the last entry named [n] *)
Definition last_def {V} (n : str) (l : list (str * V)) (v : V) : Prop :=
  exists a b, l = a ++ (n, v) :: b /\ ~ In n (map fst b).

(** The tokens that can end an operand *)
Definition ends_operand (k : kind) : Prop :=
  In k [KIdent; KInteger; KFloat; KTrue; KFalse; KString; KRp; KRb; KRs].

(** [adjacent a b ts]: [a] directly followed by [b] somewhere in [ts] *)
Definition adjacent (a b : token) (ts : list token) : Prop := exists u v, ts = u ++ a :: b :: v.

(** No [!] directly after a token that can end an operand, no [let] directly
    after an operator *)
Definition no_bang (ts : list token) : Prop :=
  forall a b, adjacent a b ts ->
    (tkind b = KNot -> ~ ends_operand (tkind a)) /\
    (tkind b = KLet -> ~ unary (tkind a) /\ ~ binary (tkind a)).
