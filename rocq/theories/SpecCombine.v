(** Sources made of several files, and the brackets of a source *)
From Verif Require Export Parser SpecSyntax.
Open Scope N_scope.

(** Items every expression of which is followed by [;] *)
Inductive finished : list item -> list token -> Prop :=
| fi_nil : finished [] []
| fi_semi i w is w' : syntax_item true i w -> finished is w' -> finished (i :: is) (w ++ op KSemi ";" :: w')
| fi_def i w is w' : syntax_item true i w -> (forall e, i <> IExpr e) -> finished is w' ->
    (forall t r, w' = t :: r -> tkind t <> KLs) -> finished (i :: is) (w ++ w').

(** A file that can be followed and preceded by others: it is finished, ends in a
    blank outside quotations and does not start with [[] *)
Definition self_contained (text : str) : Prop := exists a c b is w,
  text = a ++ c :: b /\ closed a /\ ws c /\ blank b /\ segment a = w ++ [Tok KEof []] /\ finished is w /\
  (forall t r, w = t :: r -> tkind t <> KLs) /\
  (forall i e, In i is -> in_item e i -> no_let_operand e /\ prec_ok e).

(** [last_of get l d]: of the files defining it, the last one defines it as [d] *)
Definition last_of {A} (get : source -> option A) (l : list source) (d : A) : Prop :=
  exists a s b, l = a ++ s :: b /\ get s = Some d /\ Forall (fun s' => get s' = None) b.

(** The source is what its files are taken together *)
Definition merged (l : list source) (src : source) : Prop :=
  s_exprs src = flat_map s_exprs l /\
  (forall n d, mget n (s_requests src) = Some d <-> last_of (fun s => mget n (s_requests s)) l d) /\
  (forall n b, mget n (s_tests src) = Some b <-> last_of (fun s => mget n (s_tests s)) l b).

(** ** brackets *)
Definition matching : list (kind * kind) := [(KLp, KRp); (KLb, KRb); (KLs, KRs)].
Definition bracket (k : kind) : Prop := exists o c, In (o, c) matching /\ (k = o \/ k = c).
Inductive balanced : list token -> Prop :=
| ba_nil : balanced []
| ba_token t w : ~ bracket (tkind t) -> balanced w -> balanced (t :: w)
| ba_pair o c a b : In (tkind o, tkind c) matching -> balanced a -> balanced b -> balanced (o :: a ++ c :: b).
Definition many (k : kind) (w : list token) : nat := length (filter (fun t => kind_eqb (tkind t) k) w).
