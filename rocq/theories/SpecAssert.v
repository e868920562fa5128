(** What an assertion about a response says of the response *)
From Verif Require Export SpecHttp SpecShow SpecHistory.
Open Scope N_scope.

(** A place in a document is reached by steps: [.k], [ ["k"] ] and [ [i] ] *)
Inductive turn := Field (k : str) | Key (k : str) | Nth (i : N).
Definition access (e : expr) (p : turn) : expr :=
  match p with Field k => EField e k | Key k => EIndex e (EStr k) | Nth i => EIndex e (EInt (Z.of_N i)) end.
(** the expression that says where: [root.k], [root["k"]], [root[i]], ... *)
Definition place (root : str) (ps : list turn) : expr := fold_left access ps (EIdent root).

(** [located d ps x]: following [ps] into [d] one comes to [x]; of several members
    of one name the last counts, and a number also names the member so called *)
Inductive located : jtree -> list turn -> jtree -> Prop :=
| lo_here x : located x [] x
| lo_field ms k y ps x : last_def k ms y -> located y ps x -> located (JObj ms) (Field k :: ps) x
| lo_key ms k y ps x : last_def k ms y -> located y ps x -> located (JObj ms) (Key k :: ps) x
| lo_nth ys i y ps x : nth_error ys (N.to_nat i) = Some y -> located y ps x -> located (JArr ys) (Nth i :: ps) x
| lo_number ms i k y ps x : integer_text (Z.of_N i) k -> last_def k ms y -> located y ps x -> located (JObj ms) (Nth i :: ps) x.

(** The parts of a response, as documents *)
Inductive part_of (r : response) : str -> jtree -> Prop :=
| po_version : part_of r (lit "version") (JStr (rs_version r))
| po_status : part_of r (lit "status") (JInt (rs_status r))
| po_reason : part_of r (lit "reason") (JStr (rs_reason r))
| po_headers : part_of r (lit "headers") (JObj (map (fun h => (fst h, JArr (map JStr (values_of (fst h) (rs_headers r))))) (rs_headers r)))
| po_body : part_of r (lit "body") (JStr (rs_body r))
| po_json d : json (rs_body r) d -> part_of r (lit "json") d.
Definition found (r : response) (root : str) (ps : list turn) (x : jtree) : Prop := exists y, part_of r root y /\ located y ps x.

(** [agrees x l]: [x] is what the literal [l] says *)
Inductive agrees : jtree -> expr -> Prop :=
| ag_int n : agrees (JInt n) (EInt (Z.of_N n))
| ag_frac f g : float_cmp f g Eq -> agrees (JFrac f) (EFloat g)
| ag_bool b : agrees (JBool b) (EBool b)
| ag_str s : agrees (JStr s) (EStr s).
(** [ranks x l c]: numbers and texts are ordered, [x] stands to [l] as [c] says *)
Inductive ranks : jtree -> expr -> comparison -> Prop :=
| rk_int n z : ranks (JInt n) (EInt z) (Z.of_N n ?= z)%Z
| rk_frac f g c : float_cmp f g c -> ranks (JFrac f) (EFloat g) c
| rk_frac_int f z g c : as_float (VInt z) g -> float_cmp f g c -> ranks (JFrac f) (EInt z) c
| rk_int_frac n g f c : as_float (VInt (Z.of_N n)) f -> float_cmp f g c -> ranks (JInt n) (EFloat g) c
| rk_before s t : lex_lt (utf8 s) (utf8 t) -> ranks (JStr s) (EStr t) Lt
| rk_after s t : lex_lt (utf8 t) (utf8 s) -> ranks (JStr s) (EStr t) Gt
| rk_same s : ranks (JStr s) (EStr s) Eq.
Definition meets (k : kind) (c : comparison) : Prop :=
  match k with KLt => c = Lt | KGt => c = Gt | KLe => c <> Gt | KGe => c <> Lt | _ => False end.

(** a literal that a source can contain *)
Inductive literal : expr -> Prop :=
| li_int z : literal (EInt z)
| li_float f : binary64 f -> literal (EFloat f)
| li_bool b : literal (EBool b)
| li_str s : scalars s -> literal (EStr s).

(** the body is a document, or surely none: blank, or beginning with [<] as a page does *)
Definition documented (r : response) : Prop :=
  (exists d, json (rs_body r) d) \/ exists a, blank a /\ (rs_body r = a \/ exists rest, rs_body r = a ++ 60 :: rest).

(** [says r e b]: if [e] compares a place in the response with a literal, then [b] is
    whether the comparison is true of what is found there; nothing found is equal to
    no literal, and neither less nor greater *)
Definition says (r : response) (e : expr) (b : bool) : Prop :=
  forall t root ps l, e = EBin t (place root ps) l -> literal l -> (root = lit "json" -> documented r) ->
  (tkind t = KEq -> (b = true <-> exists x, found r root ps x /\ agrees x l)) /\
  (tkind t = KNe -> (b = true <-> ~ exists x, found r root ps x /\ agrees x l)) /\
  (In (tkind t) [KLt; KGt; KLe; KGe] -> (b = true <-> exists x c, found r root ps x /\ ranks x l c /\ meets (tkind t) c)).
