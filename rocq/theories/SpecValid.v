(** What every value of a running program is like, independently of how it was
    computed: integers of 64 bits, numbers of the binary64 format, text made of
    Unicode scalar values, and maps with unique keys. *)
From Verif Require Export SpecSyntax SpecValue.
Open Scope Z_scope.

Fixpoint valid (v : value) : Prop :=
  match v with
  | VInt z => fits z
  | VFloat f => binary64 f
  | VStr s => scalars s
  | VArr items => (fix all l := match l with [] => True | v :: l => valid v /\ all l end) items
  | VMap pairs =>
      NoDup (map fst pairs) /\
      (fix all (l : amap value) := match l with [] => True | (k, v) :: l => scalars k /\ valid v /\ all l end) pairs
  | VNull | VBool _ => True
  end.

(** [occurs e src]: [e] is a top-level expression, an assertion of a request or an
    expression of a test of [src] *)
Definition occurs (e : expr) (src : source) : Prop :=
  In e (s_exprs src) \/ (exists n m es, mget n (s_requests src) = Some (m, es) /\ In e es) \/
  (exists n b, mget n (s_tests src) = Some b /\ In e b).
(** [e] was read from some text *)
Definition read_from_text (e : expr) : Prop :=
  exists text src, scalars text /\ parse text = Ok src /\ occurs e src.

(** The variables hold valid values, the assertions were read from text *)
Definition valid_state (s : st) : Prop :=
  valid (VMap (c_vars (s_ctx s))) /\
  forall n m es e, mget n (c_reqs (s_ctx s)) = Some (m, es) -> In e es -> read_from_text e.
