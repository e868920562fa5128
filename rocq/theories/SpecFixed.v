(** Suites whose tests do the same, and texts that stand in templates or in variables *)
From Verif Require Export SpecReads SpecWhole SpecMoved.
Open Scope N_scope.

(** two tests that look the same each time: [R] relates body and context of the one to those of the other *)
Definition same_end (h : host) (o o' : res) : Prop :=
  match o, o' with
  | Ok _, Ok _ | Panic, Panic | Diverge, Diverge => True
  | Err e, Err e' => everr_text h e' = everr_text h e
  | _, _ => False
  end.
Definition same_doings (R : list expr -> ctx -> list expr -> ctx -> Prop) : Prop := forall b c b' c', R b c b' c' ->
  (forall w tr, exists o o' c1 c1' tr1, eval_block w b (St c tr) = (o, St c1 tr1) /\ eval_block w b' (St c' tr) = (o', St c1' tr1) /\ same_end (e_host w) o o' /\ c_recs c1' = c_recs c1 /\ R b c1 b' c1') /\
  R b (Ctx (c_vars c) (c_reqs c) []) b' (Ctx (c_vars c') (c_reqs c') []).

(** a template in which the variables of fixed text are replaced by their texts *)
Definition spelt (texts : list (str * str)) (ps : list piece) : list piece :=
  flat_map (fun p => match p with
                     | Lit c => [Lit c]
                     | Hole n => match mget n texts with Some v => map Lit v | None => [Hole n] end
                     end) ps.
(** the variables have these texts *)
Definition has_texts (texts : list (str * str)) (c : ctx) : Prop := forall n v, mget n texts = Some v -> forall w, shown w c n = v.
(** the requests of the same name have the same assertions, and templates that say the same once the variables
    of fixed text are replaced; those in [D], which may differ in value, are among them *)
Definition same_wording (texts texts' : list (str * str)) (D : list str) (reqs reqs' : amap (str * list expr)) : Prop := forall r,
  match mget r reqs, mget r reqs' with
  | Some (t, asserts), Some (t', asserts') => asserts' = asserts /\ exists ps ps', scan t ps /\ scan t' ps' /\ spelt texts ps = spelt texts' ps' /\
      forall n, In n D -> ~ In (Hole n) (spelt texts ps)
  | None, None => True
  | _, _ => False
  end.
(** the program mentions no variable in [D] and sets none of fixed text *)
Definition leaves (texts texts' : list (str * str)) (D : list str) (e : expr) : Prop :=
  (forall n, In n D -> ~ In n (idents e)) /\ forall n, In n (map fst texts ++ map fst texts') -> ~ In n (let_names e).
Definition agree_outside (D : list str) (c c' : ctx) : Prop := forall n, ~ In n D -> mget n (c_vars c') = mget n (c_vars c).

(** requests of the same names with the same assertions that say the same with the variables filled in *)
Definition same_demand (q q' : demand) : Prop := d_name q' = d_name q /\ d_checks q' = d_checks q /\ d_message q' = d_message q.
