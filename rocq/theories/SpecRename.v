(** Renaming the variables and the requests of a program *)
From Verif Require Export SpecEval.

(** An expression with every variable renamed by [v] and every function it calls by [r] *)
Fixpoint rename (v r : str -> str) (e : expr) : expr :=
  match e with
  | EInt z => EInt z
  | EFloat f => EFloat f
  | EBool b => EBool b
  | EStr s => EStr s
  | EArr es => EArr (map (rename v r) es)
  | EMap ps => EMap (map (fun kv => (rename v r (fst kv), rename v r (snd kv))) ps)
  | EIndex a i => EIndex (rename v r a) (rename v r i)
  | EField a f => EField (rename v r a) f
  | EIdent n => EIdent (v n)
  | ELet n a => ELet (v n) (rename v r a)
  | EUn t a => EUn t (rename v r a)
  | EBin t a b => EBin t (rename v r a) (rename v r b)
  | EParen a => EParen (rename v r a)
  | EIf c a b => EIf (rename v r c) (map (rename v r) a) (map (rename v r) b)
  | ECall n es => ECall (r n) (map (rename v r) es)
  end.

Definition rename_piece (v : str -> str) (p : piece) : piece :=
  match p with Lit c => Lit c | Hole n => Hole (v n) end.
(** [retold v t t']: the template [t'] is [t] with the names in the placeholders renamed *)
Definition retold (v : str -> str) (t t' : str) : Prop :=
  exists ps, scan t ps /\ scan t' (map (rename_piece v) ps).

(** Renaming in the errors that mention names *)
Definition rename_error (v r : str -> str) (e : everr) : everr :=
  match e with
  | EIdentNotFound n => EIdentNotFound (v n)
  | EFunctionNotFound n => EFunctionNotFound (r n)
  | EBinaryUnsupported t a b => EBinaryUnsupported t (rename v r a) (rename v r b)
  | e => e
  end.
Definition rename_result {A} (v r : str -> str) (o : out everr A) : out everr A :=
  match o with Err e => Err (rename_error v r e) | o => o end.
(** A record is kept under the name of its request *)
Definition rename_record (r : str -> str) (x : record) : record :=
  Record_ (r (r_name x)) (r_time x) (r_request x) (r_response x) (r_asserts x) (r_error x).

(** No two names become one *)
Definition one_to_one (v : str -> str) : Prop := forall a b, v a = v b -> a = b.
(** The names of the built-in functions stay, and no other name becomes one of them *)
Definition keeps_natives (r : str -> str) : Prop := forall n, In n native_names \/ In (r n) native_names -> r n = n.

(** The request definitions [q'] are [q] renamed; assertions speak about the
    response, so they stay as they are *)
Definition redefined (v r : str -> str) (q q' : amap (str * list expr)) : Prop :=
  forall n, match mget n q with
            | Some (t, asserts) => exists t', mget (r n) q' = Some (t', asserts) /\ retold v t t'
            | None => mget (r n) q' = None
            end.
(** The state [s'] is [s] renamed *)
Definition renamed (v r : str -> str) (s s' : st) : Prop :=
  (forall n, mget (v n) (c_vars (s_ctx s')) = mget n (c_vars (s_ctx s))) /\
  redefined v r (c_reqs (s_ctx s)) (c_reqs (s_ctx s')) /\
  c_recs (s_ctx s') = map (rename_record r) (c_recs (s_ctx s)) /\
  s_trace s' = s_trace s.
