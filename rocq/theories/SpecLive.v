(** Which variables are read before they are set *)
From Verif Require Export SpecRun SpecReads.

(** The variables that are set whenever the expression succeeds *)
Fixpoint sure (e : expr) : list str :=
  match e with
  | EInt _ | EFloat _ | EBool _ | EStr _ | EIdent _ => []
  | EArr es | ECall _ es => flat_map sure es
  | EMap ps => flat_map (fun kv => sure (fst kv) ++ sure (snd kv)) ps
  | EIndex a b => sure a ++ sure b
  | EBin t a b => sure a ++ match tkind t with KLo | KLa => [] | _ => sure b end
  | EField a _ | EUn _ a | EParen a => sure a
  | ELet n a => n :: sure a
  | EIf c a b => sure c ++ filter (fun n => existsb (str_eqb n) (flat_map sure b)) (flat_map sure a)
  end.
Definition sure_pairs (ps : list (expr * expr)) : list str := flat_map (fun kv => sure (fst kv) ++ sure (snd kv)) ps.

(** The variables that may be read, by name or by a placeholder of a request
    called, before they are surely set *)
Inductive needs (reqs : amap (str * list expr)) : expr -> str -> Prop :=
| nd_ident n : needs reqs (EIdent n) n
| nd_let x e n : needs reqs e n -> needs reqs (ELet x e) n
| nd_field e f n : needs reqs e n -> needs reqs (EField e f) n
| nd_un t e n : needs reqs e n -> needs reqs (EUn t e) n
| nd_paren e n : needs reqs e n -> needs reqs (EParen e) n
| nd_arr a e b n : needs reqs e n -> ~ In n (flat_map sure a) -> needs reqs (EArr (a ++ e :: b)) n
| nd_key a k v b n : needs reqs k n -> ~ In n (sure_pairs a) -> needs reqs (EMap (a ++ (k, v) :: b)) n
| nd_value a k v b n : needs reqs v n -> ~ In n (sure_pairs a ++ sure k) -> needs reqs (EMap (a ++ (k, v) :: b)) n
| nd_index1 a b n : needs reqs a n -> needs reqs (EIndex a b) n
| nd_index2 a b n : needs reqs b n -> ~ In n (sure a) -> needs reqs (EIndex a b) n
| nd_bin1 t a b n : needs reqs a n -> needs reqs (EBin t a b) n
| nd_bin2 t a b n : needs reqs b n -> ~ In n (sure a) -> needs reqs (EBin t a b) n
| nd_cond c y z n : needs reqs c n -> needs reqs (EIf c y z) n
| nd_then c a e b z n : needs reqs e n -> ~ In n (sure c ++ flat_map sure a) -> needs reqs (EIf c (a ++ e :: b) z) n
| nd_else c y a e b n : needs reqs e n -> ~ In n (sure c ++ flat_map sure a) -> needs reqs (EIf c y (a ++ e :: b)) n
| nd_arg f a e b n : needs reqs e n -> ~ In n (flat_map sure a) -> needs reqs (ECall f (a ++ e :: b)) n
| nd_hole f es template asserts ps n : mget f reqs = Some (template, asserts) -> scan template ps -> In n (holes ps) ->
    ~ In n (flat_map sure es) -> needs reqs (ECall f es) n.
Definition needs_block (reqs : amap (str * list expr)) (es : list expr) (n : str) : Prop :=
  exists a e b, es = a ++ e :: b /\ needs reqs e n /\ ~ In n (flat_map sure a).

(** From here on the network answers alike *)
Definition same_future (w : env) (t1 t2 : list event) : Prop := forall tr msg, e_net w (t1 ++ tr) msg = e_net w (t2 ++ tr) msg.
(** The network answers equal requests equally, at all times *)
Definition memoryless (w : env) : Prop := forall t1 t2 msg, e_net w t1 msg = e_net w t2 msg.
(** The block sets no variable that it may read before *)
Definition carries_nothing (reqs : amap (str * list expr)) (es : list expr) : Prop :=
  forall n, needs_block reqs es n -> ~ In n (flat_map let_names es).
