(** Programs typed into a session line by line *)
From Verif Require Export SpecRun SpecReads SpecOrder SpecCombine.
Open Scope N_scope.

(** the lines as one text *)
Definition one_text (ls : list str) : str := flat_map (fun l => l ++ [10]) ls.
(** no line defines a request that an earlier line calls *)
Inductive defined_first : list str -> Prop :=
| df_nil : defined_first []
| df_line l ls : defined_first ls ->
    (forall src e r, parse l = Ok src -> In e (s_exprs src) -> In r (called e) ->
       forall l' src', In l' ls -> parse l' = Ok src' -> mget r (s_requests src') = None) ->
    defined_first (l :: ls).

(** what is shown for a result *)
Definition answer (w : env) (o : res) (t : str) : Prop :=
  match o with Ok v => t = show_value (e_host w) v | Err e => t = everr_text (e_host w) e | _ => False end.
(** the lines that are not blank *)
Inductive filled : list str -> nat -> Prop :=
| fd_nil : filled [] 0
| fd_blank l ls n : blank l -> filled ls n -> filled (l :: ls) n
| fd_line l ls n : ~ blank l -> filled ls n -> filled (l :: ls) (S n).
(** the same variables, records and messages sent *)
Definition same_effects (s t : st) : Prop :=
  (forall n, mget n (c_vars (s_ctx s)) = mget n (c_vars (s_ctx t))) /\ c_recs (s_ctx s) = c_recs (s_ctx t) /\ messages (s_trace s) = messages (s_trace t).
(** [answered_each parts tr tr']: [tr'] is [tr] with an answer after each part *)
Definition answered_each (parts : list (list event * str)) (tr tr' : list event) : Prop :=
  tr = flat_map fst parts /\ tr' = flat_map (fun p => fst p ++ [Printed (snd p ++ [10])]) parts.
