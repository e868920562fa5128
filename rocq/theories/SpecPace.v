(** How long answers take *)
From Verif Require Export SpecSafe SpecShared SpecNumber SpecRun.
Open Scope N_scope.

Definition messages (tr : list event) : list str := flat_map (fun e => match e with Sent m => [m] | Printed _ => [] end) tr.
(** the same connections, errors and bytes, at any times *)
Definition same_but_times (x x' : exchange) : Prop :=
  match x_connect x, x_connect x' with inl _, inl _ => True | inr e, inr e' => e = e' | _, _ => False end /\ x_write x' = x_write x /\ x_reply x' = x_reply x.
(** servers that are told the same answer the same, but may take another time *)
Definition same_but_pace (w w' : env) : Prop :=
  same_machine w w' /\ forall tr tr' m, messages tr = messages tr' -> same_but_times (e_net w tr m) (e_net w' tr' m).
(** the same text, or the same report with another duration at its end *)
Definition same_text_but_duration (t t' : str) : Prop :=
  t = t' \/ exists said d d' ns ns', duration_text ns d /\ duration_text ns' d' /\ t = said ++ lit " (" ++ d ++ lit ")" ++ [10] /\ t' = said ++ lit " (" ++ d' ++ lit ")" ++ [10].
Definition same_event_but_duration (e e' : event) : Prop :=
  match e, e' with Sent m, Sent m' => m = m' | Printed t, Printed t' => same_text_but_duration t t' | _, _ => False end.
(** the same lines of statistics: names and counts, whatever the times *)
Definition same_counts (t t' : str) : Prop := exists rows rows' : list (str * stat),
  Forall2 (fun a b => fst a = fst b /\ st_count (snd a) = st_count (snd b)) rows rows' /\
  t = List.concat (map (fun p => stat_line (fst p) (snd p)) rows) /\ t' = List.concat (map (fun p => stat_line (fst p) (snd p)) rows').
(** the same doings in the same order, but for durations *)
Definition same_log_but_durations (l l' : list (who * event)) : Prop :=
  Forall2 (fun x y => fst x = fst y /\
    match fst x with Collector => exists t t', snd x = Printed t /\ snd y = Printed t' /\ same_counts t t' | _ => same_event_but_duration (snd x) (snd y) end) l l'.
(** the same files, whatever is in them *)
Definition same_files (d d' : amap bytes) : Prop := forall path, mget path d = None <-> mget path d' = None.
