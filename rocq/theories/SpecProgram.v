(** What users see of the whole program *)
From Verif Require Export Program SpecOutage SpecSession SpecArguments.
Open Scope N_scope.

(** executions, and what went wrong in them *)
Inductive proceeds : list trouble -> course -> course -> Prop :=
| pc_refl c : proceeds [] c c
| pc_step fs c c1 c2 x : proceeds fs c c1 -> course_step x c1 c2 -> proceeds (fs ++ match x with Some t => [t] | None => [] end) c c2.
(** the status with which the program has ended *)
Definition ended_with (c : course) : option status :=
  match c with
  | Left s _ => Some s
  | Tests _ (Ended (Exit b) _ _ _) => Some (Code (if b then 0 else 101))
  | Tests _ (Ended _ _ _ _) => Some Signalled
  | _ => None
  end.
(** what it has printed and sent so far *)
Definition log (c : course) : list event :=
  match c with Talks did _ _ => did | Tests _ k => map snd (log_of k) | Left _ did => did end.
(** the files *)
Definition files (o : outside) (c : course) : amap bytes := match c with Tests _ k => disk_of k | _ => os_disk o end.

(** with nothing wrong [tr] happens, and status [n] follows; a refused print ends it with
    101 there, a signal anywhere *)
Definition carried (tr : list event) (n : option N) (fs : list trouble) (c : course) : Prop :=
  (exists rest, tr = log c ++ rest) /\ (ended_with c = None -> fs = []) /\
  forall s, ended_with c = Some s ->
    fs = [] /\ log c = tr /\ (exists m, n = Some m /\ s = Code m) \/
    fs = [Mute Main] /\ s = Code 101 /\ (exists t rest, tr = log c ++ Printed t :: rest) \/
    fs = [Signal] /\ s = Signalled.

(** the records go to the directory [dir] *)
Definition into (o : outside) (dir : str) (stat : bool) : setting :=
  Setting stat dir (os_creates o) (os_accepts o) (os_worlds o) (os_order o) (os_heeds o).
