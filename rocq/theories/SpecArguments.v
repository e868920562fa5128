(** What a command line means: the ways of writing each option, and what they ask for. *)
From Verif Require Export SpecText SpecRun Arguments.
Open Scope N_scope.

(** what can be given after [test] *)
Inductive given := Sets (o : opt) (v : str) | Stat | Name (n : str).
(** the names of the options *)
Definition opt_name (o : opt) : str :=
  match o with
  | OThreads => lit "threads" | ODuration => lit "duration" | ONumber => lit "number"
  | OPath => lit "path" | ORecord => lit "record"
  end.
Definition opt_letter (o : opt) : str :=
  match o with
  | OThreads => lit "t" | ODuration => lit "d" | ONumber => lit "n" | OPath => lit "p" | ORecord => lit "r"
  end.
(** a text that does not look like an option *)
Definition ordinary (v : str) : Prop := v = lit "-" \/ forall r, v <> lit "-" ++ r.
(** letters of [stat] in front of another letter *)
Inductive stats : list given -> str -> Prop :=
| ss_none : stats [] []
| ss_more gs s : stats gs s -> stats (Stat :: gs) (lit "s" ++ s).
(** one thing given, or several in one group of letters *)
Inductive spelled : list given -> list str -> Prop :=
| sp_name n : ordinary n -> spelled [Name n] [n]
| sp_stat : spelled [Stat] [lit "--stat"]
| sp_stats gs s : stats gs s -> s <> [] -> spelled gs [lit "-" ++ s]
| sp_long_eq o v : spelled [Sets o v] [lit "--" ++ opt_name o ++ lit "=" ++ v]
| sp_long o v : ordinary v -> spelled [Sets o v] [lit "--" ++ opt_name o; v]
| sp_short_eq gs s o v : stats gs s -> spelled (gs ++ [Sets o v]) [lit "-" ++ s ++ opt_letter o ++ lit "=" ++ v]
| sp_short_on gs s o v : stats gs s -> v <> [] -> (forall r, v <> lit "=" ++ r) ->
    spelled (gs ++ [Sets o v]) [lit "-" ++ s ++ opt_letter o ++ v]
| sp_short gs s o v : stats gs s -> ordinary v -> spelled (gs ++ [Sets o v]) [lit "-" ++ s ++ opt_letter o; v].
(** all of it, in any order; after two hyphens there are only names *)
Inductive written : list given -> list str -> Prop :=
| wr_none : written [] []
| wr_rest ns : written (map Name ns) (lit "--" :: ns)
| wr_more g a gs args : spelled g a -> written gs args -> written (g ++ gs) (a ++ args).

(** nothing may be given twice *)
Inductive slot := OfOpt (o : opt) | OfStat | OfName.
Definition slot_of (g : given) : slot := match g with Sets o _ => OfOpt o | Stat => OfStat | Name _ => OfName end.
Definition once_each (gs : list given) : Prop := NoDup (map slot_of gs).

(** what the values mean *)
Definition whole (v : str) (n : N) : Prop :=
  unsigned (2 ^ 32 - 1) v n \/ (n = 0 /\ exists zs, v = lit "-" ++ zs /\ zs <> [] /\ Forall (eq 48) zs).
Definition lasting (checks : bool) (v : str) (d : N) : Prop :=
  exists x c n k, v = x ++ [c] /\ unsigned (2 ^ 64 - 1) x n /\ unit_seconds c k /\
    (n * k < 2 ^ 64 /\ d = n * k \/ 2 ^ 64 <= n * k /\ checks = false /\ d = (n * k) mod 2 ^ 64).
Definition somewhere (v : str) (p : str) : Prop := v <> [] /\ p = v.
(** [o] is given with a value that means [x], or not given *)
Definition asked {A} (means : str -> A -> Prop) (o : opt) (gs : list given) (x : option A) : Prop :=
  match x with
  | Some a => exists v, In (Sets o v) gs /\ means v a
  | None => forall v, ~ In (Sets o v) gs
  end.
(** one unless given *)
Definition counted (o : opt) (gs : list given) (n : N) : Prop :=
  asked whole o gs (Some n) \/ asked whole o gs None /\ n = 1.
Inductive asks (checks : bool) (gs : list given) : invocation -> Prop :=
| asks_run name threads duration number path record stat :
    (forall n, name = Some n <-> In (Name n) gs) ->
    counted OThreads gs threads -> asked (lasting checks) ODuration gs duration -> counted ONumber gs number ->
    asked somewhere OPath gs path -> asked somewhere ORecord gs record -> (stat = true <-> In Stat gs) ->
    asks checks gs (RunTests name threads duration number path record stat).

(** a value that takes the time beyond 64 bits *)
Definition endless (v : str) : Prop :=
  exists x c n k, v = x ++ [c] /\ unsigned (2 ^ 64 - 1) x n /\ unit_seconds c k /\ 2 ^ 64 <= n * k.
(** an argument that asks for help or the version *)
Definition curious (x : str) : Prop :=
  x = lit "help" \/ x = lit "--help" \/ x = lit "--version" \/ exists s, x = lit "-" ++ s /\ (In 104 s \/ In 86 s).
