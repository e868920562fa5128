(** The lines a user enters, as bytes *)
From Verif Require Export Session SpecRun SpecRead.
Open Scope N_scope.

(** [bs] consists of the lines [ls], each ended by a line feed, and [r] without one *)
Inductive cut_lines : bytes -> list bytes -> bytes -> Prop :=
| cl_rest r : ~ In 10 r -> cut_lines r [] r
| cl_line l bs ls r : ~ In 10 l -> cut_lines bs ls r -> cut_lines (l ++ 10 :: bs) (l :: ls) r.
(** the text of a line; a carriage return at its end does not count *)
Inductive entered : bytes -> option str -> Prop :=
| en_text t : scalars t -> (forall t', t <> t' ++ [13]) -> entered (utf8 t) (Some t)
| en_cr t : scalars t -> entered (utf8 t ++ [13]) (Some t)
| en_bad bs : (forall t, scalars t -> utf8 t <> bs) -> entered bs None.
(** the text of what follows the last line feed *)
Inductive entered_last : bytes -> option str -> Prop :=
| el_text t : scalars t -> entered_last (utf8 t) (Some t)
| el_bad bs : (forall t, scalars t -> utf8 t <> bs) -> entered_last bs None.
(** what a user who sent [bs] has entered: complete lines, and what is left when the
    input ends *)
Inductive inputs (bs : bytes) (e : ending) : list (option str) -> Prop :=
| in_open ls r ts : cut_lines bs ls r -> Forall2 entered ls ts -> (e <> Closed \/ r = []) -> inputs bs e ts
| in_closed ls r ts t : cut_lines bs ls r -> Forall2 entered ls ts -> e = Closed -> r <> [] -> entered_last r t -> inputs bs e (ts ++ [t]).
(** how a session that has used up its input goes on *)
Definition used_up (e : ending) : session_end := match e with Silent => Waiting | _ => Spins end.
(** every line that is not blank is answered, last of all with a line of text *)
Inductive answered : list (option str) -> list event -> Prop :=
| aw_none : answered [] []
| aw_unreadable ts tr : answered ts tr -> answered (None :: ts) tr
| aw_blank l ts tr : blank l -> answered ts tr -> answered (Some l :: ts) tr
| aw_line l t own ts tr : ~ blank l -> answered ts tr -> answered (Some l :: ts) (own ++ [Printed (t ++ [10])] ++ tr).
