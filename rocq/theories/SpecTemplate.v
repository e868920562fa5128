(** Placeholders in a text, independently of the regular expression search and
    of how replacement is done. *)
From Verif Require Export Base SpecLex.
Open Scope N_scope.

Definition identifier (n : str) : Prop := exists c s, n = c :: s /\ letter c /\ Forall (fun x => letter x \/ digit x) s.
(** [hole p n]: the text [p] is a placeholder for the name [n] *)
Definition hole (p n : str) : Prop :=
  identifier n /\ exists w1 w2, blank w1 /\ blank w2 /\ p = 123 :: w1 ++ n ++ w2 ++ [125].

Inductive piece := Lit (c : char) | Hole (name : str).
(** [scan s ps]: reading [s] from left to right, a placeholder is taken wherever
    one starts, any other character stands for itself *)
Inductive scan : str -> list piece -> Prop :=
| sc_nil : scan [] []
| sc_hole p n s ps : hole p n -> scan s ps -> scan (p ++ s) (Hole n :: ps)
| sc_lit c s ps : (forall p n r, hole p n -> c :: s <> p ++ r) -> scan s ps -> scan (c :: s) (Lit c :: ps).

(** The names of the placeholders, in order *)
Definition holes (ps : list piece) : list str := flat_map (fun p => match p with Hole n => [n] | Lit _ => [] end) ps.
(** The text with the [i]-th placeholder replaced by the [i]-th of [vs] *)
Fixpoint fill (ps : list piece) (vs : list str) : str :=
  match ps, vs with
  | [], _ => []
  | Lit c :: ps, _ => c :: fill ps vs
  | Hole _ :: ps, v :: vs => v ++ fill ps vs
  | Hole _ :: ps, [] => fill ps []
  end.
