(** Blank-separated words, trimming and lines of a text *)
From Verif Require Export Text SpecLex SpecSyntax.
Open Scope N_scope.

Definition contains (p s : str) : Prop := exists a b, s = a ++ p ++ b.
(** [trimmed s t]: [t] is [s] without the white space at both ends *)
Definition trimmed (s t : str) : Prop :=
  exists a b, s = a ++ t ++ b /\ blank a /\ blank b /\
    (forall c r, t = c :: r -> ~ ws c) /\ (forall c r, t = r ++ [c] -> ~ ws c).

(** [words s l]: [l] are the blank-separated words of [s] *)
Inductive words : str -> list str -> Prop :=
| wd_nil s : blank s -> words s []
| wd_cons a w s l : blank a -> w <> [] -> Forall (fun c => ~ ws c) w ->
    (s = [] \/ exists c r, s = c :: r /\ ws c) -> words s l -> words (a ++ w ++ s) (w :: l).

(** [text_lines s l]: [l] are the lines of [s], each ended by LF or CR LF, the
    last one possibly by the end of the text *)
Inductive text_lines : str -> list str -> Prop :=
| tl_nil : text_lines [] []
| tl_last s : s <> [] -> ~ In 10 s -> text_lines s [s]
| tl_lf l s ls : ~ In 10 l -> (forall l', l <> l' ++ [13]) -> text_lines s ls -> text_lines (l ++ 10 :: s) (l :: ls)
| tl_crlf l s ls : ~ In 10 l -> text_lines s ls -> text_lines (l ++ 13 :: 10 :: s) (l :: ls).

(** [unsigned max t n]: [t] is a decimal numeral, with an optional +, of value [n] <= [max] *)
Definition unsigned (max : N) (t : str) (n : N) : Prop :=
  exists ds, (t = ds \/ t = 43 :: ds) /\ ds <> [] /\ Forall digit ds /\ n = decimal ds /\ n <= max.
