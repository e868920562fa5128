(** Texts that differ in blanks only *)
From Verif Require Export SpecLex SpecProgram.
Open Scope N_scope.

(** characters that are tokens by themselves, and those that begin a quotation *)
Definition lone : str := lit ",;:(){}[]".
Definition quotes : str := map snd delimiters.
(** [relaid a b]: outside quotations some blanks were replaced by others, those at the ends and those next to
    a character that is a token by itself, or before a quotation, also added or removed *)
Inductive relaid : str -> str -> Prop :=
| re_same a : relaid a a
| re_back a b : relaid a b -> relaid b a
| re_then a b c : relaid a b -> relaid b c -> relaid a c
| re_blank u g g' v : closed u -> blank g -> blank g' -> g <> [] -> g' <> [] -> relaid (u ++ g ++ v) (u ++ g' ++ v)
| re_start g v : blank g -> relaid (g ++ v) v
| re_end u g : closed u -> blank g -> relaid (u ++ g) u
| re_before u g c v : closed u -> blank g -> In c (lone ++ quotes) -> relaid (u ++ g ++ c :: v) (u ++ c :: v)
| re_after u g c v : closed u -> blank g -> In c lone -> relaid (u ++ c :: g ++ v) (u ++ c :: v).
