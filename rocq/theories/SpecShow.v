(** The texts shown for values *)
From Verif Require Export SpecSyntax SpecValue SpecNumber SpecValid.
From Coq Require Import Permutation.
Open Scope N_scope.

(** the decimal text of an integer, without superfluous zeros *)
Definition integer_text (z : Z) (t : str) : Prop :=
  exists ds, ds <> [] /\ Forall digit ds /\ (hd 0 ds = 48 -> ds = [48]) /\
    ((0 <= z)%Z /\ t = ds /\ Z.of_N (decimal ds) = z \/ (z < 0)%Z /\ t = 45 :: ds /\ Z.of_N (decimal ds) = (- z)%Z).
Definition bool_text (b : bool) : str := if b then lit "true" else lit "false".

(** text in quotes, given which characters are shown as they are; the others by their hexadecimal number *)
Definition hex_digit (d : N) : char := if d <? 10 then 48 + d else 87 + d.
Fixpoint hex_fuel (f : nat) (n : N) (acc : str) : str :=
  match f with
  | O => acc
  | S f => if n <? 16 then hex_digit n :: acc else hex_fuel f (n / 16) (hex_digit (n mod 16) :: acc)
  end.
Definition hex (n : N) : str := hex_fuel (S (N.size_nat n)) n [].
Definition escaped (plain : char -> bool) (c : char) : str :=
  if c =? 0 then lit "\0" else if c =? 9 then lit "\t" else if c =? 13 then lit "\r" else if c =? 10 then lit "\n"
  else if c =? 34 then lit "\""" else if c =? 92 then lit "\\" else if plain c then [c] else lit "\u{" ++ hex c ++ lit "}".
Definition quoted (plain : char -> bool) (s : str) : str := lit """" ++ flat_map (escaped plain) s ++ lit """".

Section Texts.
Variable plain : char -> bool.

(** with the type: what is shown inside of arrays, maps and in most messages *)
Inductive debugs : value -> str -> Prop :=
| db_null : debugs VNull (lit "Null")
| db_int z t : integer_text z t -> debugs (VInt z) (lit "Integer(" ++ t ++ lit ")")
| db_float f t : debugged_float f t -> debugs (VFloat f) (lit "Float(" ++ t ++ lit ")")
| db_bool b : debugs (VBool b) (lit "Boolean(" ++ bool_text b ++ lit ")")
| db_str s : debugs (VStr s) (lit "String(" ++ quoted plain s ++ lit ")")
| db_arr l t : debugs_items l t -> debugs (VArr l) (lit "Array([" ++ t ++ lit "])")
| db_map m ps t : Permutation ps m -> debugs_pairs ps t -> debugs (VMap m) (lit "Map({" ++ t ++ lit "})")
with debugs_items : list value -> str -> Prop :=
| di_nil : debugs_items [] []
| di_one v t : debugs v t -> debugs_items [v] t
| di_more v t w l u : debugs v t -> debugs_items (w :: l) u -> debugs_items (v :: w :: l) (t ++ lit ", " ++ u)
with debugs_pairs : list (str * value) -> str -> Prop :=
| dp_nil : debugs_pairs [] []
| dp_one k v t : debugs v t -> debugs_pairs [(k, v)] (quoted plain k ++ lit ": " ++ t)
| dp_more k v t q l u : debugs v t -> debugs_pairs (q :: l) u -> debugs_pairs ((k, v) :: q :: l) (quoted plain k ++ lit ": " ++ t ++ lit ", " ++ u).

(** without: what is printed and put into templates *)
Inductive shows : value -> str -> Prop :=
| sh_null : shows VNull (lit "null")
| sh_int z t : integer_text z t -> shows (VInt z) t
| sh_float f t : shown_float f t -> shows (VFloat f) t
| sh_bool b : shows (VBool b) (bool_text b)
| sh_str s : shows (VStr s) s
| sh_arr l t : debugs_items l t -> shows (VArr l) (lit "[" ++ t ++ lit "]")
| sh_map m ps t : Permutation ps m -> debugs_pairs ps t -> shows (VMap m) (lit "{" ++ t ++ lit "}").

End Texts.

(** the same value, up to the order of the entries of maps *)
Inductive alike : value -> value -> Prop :=
| al_null : alike VNull VNull
| al_int z : alike (VInt z) (VInt z)
| al_float f : alike (VFloat f) (VFloat f)
| al_bool b : alike (VBool b) (VBool b)
| al_str s : alike (VStr s) (VStr s)
| al_arr a b : Forall2 alike a b -> alike (VArr a) (VArr b)
| al_map a a' b b' : Permutation a' a -> Permutation b' b -> Forall2 (fun p q => fst p = fst q /\ alike (snd p) (snd q)) a' b' ->
    alike (VMap a) (VMap b).

(** the entries of a map are shown in some order *)
Definition orders (h : host) : Prop := forall ks, Permutation (h_order h ks) ks.
