(** Rust [f64] as the standard library's executable IEEE-754 specification,
    binary64 = precision 53, emax 1024.  NaN payloads and signs are not modelled
    (nothing in the code observes them). *)
From Coq Require Export Floats.SpecFloat.
From Verif Require Export Text.
Open Scope Z_scope.

(** value.rs:20 *)
Definition f64 := spec_float.
(** value.rs:46 *)
Definition f64_add : f64 -> f64 -> f64 := SFadd 53 1024.
(** value.rs:60 *)
Definition f64_sub : f64 -> f64 -> f64 := SFsub 53 1024.
(** value.rs:73 *)
Definition f64_mul : f64 -> f64 -> f64 := SFmul 53 1024.
(** value.rs:86 *)
Definition f64_div : f64 -> f64 -> f64 := SFdiv 53 1024.
(** evaluator.rs:121 *)
Definition f64_neg : f64 -> f64 := SFopp.
(** derived ==, value.rs:16 *)
Definition f64_eqb : f64 -> f64 -> bool := SFeqb.
(** value.rs:161 *)
Definition f64_cmp : f64 -> f64 -> option comparison := SFcompare.

(** [i64 as f64]: round to nearest, ties to even (value.rs:47-48 etc.) *)
Definition f64_of_int (z : Z) : f64 := binary_normalize 53 1024 z 0 false.

(** f64 [%] (value.rs:99-101): IEEE fmod, exact, sign of the dividend *)
Definition f64_rem (x y : f64) : f64 :=
  match x, y with
  | S754_nan, _ | _, S754_nan => S754_nan
  | S754_infinity _, _ => S754_nan
  | _, S754_zero _ => S754_nan
  | _, S754_infinity _ => x
  | S754_zero _, _ => x
  | S754_finite sx mx ex, S754_finite _ my ey =>
      let e := Z.min ex ey in
      let r := (Zpos mx * 2 ^ (ex - e)) mod (Zpos my * 2 ^ (ey - e)) in
      match r with
      | Zpos p => binary_normalize 53 1024 (if sx then Zneg p else Zpos p) e sx
      | _ => S754_zero sx
      end
  end.

(** [str::parse::<f64>] restricted to what the lexer can produce (a digit, then
    digits and dots; parser.rs:169): exactly one '.', at least one digit, value
    rounded to nearest even.  Two dots make the parse fail. *)
Definition parse_f64 (s : str) : option f64 :=
  match split_once 46%N s with
  | None => None
  | Some (i, f) =>
      match i ++ f with
      | [] => None
      | ds =>
          match digits_val 0 ds with
          | None => None
          | Some N0 => Some (S754_zero false)
          | Some (Npos p) =>
              let '(m, e, l) := SFdiv_core_binary 53 1024 (Zpos p) 0 (10 ^ Z.of_nat (length f)) 0 in
              Some (binary_round_aux 53 1024 false m e l)
          end
      end
  end.
