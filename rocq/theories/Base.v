(** Common vocabulary of the model: text, outcomes, hash maps. *)
From Coq Require Export List NArith ZArith Lia Bool.
From Coq Require String Ascii.
Export ListNotations.
Export String.StringSyntax.

(** A Rust [char] is a Unicode scalar value, a [String]/[&str] a sequence of
    them. (Rust stores UTF-8; see Utf8.v for the byte view.); lexer.rs:6 *)
Definition char := N.
(** token.rs:64-67 *)
Definition str := list char.
(** writer.rs:139-141 *)
Definition byte := N.
(** writer.rs:143-147 *)
Definition bytes := list byte.

(** ASCII literals of the source text; string literals, for example lexer.rs:144-150 *)
Fixpoint lit (s : String.string) : str :=
  match s with
  | String.EmptyString => []
  | String.String a s' => Ascii.N_of_ascii a :: lit s'
  end.
Arguments lit s%string_scope.

(** [==] on strings: token.rs, evaluator.rs and request.rs compare [String]s;
    for example command.rs:21, request.rs:45 *)
Fixpoint str_eqb (a b : str) : bool :=
  match a, b with
  | [], [] => true
  | x :: a', y :: b' => N.eqb x y && str_eqb a' b'
  | _, _ => false
  end.

(** Results of running code: a value, a [Result::Err], a Rust panic (the thread
    dies, evaluator/value code has no unwinding handler), or no result at all
    because a loop never ends; for example evaluator.rs:12 *)
Inductive out (E A : Type) : Type :=
| Ok (a : A)
| Err (e : E)
| Panic
| Diverge.
Arguments Ok {E A} a.
Arguments Err {E A} e.
Arguments Panic {E A}.
Arguments Diverge {E A}.

(** std::collections::HashMap as used in context.rs:12-16, parser.rs:7-11,
    value.rs:24, stat.rs:48: an association list with unique keys.  The position
    of an entry in the list carries no meaning (Rust's iteration order is
    unspecified). *)
Definition amap (V : Type) := list (str * V).

Section AMap.
  Context {V : Type}.
  (** HashMap::get *)
  Fixpoint mget (k : str) (m : amap V) : option V :=
    match m with
    | [] => None
    | (k', v) :: m' => if str_eqb k k' then Some v else mget k m'
    end.
  (** HashMap::insert (the previous value, if any, is replaced) *)
  Fixpoint mset (k : str) (v : V) (m : amap V) : amap V :=
    match m with
    | [] => [(k, v)]
    | (k', v') :: m' => if str_eqb k k' then (k', v) :: m' else (k', v') :: mset k v m'
    end.
  (** HashMap::remove, the remaining map *)
  Fixpoint mdel (k : str) (m : amap V) : amap V :=
    match m with
    | [] => []
    | (k', v') :: m' => if str_eqb k k' then m' else (k', v') :: mdel k m'
    end.
  (** HashMap::extend / FromIterator: successive inserts *)
  Definition mextend (m : amap V) (kvs : list (str * V)) : amap V :=
    fold_left (fun m kv => mset (fst kv) (snd kv) m) kvs m.
End AMap.
