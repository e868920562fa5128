(** Errors that mention neither names nor expressions *)
From Verif Require Import Evaluator.

Definition plain (e : everr) : Prop :=
  match e with EIdentNotFound _ | EFunctionNotFound _ | EBinaryUnsupported _ _ _ => False | _ => True end.
Definition nameless {A} (o : out everr A) : Prop := forall e, o = Err e -> plain e.
Lemma nl_index h a i : nameless (index_value h a i).
Proof. intros e. unfold index_value. destruct a, i; repeat (match goal with |- context [match ?x with _ => _ end] => destruct x end); intros E; inversion E; exact I. Qed.
Lemma nl_field a f : nameless (field_value a f).
Proof. intros e. unfold field_value. destruct a; repeat (match goal with |- context [match ?x with _ => _ end] => destruct x end); intros E; inversion E; exact I. Qed.
Lemma nl_arith h z : nameless (arith h z).
Proof. intros e. unfold arith. repeat (match goal with |- context [match ?x with _ => _ end] => destruct x end); intros E; inversion E. Qed.
Lemma nl_unary h t a : nameless (unary_value h t a).
Proof.
  intros e. unfold unary_value. destruct (tkind t), a; try (intros E; inversion E; exact I); try apply nl_arith;
  repeat (match goal with |- context [match ?x with _ => _ end] => destruct x end); intros E; inversion E; exact I.
Qed.
Lemma nl_strict h k f a b : strict_op h k = Some f -> nameless (f a b).
Proof.
  destruct k; cbn [strict_op]; intros E; inversion E; subst; intros e;
  unfold value_add, value_sub, value_mul, value_div, value_rem, value_bitxor, value_bitor, value_bitand, value_shl, value_shr, int_div, int_rem, int_shl, int_shr;
  destruct a, b; try (intros X; inversion X; exact I); try apply nl_arith;
  repeat (match goal with |- context [match ?x with _ => _ end] => destruct x end); intros X; inversion X; exact I.
Qed.
Lemma nl_format h vs : nameless (native_format h vs).
Proof. intros e. unfold native_format. destruct vs as [|[]]; repeat (match goal with |- context [match ?x with _ => _ end] => destruct x end); intros E; inversion E; exact I. Qed.
Lemma nl_length vs : nameless (native_length vs).
Proof. intros e. unfold native_length. repeat (match goal with |- context [match ?x with _ => _ end] => destruct x end); intros E; inversion E; exact I. Qed.
Lemma nl_append vs : nameless (native_append vs).
Proof. intros e. unfold native_append. repeat (match goal with |- context [match ?x with _ => _ end] => destruct x end); intros E; inversion E; exact I. Qed.
