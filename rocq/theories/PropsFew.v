(** C95 *)
From Coq Require Import QArith.
From Verif Require Import SpecNumber Session FewText.
Open Scope Z_scope.

(** C95.  How many digits a float keeps and needs *)

Theorem C95_typed : forall w l x, decimal_text l x -> tidy l -> In 46%N l -> digits 15 x -> (scaled 1 (-1022) <= x < too_large)%Q ->
  eval_main w l = (Some true, [Printed (l ++ [10%N])]).
Proof. exact typed_shown. Qed.
Print Assumptions C95_typed.
Theorem C95_kept : forall f x, rounded x f -> digits 15 x -> (scaled 1 (-1022) <= x < too_large)%Q ->
  exists y, decimal_text (show_f64 f) y /\ tidy (show_f64 f) /\ (y == x)%Q.
Proof. exact kept_shown. Qed.
Print Assumptions C95_kept.
Example C95_example : let l := lit "299792.458" in exists x, decimal_text l x /\ tidy l /\ In 46%N l /\ digits 15 x /\ (scaled 1 (-1022) <= x < too_large)%Q.
Proof. exact typed_example. Qed.

Theorem C95_seventeen : forall s m e, binary64 (S754_finite s m e) -> exists t x, show_f64 (S754_finite s m e) = sign_text s ++ t /\ decimal_text t x /\ tidy t /\ digits 17 x.
Proof. exact shown_seventeen. Qed.
Print Assumptions C95_seventeen.
Theorem C95_one_text : forall t u x y, decimal_text t x -> decimal_text u y -> (x == y)%Q -> tidy t -> tidy u -> t = u.
Proof. exact text_unique. Qed.
Print Assumptions C95_one_text.
(** C95 with one digit more *)

Theorem C95_sixteen_refuted : forall w, exists l x, decimal_text l x /\ tidy l /\ In 46%N l /\ digits 16 x /\ (scaled 1 (-1022) <= x < too_large)%Q /\
  eval_main w l = (Some true, [Printed (lit "8.000000000000002" ++ [10%N])]) /\ l <> lit "8.000000000000002".
Proof. exact sixteen_lost. Qed.
Print Assumptions C95_sixteen_refuted.
