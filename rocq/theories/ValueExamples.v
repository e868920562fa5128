(** Concrete environments and values *)
From Verif Require Import FloatOps FloatLiteral SpecValue TextProofs ValueProofs EqualityProofs Utf8Proofs.
From Coq Require Import ZifyBool.
Open Scope Z_scope.

(** A host that shows the characters of ASCII as they are; a network that is down *)
Definition some_host (checks : bool) : host := Host (fun c => (c <? 127)%N && (31 <? c)%N) (fun ks => ks) checks.
Definition down : exchange := Exchange 0 0 (inr (HostNotFound)) 0 None 0 0 (Reader [] None) 0 0 0.
Definition some_env (checks : bool) : env := Env (some_host checks) (fun _ => true) (fun _ _ => down).
Definition debug : env := some_env true.
Definition release : env := some_env false.

Lemma string_order w a b : scalars a -> scalars b ->
  (holds w (VStr a) (VStr b) KLt <-> lex_lt (utf8 a) (utf8 b)) /\
  (holds w (VStr a) (VStr b) KGt <-> lex_lt (utf8 b) (utf8 a)) /\
  (holds w (VStr a) (VStr b) KLe <-> ~ lex_lt (utf8 b) (utf8 a)) /\
  (holds w (VStr a) (VStr b) KGe <-> ~ lex_lt (utf8 a) (utf8 b)) /\
  (holds w (VStr a) (VStr b) KEq <-> a = b).
Proof.
  intros A B. rewrite !utf8_order by auto. rewrite <- !str_cmp_lt, (str_cmp_opp a b).
  assert (EQ : binop w KEq (VStr a) (VStr b) = Ok (VBool (str_eqb a b))) by reflexivity.
  unfold holds. rewrite EQ. ords w (VStr a) (VStr b). cbn [value_cmp].
  assert (E : Ok (E := everr) (VBool (str_eqb a b)) = Ok (VBool true) <-> a = b).
  { rewrite <- str_eqb_eq. split; [now intros [= ->]|now intros ->]. }
  rewrite E. destruct (str_cmp a b) eqn:C; cbn; repeat split; intros; try discriminate; auto; try congruence;
    try (exfalso; apply H; reflexivity).
Qed.
Lemma lex_trans a b c : lex_lt a b -> lex_lt b c -> lex_lt a c.
Proof.
  intros H. revert c. induction H as [y b|x y a b L|x a b H IH]; intros c K; inversion K; subst.
  - constructor.
  - constructor.
  - apply lex_head. lia.
  - now apply lex_head.
  - now apply lex_head.
  - now apply lex_tail, IH.
Qed.
Lemma lex_order a b :
  (lex_lt a b \/ a = b \/ lex_lt b a) /\ (lex_lt a b -> ~ lex_lt b a) /\ ~ lex_lt a a /\
  (forall c, lex_lt a b -> lex_lt b c -> lex_lt a c).
Proof.
  split; [apply lex_total|]. split; [apply lex_asym|]. split; [apply lex_irrefl|]. intros c. apply lex_trans.
Qed.
Lemma int_float_eq : exists a b, forall w, holds w a b KLe /\ holds w a b KGe /\ fails w a b KEq.
Proof.
  exists (VInt 1), (VFloat (S754_finite false 4503599627370496 (-52))). intros w.
  unfold holds, fails. repeat split.
Qed.
Lemma map_example :
  let a := VMap [(lit "x", VInt 1); (lit "y", VArr [VNull])] in let b := VMap [(lit "y", VArr [VNull]); (lit "x", VInt 1)] in
  unique_keys a /\ unique_keys b /\ nan_free a /\ holds debug a b KEq /\ ~ same a (VMap [(lit "x", VInt 1)]).
Proof.
  intros a b. assert (N : NoDup (map fst [(lit "x", VInt 1); (lit "y", VArr [VNull])])).
  { constructor; [intros [H|[]]; discriminate|]. constructor; [intros []|constructor]. }
  split; [split; [exact N|cbn; tauto]|]. split.
  { split; [|cbn; tauto]. constructor; [intros [H|[]]; discriminate|]. constructor; [intros []|constructor]. }
  split; [cbn; tauto|]. split; [vm_compute; reflexivity|].
  intros S. inversion S as [| | | | | | |? ? K _]; subst. specialize (K (lit "y")). cbv in K. destruct K as [_ K]. specialize (K eq_refl). discriminate.
Qed.

Lemma comparable_example : comparable (VInt 1) (VFloat (S754_zero false)) /\ ~ comparable (VInt 1) (VStr []).
Proof.
  split.
  - eapply cmp_num; [apply as_float_int; reflexivity|apply af_float|vm_compute; discriminate|discriminate].
  - intros H. inversion H as [| |? ? x y A B]; subst. inversion B.
Qed.
(** 2^53 + 1 is rounded to even; 0.1 + 0.2 *)
Lemma promotes_example : exists x y z r,
  as_float (VInt (2 ^ 53 + 1)) x /\ binary64 x /\ x = S754_finite false (2 ^ 52) 1 /\
  float_literal (lit "0.1") y /\ float_literal (lit "0.2") z /\ binary64 y /\ binary64 z /\
  float_literal (lit "0.30000000000000004") r /\ float_op KAdd y z r /\
  binop debug KAdd (VFloat y) (VFloat z) = Ok (VFloat r).
Proof.
  destruct (parse_f64 (lit "0.1")) as [y|] eqn:Y; [|vm_compute in Y; discriminate].
  destruct (parse_f64 (lit "0.2")) as [z|] eqn:Z; [|vm_compute in Z; discriminate].
  destruct (parse_f64 (lit "0.30000000000000004")) as [r|] eqn:R; [|vm_compute in R; discriminate].
  exists (f64_of_int (2 ^ 53 + 1)), y, z, r.
  split; [apply as_float_int; reflexivity|]. split; [vm_compute; repeat split; try congruence; left; congruence|]. split; [vm_compute; reflexivity|].
  split; [now apply parse_f64_iff|]. split; [now apply parse_f64_iff|].
  assert (By : binary64 y) by (vm_compute in Y; injection Y as <-; vm_compute; repeat split; try congruence; left; congruence).
  assert (Bz : binary64 z) by (vm_compute in Z; injection Z as <-; vm_compute; repeat split; try congruence; left; congruence).
  split; [exact By|]. split; [exact Bz|]. split; [now apply parse_f64_iff|].
  assert (E : r = f64_add y z).
  { vm_compute in Y, Z, R. injection Y as <-. injection Z as <-. injection R as <-. vm_compute. reflexivity. }
  split; [apply (float_op_iff KAdd f64_add); auto|]. rewrite E. reflexivity.
Qed.
