(** Displayed numbers and truth values read back *)
From Coq Require Import QArith.
From Verif Require Import SpecEval SpecSyntax SpecValue Parser TextProofs DigitsProofs DisplayProofs ParserSound ParserProgram LiteralProofs EvaluatorProofs.
Open Scope N_scope.

Lemma show_eval w z s : (- 2 ^ 63 < z < 2 ^ 63)%Z -> exists src, parse (show_value (e_host w) (VInt z)) = Ok src /\
  s_requests src = [] /\ s_tests src = [] /\ eval_block w (s_exprs src) s = (Ok (VInt z), s).
Proof.
  intros B. cbn [show_value].
  assert (NonNeg : forall z, (0 <= z < 2 ^ 63)%Z -> lexok (EInt z)).
  { intros x Hx. apply everywhere_eq. split; cbn [lexok1]; auto. }
  destruct (Z.leb_spec 0 z) as [P|P].
  - destruct (show_parses (EInt z)) as (src & E & X & Y & T).
    + apply NonNeg; lia.
    + apply everywhere_eq. split; auto.
    + apply everywhere_eq. split; auto.
    + exists src. split; [exact E|]. rewrite X. auto.
  - assert (E0 : show_Z z = show_expr (EUn (op KSub "-") (EInt (- z)))).
    { cbn [show_expr]. destruct z; try lia. reflexivity. }
    rewrite E0.
    destruct (show_parses (EUn (op KSub "-") (EInt (- z)))) as (src & E & X & Y & T).
    + apply everywhere_eq. split; [cbn [lexok1]; split; [exists (lit "-"); apply sp_op; cbn; tauto|right; reflexivity]|apply NonNeg; lia].
    + apply everywhere_eq. split; [cbn; auto|]. apply everywhere_eq. split; auto.
    + apply everywhere_eq. split; [cbn; auto|]. apply everywhere_eq. split; auto.
    + exists src. split; [exact E|]. rewrite X. split; auto. split; auto. unfold eval_block. cbn [eval_exprs eval bind ret lift unary_value op tkind].
      rewrite Z.opp_involutive. unfold arith. replace (in_i64 z) with true; [reflexivity|]. symmetry. unfold in_i64, i64_min, i64_max. lia.
Qed.
Lemma show_min_lost h : exists e, parse (show_value h (VInt (- 2 ^ 63))) = Err e.
Proof. eexists. vm_compute. reflexivity. Qed.
Lemma show_bool_eval w b s : exists src, parse (show_value (e_host w) (VBool b)) = Ok src /\
  s_requests src = [] /\ s_tests src = [] /\ eval_block w (s_exprs src) s = (Ok (VBool b), s).
Proof. destruct b; eexists; (split; [vm_compute; reflexivity|]); repeat split. Qed.
(** ** floats with a fraction *)
Lemma neg_fraction m e : has_fraction (S754_finite true m e) -> has_fraction (S754_finite false m e).
Proof.
  intros (v & [= <-] & N). exists (scaled (Zpos m) e). split; auto. intros z Q. apply (N (- z)%Z).
  unfold scaled in *. change (Zneg m) with (- Zpos m)%Z. rewrite !inject_Z_opp, <- Q. ring.
Qed.
Lemma show_float_eval w f s : binary64 f -> has_fraction f -> exists src, parse (show_value (e_host w) (VFloat f)) = Ok src /\
  s_requests src = [] /\ s_tests src = [] /\ eval_block w (s_exprs src) s = (Ok (VFloat f), s).
Proof.
  intros B F. cbn [show_value].
  assert (Pos : forall f, binary64 f -> sign_of f = false -> has_fraction f -> lexok (EFloat f)).
  { intros g Hg Hs Hf. apply everywhere_eq. split; cbn [lexok1]; auto. }
  destruct (sign_of f) eqn:Sg.
  - destruct f as [z|z| |z m e]; cbn in Sg; subst; try (destruct F as (v & [= <-] & N); exfalso; apply (N 0%Z); reflexivity); try (destruct F as (v & Q & _); discriminate Q); try discriminate.
    assert (E0 : show_f64 (S754_finite true m e) = show_expr (EUn (op KSub "-") (EFloat (S754_finite false m e)))).
    { cbn [show_expr show_f64]. destruct (f64_digits m e). reflexivity. }
    rewrite E0. destruct (show_parses (EUn (op KSub "-") (EFloat (S754_finite false m e)))) as (src & E & X & Y & T).
    + apply everywhere_eq. split; [cbn [lexok1]; split; [exists (lit "-"); apply sp_op; cbn; tauto|right; reflexivity]|apply Pos; auto using neg_fraction].
    + apply everywhere_eq. split; [cbn; auto|]. apply everywhere_eq. split; auto.
    + apply everywhere_eq. split; [cbn; auto|]. apply everywhere_eq. split; auto.
    + exists src. split; [exact E|]. rewrite X. auto.
  - destruct (show_parses (EFloat f)) as (src & E & X & Y & T).
    + apply Pos; auto.
    + apply everywhere_eq. split; auto.
    + apply everywhere_eq. split; auto.
    + exists src. split; [exact E|]. rewrite X. auto.
Qed.
Lemma show_whole_lost w s : exists f src, binary64 f /\ parse (show_value (e_host w) (VFloat f)) = Ok src /\ eval_block w (s_exprs src) s = (Ok (VInt 1), s).
Proof. exists (S754_finite false 4503599627370496 (-52)). eexists. split; [cbn; lia|]. split; [vm_compute; reflexivity|]. reflexivity. Qed.
