(** Float literals and integers become the nearest float *)
From Coq Require Import Lqa Qpower QArith Qabs ZifyBool.
From Verif Require Import SpecFloat64 FloatProofs FloatUnique TextProofs.
Open Scope Z_scope.
Local Opaque too_large.

Lemma digits_val_iff (s : str) : forall acc n,
  digits_val acc s = Some n <-> Forall digit s /\ n = fold_left (fun a c => (10 * a + (c - 48))%N) s acc.
Proof.
  induction s as [|c s IH]; intros acc n; cbn [digits_val fold_left].
  - split; [intros [= <-]; auto|intros [_ ->]; reflexivity].
  - destruct (is_digit c) eqn:E.
    + rewrite IH. apply is_digit_iff in E. replace (acc * 10 + (c - 48))%N with (10 * acc + (c - 48))%N by lia.
      split; intros [F H]; split; auto. inversion F; auto.
    + split; [discriminate|]. intros [F _]. inversion F; subst. apply is_digit_iff in H1. congruence.
Qed.
Lemma split_once_iff (s : str) d : forall a b, split_once d s = Some (a, b) <-> s = a ++ d :: b /\ ~ In d a.
Proof.
  induction s as [|c s IH]; intros a b; cbn [split_once].
  - split; [discriminate|]. intros [H _]. destruct a; discriminate.
  - destruct (N.eqb_spec c d) as [->|N].
    + split; [intros [= <- <-]; auto|]. intros [H N]. destruct a as [|x a]; inversion H; subst; [reflexivity|].
      exfalso. apply N. left; reflexivity.
    + destruct (split_once d s) as [[x y]|] eqn:E.
      * destruct (proj1 (IH x y) eq_refl) as [H1 H2]. split.
        -- intros [= <- <-]. split; [rewrite H1; reflexivity|]. intros [H|H]; [congruence|auto].
        -- intros [H3 H4]. destruct a as [|z a]; inversion H3; subst; [congruence|].
           assert (Some (x, y) = Some (a, b)) as E2 by (apply IH; split; [assumption|intros H; apply H4; right; exact H]).
           injection E2 as -> ->. reflexivity.
      * split; [discriminate|]. intros [H3 H4]. destruct a as [|z a]; inversion H3; subst; [congruence|].
        assert (None = Some (a, b)) as E2 by (apply IH; split; [assumption || reflexivity|intros H; apply H4; right; exact H]). discriminate.
Qed.
Lemma ten_scaled k : (scaled (10 ^ Z.of_nat k) 0 == 10 ^ Z.of_nat k)%Q.
Proof. unfold scaled. change (2 ^ 0)%Q with 1%Q. rewrite Zpower_Qpower by lia. change (inject_Z 10) with (10#1). ring. Qed.
Lemma int_scaled z : (scaled z 0 == inject_Z z)%Q.
Proof. unfold scaled. change (2 ^ 0)%Q with 1%Q. ring. Qed.

Lemma literal_round p k f : (let '(m, e, l) := SFdiv_core_binary 53 1024 (Zpos p) 0 (10 ^ Z.of_nat k) 0 in binary_round_aux 53 1024 false m e l) = f ->
  rounded (inject_Z (Zpos p) / 10 ^ Z.of_nat k) f /\ sign_of f = false.
Proof.
  assert (P10 : 0 < 10 ^ Z.of_nat k) by (apply Z.pow_pos_nonneg; lia).
  pose proof (scaled_pos (10 ^ Z.of_nat k) 0 P10) as Q10. rewrite ten_scaled in Q10.
  destruct (div_core_ok (Zpos p) 0 (10 ^ Z.of_nat k) 0 (inject_Z (Zpos p) / 10 ^ Z.of_nat k)) as (q & e & l & -> & Hq & I & He); [lia|exact P10| |].
  - rewrite ten_scaled, int_scaled. field. lra.
  - intros <-. destruct (round_aux_ok false q e _ l Hq I He (inb_nonneg _ _ _ _ Hq I)) as (R & S1 & _). split; assumption.
Qed.
Lemma zero_div k : (0 == 0 / 10 ^ Z.of_nat k)%Q.
Proof. unfold Qdiv. ring. Qed.

Theorem parse_f64_iff l f : parse_f64 l = Some f <-> float_literal l f.
Proof.
  unfold parse_f64, float_literal. split.
  - destruct (split_once 46%N l) as [[a b]|] eqn:E; [|discriminate]. apply split_once_iff in E. destruct E as [-> _].
    intros H. exists a, b. split; [reflexivity|].
    destruct (a ++ b) as [|c ds] eqn:Ed; [discriminate|].
    destruct (digits_val 0 (c :: ds)) as [n|] eqn:Dn; [|discriminate]. apply digits_val_iff in Dn. destruct Dn as [F En].
    rewrite <- Ed in F. pose proof (proj1 (Forall_app _ _ _) F) as [Fa Fb]. split; [exact Fa|]. split; [exact Fb|]. split; [discriminate|].
    fold (decimal (c :: ds)) in En. rewrite <- En. destruct n as [|p].
    + inversion H; subst f. split; [|reflexivity]. eapply rounded_wd; [apply zero_div|apply rounded_0].
    + apply literal_round. revert H. destruct (SFdiv_core_binary 53 1024 (Z.pos p) 0 (10 ^ Z.of_nat (length b)) 0) as [[m e] lo]. congruence.
  - intros (a & b & -> & Fa & Fb & Ne & R & S1).
    assert (split_once 46%N (a ++ 46%N :: b) = Some (a, b)) as ->.
    { apply split_once_iff. split; [reflexivity|]. intros H. rewrite Forall_forall in Fa. apply Fa in H. unfold digit in H. lia. }
    destruct (a ++ b) as [|c ds] eqn:Ed; [contradiction|].
    assert (digits_val 0 (c :: ds) = Some (decimal (c :: ds))) as ->.
    { apply digits_val_iff. split; [rewrite <- Ed; apply Forall_app; auto|reflexivity]. }
    destruct (decimal (c :: ds)) as [|p].
    + f_equal. eapply rounded_unique; [apply rounded_0| |symmetry; exact S1].
      eapply rounded_wd; [symmetry; apply zero_div|exact R].
    + destruct (SFdiv_core_binary 53 1024 (Z.pos p) 0 (10 ^ Z.of_nat (length b)) 0) as [[m e] lo] eqn:Ec.
      destruct (literal_round p (length b) (binary_round_aux 53 1024 false m e lo)) as [R2 S2]; [rewrite Ec; reflexivity|].
      f_equal. eapply rounded_unique; [exact R2|exact R|congruence].
Qed.

Theorem of_int_iff z f : (rounded (inject_Z z) f /\ sign_of f = (z <? 0)) <-> f = f64_of_int z.
Proof.
  destruct (binary_normalize_ok z 0 false) as (R & _ & Z0 & P & N).
  change (binary_normalize 53 1024 z 0 false) with (f64_of_int z) in *.
  assert (S1 : sign_of (f64_of_int z) = (z <? 0)).
  { destruct (Z.lt_trichotomy z 0) as [L|[L|L]]; [rewrite N by exact L|rewrite Z0 by exact L|rewrite P by lia]; cbn [sign_of]; lia. }
  apply (rounded_wd _ (inject_Z z) _ (int_scaled z)) in R. split.
  - intros [R2 S2]. eapply rounded_unique; [exact R2|exact R|congruence].
  - intros ->. split; assumption.
Qed.
