(** UTF-8: order, injectivity and decoding *)
From Verif Require Import SpecValue TextProofs.
From Coq Require Import ZifyBool ZifyN ZifyNat.
Open Scope N_scope.
Ltac Zify.zify_post_hook ::= Z.to_euclidean_division_equations.

Lemma lex_app p a b : lex_lt a b -> lex_lt (p ++ a) (p ++ b).
Proof. induction p; cbn; auto using lex_tail. Qed.
Lemma lex_cons x y a b : x < y \/ (x = y /\ lex_lt a b) -> lex_lt (x :: a) (y :: b).
Proof. intros [H|[-> H]]; [now apply lex_head|now apply lex_tail]. Qed.
Lemma lex_irrefl a : ~ lex_lt a a.
Proof. induction a; intros H; inversion H; subst; auto. lia. Qed.
Lemma lex_asym a b : lex_lt a b -> ~ lex_lt b a.
Proof. induction 1; intros X; inversion X; subst; auto; lia. Qed.
Lemma lex_total a : forall b, lex_lt a b \/ a = b \/ lex_lt b a.
Proof.
  induction a as [|x a IH]; intros [|y b]; auto using lex_nil.
  destruct (N.lt_trichotomy x y) as [H|[->|H]].
  - left. now apply lex_head.
  - destruct (IH b) as [H|[->|H]]; auto using lex_tail.
  - right; right. now apply lex_head.
Qed.

Lemma utf8_char_lt x y p q : x < y -> y < 1114112 -> lex_lt (utf8_char x ++ p) (utf8_char y ++ q).
Proof.
  intros L B. unfold utf8_char.
  destruct (x <? 128) eqn:X1; [|destruct (x <? 2048) eqn:X2; [|destruct (x <? 65536) eqn:X3]];
  (destruct (y <? 128) eqn:Y1; [|destruct (y <? 2048) eqn:Y2; [|destruct (y <? 65536) eqn:Y3]]); try lia; cbn [app].
  all: try (apply lex_head; lia).
  - apply lex_cons. assert (x / 64 < y / 64 \/ (x / 64 = y / 64 /\ x mod 64 < y mod 64)) as [H|[H K]] by lia; [left; lia|].
    right. split; [lia|]. apply lex_head. lia.
  - assert (x / 4096 < y / 4096 \/ (x / 4096 = y / 4096 /\ ((x / 64) mod 64 < (y / 64) mod 64 \/ ((x / 64) mod 64 = (y / 64) mod 64 /\ x mod 64 < y mod 64)))) as [H|[H [K|[K M]]]] by lia;
    apply lex_cons; [left; lia| |]; right; (split; [lia|]); apply lex_cons; [left; lia|right; split; [lia|]].
    apply lex_head; lia.
  - assert (x / 262144 < y / 262144 \/ (x / 262144 = y / 262144 /\ ((x / 4096) mod 64 < (y / 4096) mod 64 \/ ((x / 4096) mod 64 = (y / 4096) mod 64 /\ 
       ((x / 64) mod 64 < (y / 64) mod 64 \/ ((x / 64) mod 64 = (y / 64) mod 64 /\ x mod 64 < y mod 64)))))) as [H|[H [K|[K [M|[M O]]]]]] by lia;
    apply lex_cons; [left; lia| | |]; right; (split; [lia|]); apply lex_cons; [left; lia| |]; right; (split; [lia|]);
    apply lex_cons; [left; lia|right; split; [lia|]]. apply lex_head; lia.
Qed.
Lemma utf8_char_nonempty c : exists b r, utf8_char c = b :: r.
Proof. unfold utf8_char. destruct (c <? 128); [|destruct (c <? 2048); [|destruct (c <? 65536)]]; eauto. Qed.

Lemma scalar_bound c : is_scalar c = true -> c < 1114112.
Proof. unfold is_scalar. lia. Qed.

Lemma utf8_lt a : forall b, scalars b -> lex_lt a b -> lex_lt (utf8 a) (utf8 b).
Proof.
  intros b S H. induction H as [y b|x y a b L|x a b H IH].
  - cbn. destruct (utf8_char_nonempty y) as (c & r & ->). constructor.
  - cbn. apply utf8_char_lt; auto. apply scalar_bound. now inversion S.
  - cbn. apply lex_app, IH. now inversion S.
Qed.
(** byte order is scalar order *)
Theorem utf8_order a b : scalars a -> scalars b -> (lex_lt (utf8 a) (utf8 b) <-> lex_lt a b).
Proof.
  intros A B. split; [|apply utf8_lt; auto]. intros H.
  destruct (lex_total a b) as [L|[->|L]]; auto.
  - now apply lex_irrefl in H.
  - apply utf8_lt in L; auto. now apply lex_asym in H.
Qed.
Theorem utf8_inj a b : scalars a -> scalars b -> utf8 a = utf8 b -> a = b.
Proof.
  intros A B H. destruct (lex_total a b) as [L|[->|L]]; auto; apply utf8_lt in L; auto; rewrite H in L; now apply lex_irrefl in L.
Qed.

(** ** decoding *)
Lemma decode_char c p : is_scalar c = true -> utf8_decode (utf8_char c ++ p) = push c (utf8_decode p).
Proof.
  intros S. unfold utf8_char. pose proof (scalar_bound _ S).
  destruct (c <? 128) eqn:E1; [|destruct (c <? 2048) eqn:E2; [|destruct (c <? 65536) eqn:E3]]; cbn [app utf8_decode].
  - now rewrite E1.
  - replace (192 + c / 64 <? 128) with false by lia. replace ((192 <=? 192 + c / 64) && (192 + c / 64 <? 224)) with true by lia.
    cbv zeta. replace ((192 + c / 64 - 192) * 64 + (128 + c mod 64 - 128)) with c by lia.
    replace (is_cont (128 + c mod 64) && (128 <=? c)) with true by (unfold is_cont; lia). reflexivity.
  - replace (224 + c / 4096 <? 128) with false by lia. replace ((192 <=? 224 + c / 4096) && (224 + c / 4096 <? 224)) with false by lia.
    replace ((224 <=? 224 + c / 4096) && (224 + c / 4096 <? 240)) with true by lia.
    cbv zeta. replace ((224 + c / 4096 - 224) * 4096 + (128 + (c / 64) mod 64 - 128) * 64 + (128 + c mod 64 - 128)) with c by lia.
    rewrite S. replace (is_cont (128 + (c / 64) mod 64) && is_cont (128 + c mod 64) && (2048 <=? c) && true) with true by (unfold is_cont; lia). reflexivity.
  - replace (240 + c / 262144 <? 128) with false by lia. replace ((192 <=? 240 + c / 262144) && (240 + c / 262144 <? 224)) with false by lia.
    replace ((224 <=? 240 + c / 262144) && (240 + c / 262144 <? 240)) with false by lia.
    replace ((240 <=? 240 + c / 262144) && (240 + c / 262144 <? 248)) with true by lia.
    cbv zeta. replace ((240 + c / 262144 - 240) * 262144 + (128 + (c / 4096) mod 64 - 128) * 4096 + (128 + (c / 64) mod 64 - 128) * 64 + (128 + c mod 64 - 128)) with c by lia.
    rewrite S. replace (is_cont (128 + (c / 4096) mod 64) && is_cont (128 + (c / 64) mod 64) && is_cont (128 + c mod 64) && (65536 <=? c) && true) with true by (unfold is_cont; lia). reflexivity.
Qed.

Theorem decode_encode s : scalars s -> utf8_decode (utf8 s) = Some s.
Proof.
  induction 1 as [|c s H _ IH]; [reflexivity|]. cbn [utf8 flat_map]. rewrite decode_char by auto. fold (utf8 s). rewrite IH. reflexivity.
Qed.

Lemma push_some c r s : push c r = Some s -> exists s', r = Some s' /\ s = c :: s'.
Proof. destruct r; cbn; [intros [= <-]; eauto|discriminate]. Qed.

(** strong induction on the length: decoding consumes up to four bytes *)
Lemma decode_sound n : forall bs s, (length bs <= n)%nat -> utf8_decode bs = Some s -> scalars s /\ utf8 s = bs.
Proof.
  induction n as [|n IH]; intros bs s L H.
  - destruct bs; [|cbn in L; lia]. inversion H; subst. split; [constructor|reflexivity].
  - destruct bs as [|b0 r0]; [inversion H; subst; split; [constructor|reflexivity]|].
    cbn [utf8_decode] in H. cbn [length] in L.
    destruct (b0 <? 128) eqn:E1.
    { apply push_some in H. destruct H as (s' & H & ->). apply IH in H; [|lia]. destruct H as [S <-]. split.
      - constructor; auto. unfold is_scalar. lia.
      - cbn [utf8 flat_map]. unfold utf8_char. now rewrite E1. }
    destruct ((192 <=? b0) && (b0 <? 224)) eqn:E2.
    { destruct r0 as [|b1 r1]; [discriminate|]. cbn [length] in L. cbv zeta in H.
      destruct (is_cont b1 && (128 <=? (b0 - 192) * 64 + (b1 - 128))) eqn:C; [|discriminate].
      apply push_some in H. destruct H as (s' & H & ->). apply IH in H; [|lia]. destruct H as [S <-].
      unfold is_cont in C. set (c := (b0 - 192) * 64 + (b1 - 128)) in *. split.
      - constructor; auto. unfold is_scalar. lia.
      - cbn [utf8 flat_map]. unfold utf8_char. replace (c <? 128) with false by lia. replace (c <? 2048) with true by lia.
        replace (192 + c / 64) with b0 by lia. replace (128 + c mod 64) with b1 by lia. reflexivity. }
    destruct ((224 <=? b0) && (b0 <? 240)) eqn:E3.
    { destruct r0 as [|b1 [|b2 r2]]; try discriminate. cbn [length] in L. cbv zeta in H.
      set (c := (b0 - 224) * 4096 + (b1 - 128) * 64 + (b2 - 128)) in *.
      destruct (is_cont b1 && is_cont b2 && (2048 <=? c) && is_scalar c) eqn:C; [|discriminate].
      apply push_some in H. destruct H as (s' & H & ->). apply IH in H; [|lia]. destruct H as [S <-].
      apply andb_prop in C. destruct C as [C SC]. unfold is_cont in C. split.
      - constructor; auto.
      - cbn [utf8 flat_map]. unfold utf8_char. replace (c <? 128) with false by lia. replace (c <? 2048) with false by lia.
        replace (c <? 65536) with true by lia.
        replace (224 + c / 4096) with b0 by lia. replace (128 + (c / 64) mod 64) with b1 by lia. replace (128 + c mod 64) with b2 by lia. reflexivity. }
    destruct ((240 <=? b0) && (b0 <? 248)) eqn:E4; [|discriminate].
    destruct r0 as [|b1 [|b2 [|b3 r3]]]; try discriminate. cbn [length] in L. cbv zeta in H.
    set (c := (b0 - 240) * 262144 + (b1 - 128) * 4096 + (b2 - 128) * 64 + (b3 - 128)) in *.
    destruct (is_cont b1 && is_cont b2 && is_cont b3 && (65536 <=? c) && is_scalar c) eqn:C; [|discriminate].
    apply push_some in H. destruct H as (s' & H & ->). apply IH in H; [|lia]. destruct H as [S <-].
    apply andb_prop in C. destruct C as [C SC]. unfold is_cont in C. split.
    + constructor; auto.
    + cbn [utf8 flat_map]. unfold utf8_char. replace (c <? 128) with false by lia. replace (c <? 2048) with false by lia.
      replace (c <? 65536) with false by lia.
      replace (240 + c / 262144) with b0 by lia. replace (128 + (c / 4096) mod 64) with b1 by lia.
      replace (128 + (c / 64) mod 64) with b2 by lia. replace (128 + c mod 64) with b3 by lia. reflexivity.
Qed.
Theorem decode_iff bs s : utf8_decode bs = Some s <-> scalars s /\ utf8 s = bs.
Proof. split; [eapply decode_sound; eauto|]. intros [S <-]. now apply decode_encode. Qed.
