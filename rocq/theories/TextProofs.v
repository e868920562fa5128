(** Lemmas about Base.v and Text.v *)
From Verif Require Import Text SpecLex.
From Coq Require Import ZifyBool.
Open Scope N_scope.

Lemma str_eqb_refl a : str_eqb a a = true.
Proof. induction a; simpl; auto. now rewrite N.eqb_refl. Qed.

Lemma str_eqb_eq a b : str_eqb a b = true <-> a = b.
Proof.
  split; [|intros ->; apply str_eqb_refl].
  revert b; induction a as [|x a IH]; intros [|y b]; simpl; try discriminate; auto.
  rewrite andb_true_iff, N.eqb_eq; intros [-> H]; f_equal; auto.
Qed.

Lemma str_eqb_neq a b : str_eqb a b = false <-> a <> b.
Proof. rewrite <- str_eqb_eq. destruct (str_eqb a b); split; congruence. Qed.

Lemma str_eqb_sym a b : str_eqb a b = str_eqb b a.
Proof.
  destruct (str_eqb a b) eqn:E, (str_eqb b a) eqn:F; auto.
  - apply str_eqb_eq in E; subst. now rewrite str_eqb_refl in F.
  - apply str_eqb_eq in F; subst. now rewrite str_eqb_refl in E.
Qed.

Lemma str_dec (a b : str) : {a = b} + {a <> b}.
Proof. apply list_eq_dec, N.eq_dec. Qed.

(** ** maps *)
Section AMapFacts.
  Context {V : Type}.
  Implicit Types m : amap V.

  Lemma mget_mset k k' v m : mget k (mset k' v m) = if str_eqb k k' then Some v else mget k m.
  Proof.
    induction m as [|[k0 v0] m IH]; simpl.
    - now destruct (str_eqb k k').
    - destruct (str_eqb k' k0) eqn:E; simpl.
      + apply str_eqb_eq in E; subst. now destruct (str_eqb k k0).
      + rewrite IH. destruct (str_eqb k k0) eqn:F; auto.
        apply str_eqb_eq in F; subst. rewrite str_eqb_sym in E. now rewrite E.
  Qed.

  Lemma mget_mset_same k v m : mget k (mset k v m) = Some v.
  Proof. now rewrite mget_mset, str_eqb_refl. Qed.

  Lemma mget_mset_other k k' v m : k <> k' -> mget k (mset k' v m) = mget k m.
  Proof. intros H. rewrite mget_mset. apply str_eqb_neq in H. now rewrite H. Qed.

  Lemma mset_keys k v m : map fst (mset k v m) = if existsb (str_eqb k) (map fst m) then map fst m else map fst m ++ [k].
  Proof.
    induction m as [|[k0 v0] m IH]; simpl; auto.
    destruct (str_eqb k k0) eqn:E; simpl; auto.
    rewrite IH. now destruct (existsb (str_eqb k) (map fst m)).
  Qed.

  Lemma mset_nodup k v m : NoDup (map fst m) -> NoDup (map fst (mset k v m)).
  Proof.
    intros H. rewrite mset_keys. destruct (existsb (str_eqb k) (map fst m)) eqn:E; auto.
    apply (NoDup_Add (l := map fst m) (a := k)).
    { rewrite <- (app_nil_r (map fst m)) at 1. apply Add_app. }
    split; auto.
    intros Hin. assert (existsb (str_eqb k) (map fst m) = true) by
      (apply existsb_exists; exists k; split; auto; apply str_eqb_refl). congruence.
  Qed.

  Lemma mget_none k m : mget k m = None <-> ~ In k (map fst m).
  Proof.
    induction m as [|[k0 v0] m IH]; simpl; [tauto|].
    destruct (str_eqb k k0) eqn:E.
    - apply str_eqb_eq in E; subst. split; [discriminate|tauto].
    - apply str_eqb_neq in E. rewrite IH. split; [intros H [->|]; congruence|tauto].
  Qed.

  Lemma mget_some_in k v m : mget k m = Some v -> In (k, v) m.
  Proof.
    induction m as [|[k0 v0] m IH]; simpl; [discriminate|].
    destruct (str_eqb k k0) eqn:E.
    - apply str_eqb_eq in E; subst. intros [= ->]. now left.
    - intros; right; auto.
  Qed.

  Lemma in_mget k v m : NoDup (map fst m) -> In (k, v) m -> mget k m = Some v.
  Proof.
    induction m as [|[k0 v0] m IH]; simpl; [tauto|]. intros Hn [H|H]; inversion Hn; subst.
    - inversion H; subst. now rewrite str_eqb_refl.
    - destruct (str_eqb k k0) eqn:E; auto.
      apply str_eqb_eq in E; subst. exfalso. apply H2. now apply (in_map fst) in H.
  Qed.

  Lemma mget_in k m : In k (map fst m) -> exists v, mget k m = Some v.
  Proof. intros H. destruct (mget k m) eqn:E; eauto. now apply mget_none in E. Qed.

  (** the last value inserted under a key is the one found *)
  Lemma mget_mextend k kvs m :
    mget k (mextend m kvs) =
    match mget k (rev kvs) with Some v => Some v | None => mget k m end.
  Proof.
    unfold mextend. revert m. induction kvs as [|[k0 v0] kvs IH]; intros m; simpl; auto.
    rewrite IH, mget_mset.
    assert (A : forall (l : amap V) x, mget k (l ++ [x]) =
      match mget k l with Some v => Some v | None => if str_eqb k (fst x) then Some (snd x) else None end).
    { induction l as [|[k1 v1] l IHl]; intros [k2 v2]; simpl; auto. destruct (str_eqb k k1); auto. apply (IHl (k2, v2)). }
    rewrite A. simpl. destruct (mget k (rev kvs)); auto.
    now destruct (str_eqb k k0).
  Qed.

  Lemma mextend_nodup kvs m : NoDup (map fst m) -> NoDup (map fst (mextend m kvs)).
  Proof.
    unfold mextend. revert m; induction kvs as [|kv kvs IH]; intros m H; simpl; auto.
    apply IH, mset_nodup, H.
  Qed.
End AMapFacts.

(** ** span *)
Lemma span_spec p s : forall a b, span p s = (a, b) ->
  s = a ++ b /\ Forall (fun c => p c = true) a /\ (forall c b', b = c :: b' -> p c = false).
Proof.
  induction s as [|c s IH]; simpl; intros a b H.
  - inversion H; subst. repeat split; auto. discriminate.
  - destruct (p c) eqn:E.
    + destruct (span p s) as [a' b'] eqn:F. inversion H; subst.
      destruct (IH _ _ eq_refl) as (-> & H1 & H2). repeat split; auto.
    + inversion H; subst. repeat split; auto. intros c' b' [= <- <-]; auto.
Qed.

Lemma span_app p a b : Forall (fun c => p c = true) a -> (forall c b', b = c :: b' -> p c = false) ->
  span p (a ++ b) = (a, b).
Proof.
  induction 1; simpl; intros Hb.
  - destruct b as [|c b]; auto. simpl. rewrite (Hb c b); auto.
  - rewrite H, IHForall; auto.
Qed.

Lemma span_all p a : Forall (fun c => p c = true) a -> span p a = (a, []).
Proof. intros H. rewrite <- (app_nil_r a) at 1. apply span_app; auto. discriminate. Qed.

(** ** character classes *)
Ltac pick := first [left; reflexivity | right; pick].

Lemma is_ws_iff c : is_ws c = true <-> ws c.
Proof.
  unfold is_ws, ws. split.
  - intros H. repeat rewrite orb_true_iff in H. repeat rewrite andb_true_iff in H.
    repeat rewrite N.eqb_eq in H. repeat rewrite N.leb_le in H.
    assert (A : forall n lo, lo <= n -> n <= lo + 4 -> n = lo \/ n = lo+1 \/ n = lo+2 \/ n = lo+3 \/ n = lo+4) by (intros; lia).
    decompose [or and] H; subst; try (unfold ws_chars; simpl; pick).
    + destruct (A c 9 ltac:(lia) ltac:(lia)) as [?|[?|[?|[?|?]]]]; subst; unfold ws_chars; simpl; pick.
    + destruct (N.le_gt_cases c 8196) as [L|L].
      * destruct (A c 8192 ltac:(lia) ltac:(lia)) as [?|[?|[?|[?|?]]]]; subst; unfold ws_chars; simpl; pick.
      * destruct (N.le_gt_cases c 8201).
        -- destruct (A c 8197 ltac:(lia) ltac:(lia)) as [?|[?|[?|[?|?]]]]; subst; unfold ws_chars; simpl; pick.
        -- assert (c = 8202) by lia. subst; unfold ws_chars; simpl; pick.
  - intros H. unfold ws_chars in H. simpl in H. decompose [or] H; subst; try reflexivity; contradiction.
Qed.

Lemma is_ws_false c : is_ws c = false <-> ~ ws c.
Proof. rewrite <- is_ws_iff. destruct (is_ws c); split; congruence. Qed.

Lemma is_digit_iff c : is_digit c = true <-> digit c.
Proof. unfold is_digit, digit. rewrite andb_true_iff, !N.leb_le. tauto. Qed.

Lemma is_ident_start_iff c : is_ident_start c = true <-> letter c.
Proof.
  unfold is_ident_start, is_alpha, letter. rewrite !orb_true_iff, !andb_true_iff, !N.leb_le, N.eqb_eq. tauto.
Qed.

Lemma is_ident_char_iff c : is_ident_char c = true <-> letter c \/ digit c.
Proof.
  unfold is_ident_char, is_alpha, letter, is_digit, digit.
  rewrite !orb_true_iff, !andb_true_iff, !N.leb_le, N.eqb_eq. tauto.
Qed.

Lemma ws_not_special c : ws c -> ~ digit c /\ ~ letter c /\ c <> 34 /\ c <> 96 /\ c <> 46.
Proof.
  rewrite <- is_ws_iff. unfold is_ws, digit, letter. intros H. lia.
Qed.
