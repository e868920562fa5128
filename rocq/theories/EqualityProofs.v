(** Equality of values *)
From Verif Require Import SpecValue TextProofs ValueProofs.
From Coq Require Import ZifyBool.
Open Scope Z_scope.

Section ValueInd.
  Variable P : value -> Prop.
  Hypotheses (Hnull : P VNull) (Hint : forall z, P (VInt z)) (Hfloat : forall f, P (VFloat f)) (Hbool : forall b, P (VBool b))
    (Hstr : forall s, P (VStr s)) (Harr : forall l, Forall P l -> P (VArr l))
    (Hmap : forall l : amap value, Forall (fun kv => P (snd kv)) l -> P (VMap l)).
  Fixpoint value_ind2 (v : value) : P v :=
    match v with
    | VNull => Hnull | VInt z => Hint z | VFloat f => Hfloat f | VBool b => Hbool b | VStr s => Hstr s
    | VArr l => Harr l ((fix all l : Forall P l := match l with [] => Forall_nil _ | v :: l => Forall_cons _ (value_ind2 v) (all l) end) l)
    | VMap l => Hmap l ((fix all l : Forall (fun kv => P (snd kv)) l :=
        match l with [] => Forall_nil _ | kv :: l => Forall_cons _ (value_ind2 (snd kv)) (all l) end) l)
    end.
End ValueInd.

Fixpoint eqb_list (a b : list value) : bool :=
  match a, b with
  | [], [] => true
  | x :: a', y :: b' => value_eqb x y && eqb_list a' b'
  | _, _ => false
  end.
Lemma value_eqb_arr a b : value_eqb (VArr a) (VArr b) = eqb_list a b.
Proof. revert b; induction a as [|x a IH]; intros [|y b]; cbn; auto. Qed.

Lemma unique_arr l : unique_keys (VArr l) <-> Forall unique_keys l.
Proof. cbn. induction l; split; intros H; auto; [constructor; tauto|inversion H; subst; tauto]. Qed.
Lemma unique_map l : unique_keys (VMap l) <-> NoDup (map fst l) /\ Forall (fun kv => unique_keys (snd kv)) l.
Proof.
  cbn. apply and_iff_compat_l. induction l as [|[k v] l IH]; split; intros H; auto.
  - constructor; [apply H|]. apply IH. apply H.
  - inversion H; subst. split; auto. now apply IH.
Qed.
Lemma nan_arr l : nan_free (VArr l) <-> Forall nan_free l.
Proof. cbn. induction l; split; intros H; auto; [constructor; tauto|inversion H; subst; tauto]. Qed.
Lemma nan_map l : nan_free (VMap l) <-> Forall (fun kv => nan_free (snd kv)) l.
Proof.
  cbn. induction l as [|[k v] l IH]; split; intros H; auto.
  - constructor; [apply H|]. apply IH. apply H.
  - inversion H; subst. split; auto. now apply IH.
Qed.

(** two duplicate-free lists, the first included in the second and as long: same elements *)
Lemma keys_same (a b : list str) : NoDup a -> length a = length b -> incl a b -> incl b a.
Proof. intros. apply NoDup_length_incl; auto. lia. Qed.

Lemma forall_in {A} (P : A -> Prop) l x : Forall P l -> In x l -> P x.
Proof. intros F. rewrite Forall_forall in F. auto. Qed.

Lemma feqb_refl x : x <> S754_nan -> SFeqb x x = true.
Proof.
  unfold SFeqb. destruct x as [s|s| |s m e]; try destruct s; cbn; auto; try congruence;
    intros _; rewrite Z.compare_refl; rewrite Pos.compare_cont_refl; reflexivity.
Qed.
Lemma feqb_sym x y : SFeqb x y = SFeqb y x.
Proof.
  unfold SFeqb. change SFcompare with f64_cmp. rewrite (f64_cmp_opp x y). destruct (f64_cmp x y) as [[]|]; reflexivity.
Qed.
Lemma feqb_cases x y : SFeqb x y = true -> x = y \/ exists s s', x = S754_zero s /\ y = S754_zero s'.
Proof.
  unfold SFeqb. destruct x as [s|s| |s m e], y as [s'|s'| |s' m' e']; try destruct s; try destruct s'; cbn; try discriminate; eauto;
    destruct (Z.compare_spec e e'); try discriminate; subst;
    destruct (Pos.compare_cont Eq m m') eqn:E; try discriminate; intros _; apply Pos.compare_eq in E; subst; auto.
Qed.
Lemma feqb_trans x y z : SFeqb x y = true -> SFeqb y z = true -> SFeqb x z = true.
Proof.
  intros H K. destruct (feqb_cases _ _ H) as [->|(s & s' & -> & ->)]; [exact K|].
  destruct (feqb_cases _ _ K) as [<-|(t & t' & T & ->)]; [destruct s, s'; reflexivity|]. destruct s, t'; reflexivity.
Qed.

Lemma feqb_same x y : SFeqb x y = true <-> same (VFloat x) (VFloat y).
Proof.
  split; intros H.
  - destruct (feqb_cases x y H) as [<-|(s & t & -> & ->)]; constructor. intros ->. discriminate H.
  - inversion H; subst; [now apply feqb_refl|destruct s, t; reflexivity].
Qed.

Lemma value_eqb_same a : forall b, unique_keys a -> unique_keys b -> (value_eqb a b = true <-> same a b).
Proof.
  induction a as [|z|f|x|s|l IH|l IH] using value_ind2; intros b U V.
  - destruct b; cbn; split; intros H; try discriminate; try constructor; inversion H.
  - destruct b; cbn; split; intros H; try discriminate; try (inversion H; fail).
    + apply Z.eqb_eq in H. subst. constructor.
    + inversion H; subst. apply Z.eqb_refl.
  - destruct b; cbn; split; intros H; try discriminate; try (inversion H; fail).
    + now apply feqb_same.
    + now apply feqb_same.
  - destruct b; cbn; split; intros H; try discriminate; try (inversion H; fail).
    + apply eqb_prop in H. subst. constructor.
    + inversion H; subst. apply eqb_reflx.
  - destruct b; cbn; split; intros H; try discriminate; try (inversion H; fail).
    + apply str_eqb_eq in H. subst. constructor.
    + inversion H; subst. apply str_eqb_refl.
  - destruct b as [| | | | |l'|]; try (split; intros H; [discriminate H|inversion H]; fail).
    rewrite value_eqb_arr. apply unique_arr in U, V.
    assert (E : eqb_list l l' = true <-> same_list l l').
    { revert l' V. induction IH as [|v l Hv Hl IHl]; intros [|y l'] V; cbn; split; intros H; try discriminate; try constructor; try (inversion H; fail).
      - apply andb_prop in H. inversion U; inversion V; subst. apply Hv; auto. tauto.
      - apply andb_prop in H. inversion U; inversion V; subst. apply IHl; auto. tauto.
      - inversion H; subst. inversion U; inversion V; subst. apply andb_true_intro. split; [apply Hv|apply IHl]; auto. }
    rewrite E. split; intros H; [now constructor|now inversion H].
  - destruct b as [| | | | | |m]; try (split; intros H; [discriminate H|inversion H]; fail).
    apply unique_map in U, V. destruct U as [UN U], V as [VN V]. cbn [value_eqb]. rewrite andb_true_iff, Nat.eqb_eq, forallb_forall.
    split.
    + intros [L H]. 
      assert (I : incl (map fst l) (map fst m)).
      { intros k K. apply in_map_iff in K. destruct K as ([k' v] & <- & K). specialize (H _ K). cbn [fst snd] in *.
        destruct (mget k' m) eqn:G; [|discriminate]. apply mget_some_in in G. apply in_map_iff. exists (k', v0). auto. }
      assert (J : incl (map fst m) (map fst l)) by (apply keys_same; auto; rewrite !map_length; auto).
      constructor.
      * intros k. rewrite !mget_none. split; intros N K; apply N; auto.
      * intros k x y X Y. apply mget_some_in in X. specialize (H _ X). cbn [fst snd] in H. rewrite Y in H.
        apply (forall_in _ _ _ IH X); auto.
        -- apply (forall_in _ _ _ U X).
        -- apply mget_some_in in Y. apply (forall_in _ _ _ V Y).
    + intros H. inversion H as [| | | | | | |a b K S]; subst.
      assert (KK : forall k, In k (map fst l) <-> In k (map fst m)).
      { intros k. specialize (K k). rewrite !mget_none in K. destruct (in_dec str_dec k (map fst l)), (in_dec str_dec k (map fst m)); tauto. }
      split.
      * rewrite <- (map_length fst l), <- (map_length fst m). apply Nat.le_antisymm; apply NoDup_incl_length; auto; intros k; apply KK.
      * intros [k x] X. cbn [fst snd]. destruct (mget k m) as [y|] eqn:Y.
        -- apply (forall_in _ _ _ IH X); cbn.
           ++ apply (forall_in _ _ _ U X).
           ++ apply mget_some_in in Y. apply (forall_in _ _ _ V Y).
           ++ apply (S k); auto. now apply in_mget.
        -- apply K in Y. apply mget_none in Y. exfalso. apply Y. now apply (in_map fst) in X.
Qed.

Lemma same_refl v : unique_keys v -> nan_free v -> same v v.
Proof.
  induction v as [|z|f|x|s|l IH|l IH] using value_ind2; intros U N; try constructor; auto.
  - apply unique_arr in U. apply nan_arr in N. induction IH; inversion U; inversion N; subst; constructor; auto.
  - tauto.
  - intros k x y X Y. rewrite X in Y. inversion Y; subst. apply unique_map in U. apply nan_map in N.
    apply mget_some_in in X. apply (forall_in _ _ _ IH X).
    + apply (forall_in _ _ _ (proj2 U) X).
    + apply (forall_in _ _ _ N X).
Qed.
Lemma same_sym a : forall b, same a b -> same b a.
Proof.
  induction a as [|z|f|x|s|l IH|l IH] using value_ind2; intros b H; inversion H; subst; try constructor; auto.
  - clear H. match goal with H : same_list _ _ |- _ => rename H into S end. revert b0 S. induction IH; intros b S; inversion S; subst; constructor; auto.
  - intros k. symmetry. auto.
  - intros k x y X Y. eapply (forall_in _ _ (k, y) IH); eauto. now apply mget_some_in in Y.
Qed.
Lemma same_trans a : forall b c, same a b -> same b c -> same a c.
Proof.
  induction a as [|z|f|x|s|l IH|l IH] using value_ind2; intros b c H K; inversion H; subst; inversion K; subst; try constructor; auto.
  - clear H K. repeat match goal with H : same_list _ _ |- _ => revert H end. revert b0 b. induction IH; intros b c S1 S2; inversion S1; subst; inversion S2; subst; constructor; eauto.
  - intros k. etransitivity; eauto.
  - intros k x y X Y. destruct (mget k b0) as [z|] eqn:Z.
    + eapply (forall_in _ _ (k, x) IH); eauto. now apply mget_some_in in X.
    + exfalso. rewrite <- H1 in Z. congruence.
Qed.

Theorem equality_same w a b : unique_keys a -> unique_keys b -> (holds w a b KEq <-> same a b).
Proof.
  intros U V. unfold holds. rewrite (binop_strict w KEq (fun l r => Ok (VBool (value_eqb l r)))) by reflexivity.
  rewrite <- value_eqb_same by auto. split; [now intros [= H]|now intros ->].
Qed.
Theorem equality_refl w a : unique_keys a -> nan_free a -> holds w a a KEq.
Proof. intros U N. apply equality_same; auto. now apply same_refl. Qed.
Theorem equality_sym w a b : unique_keys a -> unique_keys b -> holds w a b KEq -> holds w b a KEq.
Proof. intros U V H. apply equality_same; auto. apply same_sym. eapply equality_same; eauto. Qed.
Theorem equality_trans w a b c : unique_keys a -> unique_keys b -> unique_keys c ->
  holds w a b KEq -> holds w b c KEq -> holds w a c KEq.
Proof. intros U V W H K. apply equality_same; auto. apply (same_trans a b c); eapply equality_same; eauto. Qed.
