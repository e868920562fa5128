(** Statistics and durations *)
From Verif Require Import SpecRun TextProofs TextMore.
From Coq Require Import Permutation ZifyBool ZifyN ZifyNat.
Open Scope N_scope.

Lemma total_app a b : total (a ++ b) = total a + total b.
Proof. induction a as [|x a IH]; cbn [app total fold_right] in *; [reflexivity|]. fold (total (a ++ b)). fold (total a). unfold total in *. lia. Qed.
Lemma samples_of_app n a b : samples_of n (a ++ b) = samples_of n a ++ samples_of n b.
Proof. apply flat_map_app. Qed.
Lemma gather_app a n x : gather (a ++ [(n, x)]) = stats_add (gather a) n x.
Proof. unfold gather. rewrite fold_left_app. reflexivity. Qed.
Lemma stat_new_summary x : summary [x] (stat_new x).
Proof. unfold summary, stat_new; cbn. repeat split; auto; try (constructor; [lia|constructor]); lia. Qed.
Lemma stat_add_summary ms s x : summary ms s -> summary (ms ++ [x]) (stat_add s x).
Proof.
  intros (C & T & I1 & F1 & I2 & F2 & A). unfold stat_add. cbn [st_count st_sum st_max st_min st_avg]. rewrite T, C.
  assert (D : N.of_nat (length ms) + 1 <> 0) by lia. set (n := N.of_nat (length ms) + 1) in *. set (sm := total ms + x).
  unfold summary. cbn [st_count st_sum st_max st_min st_avg]. split; [rewrite app_length; cbn [length]; subst n; lia|].
  split; [subst sm; rewrite total_app; unfold total; cbn [fold_right]; lia|].
  split; [|split; [|split; [|split]]].
  - destruct (N.ltb_spec (st_max s) x); apply in_or_app; [right; now left|now left].
  - apply Forall_app. split; [|constructor; [|constructor]; destruct (N.ltb_spec (st_max s) x); lia].
    eapply Forall_impl; [|exact F1]. cbn. intros y. destruct (N.ltb_spec (st_max s) x); lia.
  - destruct (N.ltb_spec x (st_min s)); apply in_or_app; [right; now left|now left].
  - apply Forall_app. split; [|constructor; [|constructor]; destruct (N.ltb_spec x (st_min s)); lia].
    eapply Forall_impl; [|exact F2]. cbn. intros y. destruct (N.ltb_spec x (st_min s)); lia.
  - pose proof (N.div_mod' sm n) as DM. pose proof (N.mod_lt sm n D) as ML. rewrite (N.mul_comm n) in DM. split; lia.
Qed.
Theorem stats_exact l n : match samples_of n l with
  | [] => mget n (gather l) = None
  | ms => exists s, mget n (gather l) = Some s /\ summary ms s
  end.
Proof.
  induction l as [|[m x] l IH] using rev_ind; [reflexivity|]. rewrite samples_of_app, gather_app. unfold stats_add. cbn [samples_of flat_map fst snd].
  destruct (list_eq_dec N.eq_dec n m) as [<-|NE]; cbn [app].
  - destruct (samples_of n l) as [|y ys] eqn:S.
    + rewrite IH. cbn [app]. exists (stat_new x). split; [apply mget_mset_same|apply stat_new_summary].
    + destruct IH as (s & -> & SM). cbn [app]. exists (stat_add s x). split; [apply mget_mset_same|]. exact (stat_add_summary (y :: ys) s x SM).
  - rewrite app_nil_r. destruct (mget m (gather l)); rewrite mget_mset_other by auto; exact IH.
Qed.
Theorem stats_bounds ms s : summary ms s -> st_min s <= st_avg s <= st_max s.
Proof.
  intros (C & T & I1 & F1 & I2 & F2 & A). assert (L : length ms <> O) by (destruct ms; [contradiction|discriminate]).
  assert (U : total ms <= st_max s * N.of_nat (length ms)).
  { clear -F1. induction F1 as [|x ms H F IH]; unfold total in *; cbn [fold_right length]; lia. }
  assert (V : st_min s * N.of_nat (length ms) <= total ms).
  { clear -F2. induction F2 as [|x ms H F IH]; unfold total in *; cbn [fold_right length]; lia. }
  rewrite T, C in A. split; apply N.nlt_ge; intros X; nia.
Qed.
Lemma total_perm a b : Permutation a b -> total a = total b.
Proof. induction 1; unfold total in *; cbn [fold_right] in *; lia. Qed.
Lemma summary_unique a b s t : Permutation a b -> summary a s -> summary b t -> s = t.
Proof.
  intros P (C & T & I1 & F1 & I2 & F2 & A) (C' & T' & I1' & F1' & I2' & F2' & A').
  assert (EC : st_count s = st_count t) by (rewrite C, C', (Permutation_length P); reflexivity).
  assert (ET : st_sum s = st_sum t) by (rewrite T, T'; now apply total_perm).
  rewrite Forall_forall in *.
  assert (EM : st_max s = st_max t). { apply N.le_antisymm; [apply F1'; now apply (Permutation_in _ P)|apply F1; now apply (Permutation_in _ (Permutation_sym P))]. }
  assert (EN : st_min s = st_min t). { apply N.le_antisymm; [apply F2; now apply (Permutation_in _ (Permutation_sym P))|apply F2'; now apply (Permutation_in _ P)]. }
  assert (EA : st_avg s = st_avg t). { rewrite EC, ET in A. assert (st_count t <> 0). { destruct a; [contradiction|]. rewrite <- EC, C. cbn [length]. lia. } nia. }
  destruct s, t; cbn in *; congruence.
Qed.
Lemma samples_perm n a b : Permutation a b -> Permutation (samples_of n a) (samples_of n b).
Proof. intros P. unfold samples_of. now apply Permutation_flat_map. Qed.
Theorem stats_any_order a b n : Permutation a b -> mget n (gather a) = mget n (gather b).
Proof.
  intros P. pose proof (samples_perm n _ _ P) as Q. pose proof (stats_exact a n) as A. pose proof (stats_exact b n) as B.
  destruct (samples_of n a) as [|x xs] eqn:E.
  - apply Permutation_nil in Q. rewrite Q in B. congruence.
  - destruct (samples_of n b) as [|y ys] eqn:F; [apply Permutation_sym, Permutation_nil in Q; discriminate|].
    destruct A as (s & -> & S). destruct B as (t & -> & T). f_equal. now apply (summary_unique _ _ _ _ Q).
Qed.
Lemma gather_keys_nodup l : NoDup (map fst (gather l)).
Proof.
  induction l as [|[n x] l IH] using rev_ind; [constructor|]. rewrite gather_app. unfold stats_add. destruct (mget n (gather l)); now apply mset_nodup.
Qed.

(** ** durations *)
Lemma unit_unique c k k' : unit_seconds c k -> unit_seconds c k' -> k = k'.
Proof. unfold unit_seconds. lia. Qed.
Theorem duration_accepted checks s x c v k : s = x ++ [c] -> unsigned (2 ^ 64 - 1) x v -> unit_seconds c k ->
  parse_duration checks s = if v * k <? 2 ^ 64 then Ok (v * k) else if checks then Panic else Ok ((v * k) mod 2 ^ 64).
Proof.
  intros -> U K. unfold parse_duration. rewrite rev_app_distr. cbn [rev app]. rewrite rev_involutive.
  assert (E : parse_unsigned u64_max x = Some v) by now apply parse_unsigned_iff. rewrite E.
  destruct U as (ds & _ & _ & _ & _ & B).
  assert (M : forall a, (if v * a <=? u64_max then @Ok duration_err N (v * a) else if checks then Panic else Ok ((v * a) mod 2 ^ 64)) =
    if v * a <? 2 ^ 64 then Ok (v * a) else if checks then Panic else Ok ((v * a) mod 2 ^ 64)).
  { intros a. assert (Q : (v * a <=? u64_max) = (v * a <? 2 ^ 64)) by (unfold u64_max; lia). now rewrite Q. }
  destruct K as [[-> ->]|[[-> ->]|[-> ->]]]; cbn [N.eqb Pos.eqb].
  - rewrite N.mul_1_r. destruct (N.ltb_spec v (2 ^ 64)); [reflexivity|lia].
  - apply M.
  - apply M.
Qed.
Theorem duration_rejected checks s : (exists e, parse_duration checks s = Err e) <->
  ~ exists x c v k, s = x ++ [c] /\ unsigned (2 ^ 64 - 1) x v /\ unit_seconds c k.
Proof.
  split.
  - intros (e & E) (x & c & v & k & S & U & K). rewrite (duration_accepted checks s x c v k S U K) in E.
    destruct (v * k <? 2 ^ 64); [discriminate|]. destruct checks; discriminate.
  - intros H. unfold parse_duration. destruct (rev s) as [|c r] eqn:R.
    + eexists. reflexivity.
    + apply (f_equal (@rev _)) in R. rewrite rev_involutive in R. cbn [rev] in R. destruct (parse_unsigned u64_max (rev r)) as [v|] eqn:E; [|eexists; reflexivity].
      apply parse_unsigned_iff in E.
      assert (K : forall k, ~ unit_seconds c k). { intros k K. apply H. exists (rev r), c, v, k. auto. }
      destruct (N.eqb_spec c 115); [exfalso; apply (K 1); left; auto|]. destruct (N.eqb_spec c 109); [exfalso; apply (K 60); right; left; auto|].
      destruct (N.eqb_spec c 104); [exfalso; apply (K 3600); right; right; auto|]. eexists; reflexivity.
Qed.
Theorem duration_message checks s e : parse_duration checks s = Err e ->
  (s = [] /\ duration_err_text e = lit "Invalid number: ") \/
  exists x c, s = x ++ [c] /\
    ((forall v, ~ unsigned (2 ^ 64 - 1) x v) /\ duration_err_text e = lit "Invalid number: " ++ x \/
     (exists v, unsigned (2 ^ 64 - 1) x v) /\ (forall k, ~ unit_seconds c k) /\
     duration_err_text e = lit "Unknown time unit: " ++ [c] ++ lit ", supported units: s, m, h").
Proof.
  unfold parse_duration. destruct (rev s) as [|c r] eqn:R; apply (f_equal (@rev _)) in R; rewrite rev_involutive in R; cbn [rev] in R.
  - intros [= <-]. left. auto.
  - intros E. right. exists (rev r), c. split; auto. destruct (parse_unsigned u64_max (rev r)) as [v|] eqn:Q.
    + right. assert (M : forall a, mul64 checks v a <> Err e) by (intros a; unfold mul64; destruct (_ <=? _), checks; discriminate).
      destruct (N.eqb_spec c 115) as [?|N1]; [discriminate|]. destruct (N.eqb_spec c 109) as [?|N2]; [now apply M in E|].
      destruct (N.eqb_spec c 104) as [?|N3]; [now apply M in E|]. injection E as <-. split; [exists v; now apply parse_unsigned_iff|].
      split; [|reflexivity]. intros k [[H _]|[[H _]|[H _]]]; auto.
    + left. injection E as <-. split; [|reflexivity]. intros v U. apply parse_unsigned_iff in U. unfold u64_max in Q. congruence.
Qed.
