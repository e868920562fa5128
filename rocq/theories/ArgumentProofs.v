(** Proofs about the command line. *)
From Verif Require Import SpecArguments TextProofs TextMore StatProofs.
From Coq Require Import Lia Permutation.
Open Scope N_scope.

Lemma not45 {A} (c : N) (f g : A) : c <> 45 -> match c with 45 => f | _ => g end = g.
Proof. intros H. destruct c as [|q]; auto. do 6 (try (destruct q as [q|q|]; auto)). congruence. Qed.
Lemma hyphened_not (c : char) (s : str) : c <> 45 -> hyphened (c :: s) = false.
Proof. intros H. unfold hyphened. apply (not45 c (match s with [] => false | _ => true end) false H). Qed.
Lemma ordinary_iff (v : str) : ordinary v <-> hyphened v = false.
Proof.
  unfold ordinary. cbn [lit]. split.
  - intros [->|H]; [reflexivity|]. destruct v as [|c v]; auto. apply hyphened_not. intros ->. apply (H v). reflexivity.
  - intros H. destruct v as [|c v]; [right; intros r; discriminate|].
    destruct (N.eq_dec c 45) as [->|N]; [|right; intros r [= E _]; congruence].
    destruct v as [|d v]; [now left|discriminate].
Qed.

(** ** one thing after the other *)
Definition settle (checks : bool) (g : given) (a : options) : options + parsed :=
  match g with Sets o v => take checks o v a | Stat => take_stat a | Name n => take_name n a end.
Fixpoint settle_all (checks : bool) (gs : list given) (a : options) : options + parsed :=
  match gs with
  | [] => inl a
  | g :: gs' => match settle checks g a with inl a' => settle_all checks gs' a' | inr r => inr r end
  end.
Lemma settle_app checks g h a :
  settle_all checks (g ++ h) a = match settle_all checks g a with inl a' => settle_all checks h a' | inr r => inr r end.
Proof. revert a. induction g as [|x g IH]; intros a; cbn [app settle_all]; auto. destruct (settle checks x a); auto. Qed.

Lemma short_letter o : exists c, opt_letter o = [c] /\ short_flag c = Some (FOpt o).
Proof. destruct o; eexists; split; reflexivity. Qed.
Lemma short_opt c o : short_flag c = Some (FOpt o) -> opt_letter o = [c].
Proof.
  unfold short_flag.
  repeat match goal with |- context [if ?x =? ?y then _ else _] => destruct (N.eqb_spec x y) as [->|?] end; intros [= <-]; reflexivity.
Qed.
Lemma short_stat c : short_flag c = Some FStat -> c = 115.
Proof.
  unfold short_flag.
  repeat match goal with |- context [if ?x =? ?y then _ else _] => destruct (N.eqb_spec x y) as [->|?] end; intros H; try discriminate; auto.
Qed.
Lemma long_name o : long_flag (opt_name o) = Some (FOpt o) /\ ~ In 61 (opt_name o).
Proof. destruct o; (split; [reflexivity|]); cbn; intuition discriminate. Qed.
Lemma long_opt s o : long_flag s = Some (FOpt o) -> s = opt_name o.
Proof.
  unfold long_flag.
  repeat match goal with |- context [if str_eqb ?x ?y then _ else _] => destruct (str_eqb x y) eqn:?E end;
  repeat match goal with H : str_eqb _ _ = true |- _ => apply str_eqb_eq in H end; intros [= <-]; assumption.
Qed.
Lemma long_stat s : long_flag s = Some FStat -> s = lit "stat".
Proof.
  unfold long_flag.
  repeat match goal with |- context [if str_eqb ?x ?y then _ else _] => destruct (str_eqb x y) eqn:?E end;
  repeat match goal with H : str_eqb _ _ = true |- _ => apply str_eqb_eq in H end; intros H; try discriminate; assumption.
Qed.

Lemma cluster_stats checks gs s t a : stats gs s ->
  cluster checks (s ++ t) a = match settle_all checks gs a with inl a' => cluster checks t a' | inr r => inr r end.
Proof.
  intros H. revert a. induction H as [|gs s H IH]; intros a; [reflexivity|].
  change ((lit "s" ++ s) ++ t) with (115 :: (s ++ t)). cbn [cluster settle_all settle]. change (short_flag 115) with (Some FStat). cbv iota.
  destruct (take_stat a) as [a'|p]; [apply IH|reflexivity].
Qed.
Lemma stats_letters gs s : stats gs s -> Forall (eq 115) s.
Proof. induction 1; cbn [lit app]; auto. Qed.
Lemma stats_head gs s c t : stats gs s -> c <> 45 -> exists d r, s ++ c :: t = d :: r /\ d <> 45.
Proof. intros [|gs' s' H] N; [now exists c, t|]. eexists _, _. split; [reflexivity|discriminate]. Qed.

(** the next step on an argument with a hyphen *)
Definition next_step checks (r : (options * option opt) + parsed) (rest : list str) : parsed :=
  match r with
  | inl (a', None) => parse_test checks rest a'
  | inl (a', Some o) =>
      match rest with
      | [] => Rejected
      | v :: rest' =>
          if hyphened v then Rejected
          else match take checks o v a' with inl a2 => parse_test checks rest' a2 | inr r => r end
      end
  | inr r => r
  end.
Lemma test_long checks s rest a : s <> [] ->
  parse_test checks ((45 :: 45 :: s) :: rest) a = next_step checks (long_arg checks s a) rest.
Proof. destruct s as [|c s]; [congruence|]. intros _. reflexivity. Qed.
Lemma test_cluster checks c cs rest a : c <> 45 ->
  parse_test checks ((45 :: c :: cs) :: rest) a = next_step checks (cluster checks (c :: cs) a) rest.
Proof.
  intros N. cbn [parse_test].
  replace (str_eqb (45 :: c :: cs) (lit "--")) with false.
  2:{ symmetry. apply Bool.not_true_iff_false. rewrite str_eqb_eq. intros [= E _]. congruence. }
  change (hyphened (45 :: c :: cs)) with true. cbv iota. fold (next_step checks).
  rewrite (not45 c (long_arg checks cs a) (cluster checks (c :: cs) a) N). reflexivity.
Qed.
Lemma test_plain checks x rest a : hyphened x = false ->
  parse_test checks (x :: rest) a = match take_name x a with inl a' => parse_test checks rest a' | inr r => r end.
Proof.
  intros H. cbn [parse_test]. rewrite H.
  replace (str_eqb x (lit "--")) with false; auto.
  symmetry. apply Bool.not_true_iff_false. rewrite str_eqb_eq. intros ->. discriminate.
Qed.
Lemma test_dashes checks rest a : parse_test checks (lit "--" :: rest) a = trailing rest a.
Proof. reflexivity. Qed.

Lemma long_eq checks o v a : long_arg checks (opt_name o ++ lit "=" ++ v) a = match take checks o v a with inl a' => inl (a', None) | inr r => inr r end.
Proof.
  unfold long_arg. destruct (long_name o) as [E N]. cbn [lit app]. rewrite split_once_some by exact N. now rewrite E.
Qed.
Lemma long_alone checks o a : long_arg checks (opt_name o) a = inl (a, Some o).
Proof. unfold long_arg. destruct (long_name o) as [E N]. rewrite split_once_none by exact N. now rewrite E. Qed.

Lemma test_group checks gs (s : str) (c : char) (t : str) rest a : stats gs s -> c <> 45 ->
  parse_test checks ((45 :: s ++ c :: t) :: rest) a =
  next_step checks (match settle_all checks gs a with inl a' => cluster checks (c :: t) a' | inr r => inr r end) rest.
Proof.
  intros P C. rewrite <- (cluster_stats checks gs s (c :: t) a P).
  destruct (stats_head gs s c t P C) as (d & r & E & D). unfold str, char in *. rewrite E. now apply test_cluster.
Qed.
Lemma spelled_step checks g x args a : spelled g x ->
  parse_test checks (x ++ args) a = match settle_all checks g a with inl a' => parse_test checks args a' | inr r => r end.
Proof.
  intros H. destruct H as [n P| |gs s P N|o v|o v P|gs s o v P|gs s o v P N1 N2|gs s o v P Q].
  - apply ordinary_iff in P. cbn [app settle_all settle]. rewrite test_plain by exact P. destruct (take_name n a); auto.
  - cbn [app settle_all settle]. change (lit "--stat") with (45 :: 45 :: lit "stat"). rewrite test_long by discriminate.
    change (long_arg checks (lit "stat") a) with (match take_stat a with inl a' => inl (a', None) | inr r => inr r end : (options * option opt) + parsed).
    destruct (take_stat a); reflexivity.
  - assert (E := cluster_stats checks gs s [] a P). rewrite app_nil_r in E.
    assert (L := stats_letters _ _ P). destruct s as [|c s]; [congruence|]. inversion L; subst.
    change ([lit "-" ++ 115 :: s] ++ args) with ((45 :: 115 :: s) :: args). rewrite test_cluster by discriminate.
    unfold str, char in *. rewrite E. destruct (settle_all checks gs a); reflexivity.
  - change ([lit "--" ++ opt_name o ++ lit "=" ++ v] ++ args) with ((45 :: 45 :: opt_name o ++ lit "=" ++ v) :: args).
    rewrite test_long by (destruct o; discriminate). rewrite long_eq. cbn [settle_all settle]. destruct (take checks o v a); reflexivity.
  - apply ordinary_iff in P.
    change ([lit "--" ++ opt_name o; v] ++ args) with ((45 :: 45 :: opt_name o) :: v :: args).
    rewrite test_long by (destruct o; discriminate). rewrite long_alone. cbn [next_step settle_all settle]. rewrite P.
    destruct (take checks o v a); reflexivity.
  - destruct (short_letter o) as (c & L & F). rewrite L.
    assert (C : c <> 45) by (intros ->; discriminate). 
    etransitivity; [exact (test_group checks gs s c (61 :: v) (args) a P C)|]. rewrite settle_app. destruct (settle_all checks gs a) as [a'|p]; [|reflexivity].
    cbn [cluster settle_all settle]. rewrite F. change (61 =? 61) with true. cbv iota. destruct (take checks o v a'); reflexivity.
  - destruct (short_letter o) as (c & L & F). rewrite L.
    assert (C : c <> 45) by (intros ->; discriminate). 
    etransitivity; [exact (test_group checks gs s c v (args) a P C)|]. rewrite settle_app. destruct (settle_all checks gs a) as [a'|p]; [|reflexivity].
    cbn [cluster settle_all settle]. rewrite F. destruct v as [|c1 v]; [congruence|].
    destruct (N.eqb_spec c1 61) as [->|_]; [exfalso; apply (N2 v); reflexivity|]. destruct (take checks o (c1 :: v) a'); reflexivity.
  - apply ordinary_iff in Q. destruct (short_letter o) as (c & L & F). rewrite L.
    assert (C : c <> 45) by (intros ->; discriminate). 
    etransitivity; [exact (test_group checks gs s c [] (v :: args) a P C)|]. rewrite settle_app. destruct (settle_all checks gs a) as [a'|p]; [|reflexivity].
    cbn [cluster settle_all settle]. rewrite F. cbn [next_step]. rewrite Q. destruct (take checks o v a'); reflexivity.
Qed.
Lemma trailing_names checks ns a :
  trailing ns a = match settle_all checks (map Name ns) a with inl a' => Runs (finish a') | inr r => r end.
Proof. revert a. induction ns as [|n ns IH]; intros a; [reflexivity|]. cbn [trailing map settle_all settle]. destruct (take_name n a); auto. Qed.
Lemma written_parse checks gs args a : written gs args ->
  parse_test checks args a = match settle_all checks gs a with inl a' => Runs (finish a') | inr r => r end.
Proof.
  intros H. revert a. induction H as [|ns|g x gs args S W IH]; intros a; [reflexivity|rewrite test_dashes; apply trailing_names|].
  rewrite (spelled_step checks g x args a S), settle_app. destruct (settle_all checks g a); auto.
Qed.

(** ** whatever runs was written *)
Lemma cluster_inv checks cs a a' p : cluster checks cs a = inl (a', p) ->
  exists gs s t, cs = s ++ t /\ stats gs s /\
    ((t = [] /\ p = None) \/ exists o, p = None /\ (exists v, t = opt_letter o ++ lit "=" ++ v \/ (v <> [] /\ (forall r, v <> lit "=" ++ r) /\ t = opt_letter o ++ v)) \/
     p = Some o /\ t = opt_letter o).
Proof.
  revert a. induction cs as [|c cs IH]; intros a H; cbn [cluster] in H.
  - injection H as <- <-. exists [], [], []. repeat split; auto. constructor.
  - destruct (short_flag c) as [[o| |]|] eqn:F; try discriminate.
    + exists [], [], (c :: cs). split; [reflexivity|]. split; [constructor|]. right. exists o. rewrite (short_opt c o F).
      destruct cs as [|c1 v]; [injection H as <- <-; right; auto|]. left.
      destruct (take checks o (if c1 =? 61 then v else c1 :: v) a); [|discriminate]. injection H as <- <-. split; auto.
      destruct (N.eqb_spec c1 61) as [->|N]; [exists v; now left|]. exists (c1 :: v). right. split; [discriminate|]. split; [|reflexivity].
      intros r [= E _]. congruence.
    + apply short_stat in F as ->. destruct (take_stat a) as [a1|]; [|discriminate]. apply IH in H as (gs & s & t & -> & S & R).
      exists (Stat :: gs), (lit "s" ++ s), t. repeat split; auto. now constructor.
Qed.
Lemma cluster_spelled checks c cs a a' p : c <> 45 -> cluster checks (c :: cs) a = inl (a', p) ->
  match p with
  | None => exists gs, spelled gs [45 :: c :: cs]
  | Some _ => forall v, hyphened v = false -> exists gs, spelled gs ((45 :: c :: cs) :: [v])
  end.
Proof.
  intros N H. destruct (cluster_inv _ _ _ _ _ H) as (gs & s & t & E & S & [[-> ->]|(o & [[-> (v & [->|(V & Q & ->)])]|[-> ->]])]).
  - rewrite app_nil_r in E. exists gs. rewrite E. apply (sp_stats gs s S). rewrite <- E. discriminate.
  - eexists. rewrite E. apply (sp_short_eq gs s o v S).
  - eexists. rewrite E. apply (sp_short_on gs s o v S V Q).
  - intros v V. eexists. rewrite E. apply (sp_short gs s o v S). now apply ordinary_iff.
Qed.
Lemma long_spelled checks s a a' p : long_arg checks s a = inl (a', p) ->
  match p with
  | None => exists gs, spelled gs [45 :: 45 :: s]
  | Some _ => forall v, hyphened v = false -> exists gs, spelled gs ((45 :: 45 :: s) :: [v])
  end.
Proof.
  unfold long_arg. destruct (split_once_cases 61 s) as [[N ->]|(n & v & -> & N & ->)].
  - destruct (long_flag s) as [[o| |]|] eqn:F; try discriminate.
    + intros [= <- <-] v V. apply long_opt in F as ->. eexists. apply (sp_long o v). now apply ordinary_iff.
    + apply long_stat in F as ->. destruct (take_stat a); [|discriminate]. intros [= <- <-]. eexists. apply sp_stat.
  - destruct (long_flag n) as [[o| |]|] eqn:F; try discriminate. apply long_opt in F as ->.
    destruct (take checks o v a); [|discriminate]. intros [= <- <-]. eexists. apply (sp_long_eq o v).
Qed.

Definition fails (r : parsed) : Prop := forall i, r <> Runs i.
Lemma settle_fails checks g a r : settle checks g a = inr r -> fails r.
Proof.
  intros H i ->. destruct g as [o v| |n]; cbn [settle] in H.
  - destruct o; cbn [take] in H;
    repeat match type of H with context [match ?x with _ => _ end] => destruct x end; discriminate.
  - unfold take_stat in H. destruct (o_stat a); discriminate.
  - unfold take_name in H. destruct (o_name a); discriminate.
Qed.
Lemma settle_all_fails checks gs a r : settle_all checks gs a = inr r -> fails r.
Proof.
  revert a. induction gs as [|g gs IH]; intros a H; cbn [settle_all] in H; [discriminate|].
  destruct (settle checks g a) as [a'|p] eqn:E; [eauto|]. injection H as <-. eapply settle_fails; eauto.
Qed.
Lemma cluster_fails checks cs a r : cluster checks cs a = inr r -> fails r.
Proof.
  revert a. induction cs as [|c cs IH]; intros a H; cbn [cluster] in H; [discriminate|].
  destruct (short_flag c) as [[o| |]|]; [|destruct (take_stat a) as [a'|p] eqn:E| |]; try (injection H as <-; intros i; discriminate).
  - destruct cs as [|c1 v]; [discriminate|]. destruct (take checks o (if c1 =? 61 then v else c1 :: v) a) as [a'|p] eqn:E; [discriminate|].
    injection H as <-. eapply (settle_fails checks (Sets o _)); exact E.
  - eauto.
  - injection H as <-. eapply (settle_fails checks Stat); exact E.
Qed.
Lemma long_fails checks s a r : long_arg checks s a = inr r -> fails r.
Proof.
  unfold long_arg. destruct (split_once 61 s) as [[n v]|].
  - destruct (long_flag n) as [[o| |]|]; intros H; try (injection H as <-; intros i; discriminate).
    destruct (take checks o v a) as [a'|p] eqn:E; [discriminate|]. injection H as <-. eapply (settle_fails checks (Sets o v)); exact E.
  - destruct (long_flag s) as [[o| |]|]; intros H; try discriminate; try (injection H as <-; intros i; discriminate).
    destruct (take_stat a) as [a'|p] eqn:E; [discriminate|]. injection H as <-. eapply (settle_fails checks Stat); exact E.
Qed.
Lemma parse_written checks args : forall a i, parse_test checks args a = Runs i -> exists gs, written gs args.
Proof.
  remember (length args) as n eqn:L. assert (B : (length args <= n)%nat) by lia. clear L. revert args B.
  induction n as [|n IH]; intros [|x rest] B a i H; cbn [length] in B; try lia; [exists []; constructor|exists []; constructor|].
  assert (Go : forall g x' rest' a2, spelled g x' -> x :: rest = x' ++ rest' -> (length rest' <= n)%nat -> parse_test checks rest' a2 = Runs i ->
                 exists gs, written gs (x :: rest)).
  { intros g x' rest' a2 S E L R. destruct (IH rest' L _ _ R) as [gs W]. exists (g ++ gs). rewrite E. now constructor. }
  assert (Step : forall r, next_step checks r rest = Runs i -> (forall p, r = inr p -> fails p) ->
    (forall a' p, r = inl (a', p) -> match p with None => exists gs, spelled gs [x] | Some _ => forall v, hyphened v = false -> exists gs, spelled gs (x :: [v]) end) ->
    exists gs, written gs (x :: rest)).
  { intros r R F S. destruct r as [[a' [o|]]|p]; cbn [next_step] in R.
    - destruct rest as [|v rest']; [discriminate|]. destruct (hyphened v) eqn:V; [discriminate|].
      destruct (take checks o v a') as [a2|p] eqn:T; [|exfalso; eapply (settle_fails checks (Sets o v)); eauto].
      destruct (S a' (Some o) eq_refl v V) as [g W]. cbn [length] in B. eapply (Go g [x; v] rest' a2 W eq_refl); [lia|exact R].
    - destruct (S a' None eq_refl) as [g W]. eapply (Go g [x] rest a' W eq_refl); [lia|exact R].
    - exfalso. eapply F; eauto. }
  assert (Plain : hyphened x = false -> exists gs, written gs (x :: rest)).
  { intros V. rewrite test_plain in H by exact V. destruct (take_name x a) as [a'|p] eqn:T; [|exfalso; eapply (settle_fails checks (Name x)); eauto].
    eapply (Go [Name x] [x] rest a' (sp_name x (proj2 (ordinary_iff x) V)) eq_refl); [lia|exact H]. }
  destruct x as [|c x]; [apply Plain; reflexivity|]. destruct (N.eq_dec c 45) as [->|C]; [|apply Plain; now apply hyphened_not].
  destruct x as [|c x]; [apply Plain; reflexivity|]. destruct (N.eq_dec c 45) as [->|C].
  - destruct x as [|c x]; [exists (map Name rest); apply (wr_rest rest)|].
    rewrite test_long in H by discriminate. eapply Step; [exact H|intros p; apply long_fails|intros a' p; apply long_spelled].
  - rewrite test_cluster in H by exact C. eapply Step; [exact H|intros p; apply cluster_fails|].
    intros a' p E. eapply cluster_spelled; eauto.
Qed.
Lemma test_runs checks args a i : parse_test checks args a = Runs i <->
  exists gs a', written gs args /\ settle_all checks gs a = inl a' /\ i = finish a'.
Proof.
  split.
  - intros H. destruct (parse_written _ _ _ _ H) as [gs W]. rewrite (written_parse checks gs args a W) in H.
    destruct (settle_all checks gs a) as [a'|p] eqn:E; [injection H as <-; eauto|]. exfalso. eapply settle_all_fails; eauto.
  - intros (gs & a' & W & E & ->). now rewrite (written_parse checks gs args a W), E.
Qed.

(** ** values *)
Lemma zeros_val ds : digits_val 0 ds = Some 0 <-> Forall (eq 48) ds.
Proof.
  assert (G : forall ds acc, digits_val acc ds = Some 0 -> acc = 0 /\ Forall (eq 48) ds).
  { clear. induction ds as [|c ds IH]; intros acc H; cbn [digits_val] in H; [injection H as ->; auto|].
    destruct (is_digit c) eqn:D; [|discriminate]. apply IH in H as [H F]. unfold is_digit in D.
    apply andb_true_iff in D as [D _]. apply N.leb_le in D. split; [lia|]. constructor; auto. lia. }
  split; [intros H; now apply G in H|]. induction 1 as [|c ds <- F IH]; cbn [digits_val]; auto.
Qed.
Lemma unsigned_minus max (s : str) n : ~ unsigned max (45 :: s) n.
Proof.
  intros (ds & [E|E] & _ & F & _); [|discriminate]. subst ds. inversion F as [|? ? D _]. destruct D. lia.
Qed.
Lemma parse_u32_iff v n : parse_u32 v = Some n <-> whole v n.
Proof.
  unfold whole. change (2 ^ 32 - 1) with u32_max. rewrite <- parse_unsigned_iff. unfold parse_u32. cbn [lit].
  destruct v as [|c v]; [split; [auto|intros [H|(_ & zs & H & _)]; [exact H|discriminate]]|].
  destruct (N.eq_dec c 45) as [->|C].
  - assert (U : parse_unsigned u32_max (45 :: v) = None) by (apply parse_unsigned_none; intros m; apply unsigned_minus).
    unfold str, char in *. rewrite U. destruct v as [|d v].
    { split; [discriminate|intros [H|(_ & zs & E & N & _)]; [discriminate|]]. destruct zs; [congruence|discriminate]. }
    split.
    + destruct (digits_val 0 (d :: v)) as [[|q]|] eqn:E; try discriminate. intros [= <-]. right. split; auto.
      exists (d :: v). split; [reflexivity|]. split; [discriminate|]. now apply zeros_val.
    + intros [H|(-> & zs & [= <-] & N & F)]; [discriminate|]. apply zeros_val in F. now rewrite F.
  - rewrite (not45 c (match v with [] => parse_unsigned u32_max (c :: v) | _ :: _ => match digits_val 0 v with Some 0 => Some 0 | _ => None end end) _ C).
    split; [auto|intros [H|(_ & zs & [= E] & _)]; [exact H|congruence]].
Qed.
Lemma parse_path_iff v p : parse_path v = Some p <-> somewhere v p.
Proof.
  unfold parse_path, somewhere. destruct v; split; try discriminate; [intros [[] _]; auto|intros [= <-]; split; [discriminate|auto]|intros [_ ->]; auto].
Qed.
Lemma rejected_or checks (v : str) : (exists e, parse_duration checks v = Err e) \/
  exists x c n k, v = x ++ [c] /\ unsigned (2 ^ 64 - 1) x n /\ unit_seconds c k.
Proof.
  rewrite duration_rejected. destruct (rev v) as [|c r] eqn:R; apply (f_equal (@rev _)) in R; rewrite rev_involutive in R; cbn [rev] in R; subst v.
  - left. intros (x & c & n & k & E & _). destruct x; discriminate.
  - destruct (parse_unsigned u64_max (rev r)) as [n|] eqn:Q.
    + apply parse_unsigned_iff in Q.
      assert (K : (exists k, unit_seconds c k) \/ forall k, ~ unit_seconds c k).
      { unfold unit_seconds. destruct (N.eq_dec c 115); [left; exists 1; auto|]. destruct (N.eq_dec c 109); [left; exists 60; auto|].
        destruct (N.eq_dec c 104); [left; exists 3600; auto|]. right. intros k. lia. }
      destruct K as [[k K]|K]; [right; exists (rev r), c, n, k; auto|]. left. intros (x & c' & m & k & E & _ & K').
      apply app_inj_tail in E as [_ <-]. eapply K; eauto.
    + left. intros (x & c' & m & k & E & U & _). apply app_inj_tail in E as [<- _]. apply parse_unsigned_iff in U. unfold u64_max in Q. congruence.
Qed.
Lemma parse_duration_cases checks v :
  (exists e, parse_duration checks v = Err e) \/ (exists d, parse_duration checks v = Ok d /\ lasting checks v d) \/
  (parse_duration checks v = Panic /\ checks = true /\ endless v).
Proof.
  destruct (parse_duration checks v) as [d|e| |] eqn:E; eauto; right.
  all: assert (X : exists x c n k, v = x ++ [c] /\ unsigned (2 ^ 64 - 1) x n /\ unit_seconds c k)
    by (destruct (rejected_or checks v) as [[e H]|H]; [congruence|exact H]).
  all: destruct X as (x & c & n & k & -> & U & K); rewrite (duration_accepted checks _ x c n k eq_refl U K) in E.
  all: destruct (N.ltb_spec (n * k) (2 ^ 64)) as [L|L]; [|destruct checks]; try discriminate.
  - left. injection E as <-. eexists. split; [reflexivity|]. exists x, c, n, k. auto 9.
  - left. injection E as <-. eexists. split; [reflexivity|]. exists x, c, n, k. auto 9.
  - right. split; [reflexivity|]. split; [reflexivity|]. exists x, c, n, k. auto 9.
Qed.

Lemma parse_duration_iff checks v d : parse_duration checks v = Ok d <-> lasting checks v d.
Proof.
  split.
  - intros H. destruct (parse_duration_cases checks v) as [[e E]|[(d' & E & L)|[E _]]]; rewrite H in E; try discriminate. now injection E as <-.
  - intros (x & c & n & k & E & U & K & D). rewrite (duration_accepted checks v x c n k E U K).
    destruct (N.ltb_spec (n * k) (2 ^ 64)) as [L|L]; destruct D as [(B & ->)|(B & -> & ->)]; auto; lia.
Qed.

(** ** what the options come to *)
Definition agrees (checks : bool) (gs : list given) (a : options) : Prop :=
  (forall n, o_name a = Some n <-> In (Name n) gs) /\
  asked whole OThreads gs (o_threads a) /\ asked (lasting checks) ODuration gs (o_duration a) /\ asked whole ONumber gs (o_number a) /\
  asked somewhere OPath gs (o_path a) /\ asked somewhere ORecord gs (o_record a) /\ (o_stat a = true <-> In Stat gs).
Lemma asked_other {A} (R : str -> A -> Prop) o gs g x : (forall v, g <> Sets o v) -> asked R o gs x -> asked R o (gs ++ [g]) x.
Proof.
  intros N. destruct x as [a|]; cbn [asked].
  - intros (v & I & M). exists v. rewrite in_app_iff. auto.
  - intros H v I. apply in_app_iff in I as [I|[I|[]]]; [eapply H; eauto|eapply N; eauto].
Qed.
Lemma asked_this {A} (R : str -> A -> Prop) o gs v x : R v x -> asked R o (gs ++ [Sets o v]) (Some x).
Proof. intros H. exists v. rewrite in_app_iff. cbn. auto. Qed.
Lemma name_other gs g (m : option str) : (forall n, g <> Name n) -> (forall n, m = Some n <-> In (Name n) gs) -> forall n, m = Some n <-> In (Name n) (gs ++ [g]).
Proof. intros N H n. rewrite H, in_app_iff. cbn. specialize (N n). intuition congruence. Qed.
Lemma stat_other gs g b : g <> Stat -> (b = true <-> In Stat gs) -> b = true <-> In Stat (gs ++ [g]).
Proof. intros N H. rewrite H, in_app_iff. cbn. intuition congruence. Qed.
Lemma slot_in g gs : In (slot_of g) (map slot_of gs) -> match g with Sets o _ => exists v, In (Sets o v) gs | Stat => In Stat gs | Name _ => exists n, In (Name n) gs end.
Proof. rewrite in_map_iff. intros (h & E & I). destruct g, h; cbn in E; try discriminate; [injection E as ->|..]; eauto. Qed.
Lemma settle_agrees checks gs g a a' : agrees checks gs a -> settle checks g a = inl a' ->
  ~ In (slot_of g) (map slot_of gs) /\ agrees checks (gs ++ [g]) a'.
Proof.
  intros (N & T & D & K & P & R & S) H. destruct g as [o v| |n]; cbn [settle] in H.
  - split.
    + intros I. apply slot_in in I as [w I]. destruct o; cbn [take] in H.
      * destruct (o_threads a); [discriminate|]. eapply T; eauto.
      * destruct (o_duration a); [discriminate|]. eapply D; eauto.
      * destruct (o_number a); [discriminate|]. eapply K; eauto.
      * destruct (o_path a); [discriminate|]. eapply P; eauto.
      * destruct (o_record a); [discriminate|]. eapply R; eauto.
    + destruct o; cbn [take] in H.
      * destruct (o_threads a); [discriminate|]. destruct (parse_u32 v) eqn:E; [|discriminate]. apply parse_u32_iff in E. injection H as <-.
        repeat split; cbn [o_name o_threads o_duration o_number o_path o_record o_stat]; try (apply asked_other; [discriminate|assumption]); try (now apply asked_this);
        try (apply name_other; [discriminate|assumption]); apply stat_other; auto; discriminate.
      * destruct (o_duration a); [discriminate|]. destruct (parse_duration checks v) eqn:E; try discriminate. apply parse_duration_iff in E. injection H as <-.
        repeat split; cbn [o_name o_threads o_duration o_number o_path o_record o_stat]; try (apply asked_other; [discriminate|assumption]); try (now apply asked_this);
        try (apply name_other; [discriminate|assumption]); apply stat_other; auto; discriminate.
      * destruct (o_number a); [discriminate|]. destruct (parse_u32 v) eqn:E; [|discriminate]. apply parse_u32_iff in E. injection H as <-.
        repeat split; cbn [o_name o_threads o_duration o_number o_path o_record o_stat]; try (apply asked_other; [discriminate|assumption]); try (now apply asked_this);
        try (apply name_other; [discriminate|assumption]); apply stat_other; auto; discriminate.
      * destruct (o_path a); [discriminate|]. destruct (parse_path v) eqn:E; [|discriminate]. apply parse_path_iff in E. injection H as <-.
        repeat split; cbn [o_name o_threads o_duration o_number o_path o_record o_stat]; try (apply asked_other; [discriminate|assumption]); try (now apply asked_this);
        try (apply name_other; [discriminate|assumption]); apply stat_other; auto; discriminate.
      * destruct (o_record a); [discriminate|]. destruct (parse_path v) eqn:E; [|discriminate]. apply parse_path_iff in E. injection H as <-.
        repeat split; cbn [o_name o_threads o_duration o_number o_path o_record o_stat]; try (apply asked_other; [discriminate|assumption]); try (now apply asked_this);
        try (apply name_other; [discriminate|assumption]); apply stat_other; auto; discriminate.
  - unfold take_stat in H. destruct (o_stat a) eqn:Q; [discriminate|]. injection H as <-. split.
    + intros I. apply slot_in in I. apply S in I. discriminate.
    + repeat split; cbn [o_name o_threads o_duration o_number o_path o_record o_stat]; try (apply asked_other; [discriminate|assumption]);
      try (apply name_other; [discriminate|assumption]); auto. intros _. rewrite in_app_iff. cbn. auto.
  - unfold take_name in H. destruct (o_name a) eqn:Q; [discriminate|]. injection H as <-. split.
    + intros I. apply slot_in in I as [m I]. apply N in I. discriminate.
    + repeat split; cbn [o_name o_threads o_duration o_number o_path o_record o_stat]; try (apply asked_other; [discriminate|assumption]);
      try (apply stat_other; auto; discriminate).
      * intros [= <-]. rewrite in_app_iff. cbn. auto.
      * intros I. apply in_app_iff in I as [I|[[= ->]|[]]]; [apply N in I; discriminate|auto].
Qed.
Lemma once_snoc gs g : once_each (gs ++ [g]) <-> once_each gs /\ ~ In (slot_of g) (map slot_of gs).
Proof.
  unfold once_each. rewrite map_app. cbn [map]. split.
  - intros H. apply NoDup_remove in H. rewrite app_nil_r in H. exact H.
  - intros [H I]. apply (Permutation_NoDup (l := slot_of g :: map slot_of gs)); [apply Permutation_cons_append|now constructor].
Qed.
Lemma settled checks gs a : settle_all checks gs no_options = inl a -> once_each gs /\ agrees checks gs a.
Proof.
  revert a. induction gs as [|g gs IH] using rev_ind; intros a H.
  - injection H as <-. split; [constructor|]. unfold agrees, no_options. cbn. repeat split; try discriminate; try (intros []); auto.
  - rewrite settle_app in H. destruct (settle_all checks gs no_options) as [b|]; [|discriminate]. destruct (IH b eq_refl) as [O A].
    cbn [settle_all] in H. destruct (settle checks g b) as [c|] eqn:E; [|discriminate]. injection H as <-.
    destruct (settle_agrees _ _ _ _ _ A E) as [N B]. split; auto. now apply once_snoc.
Qed.
Definition valid (checks : bool) (g : given) : Prop :=
  match g with
  | Sets (OThreads | ONumber) v => exists n, whole v n
  | Sets ODuration v => exists d, lasting checks v d
  | Sets _ v => exists p, somewhere v p
  | _ => True
  end.
Lemma settle_valid checks gs : once_each gs -> Forall (valid checks) gs -> exists a, settle_all checks gs no_options = inl a.
Proof.
  induction gs as [|g gs IH] using rev_ind; intros O V; [eexists; reflexivity|].
  apply once_snoc in O as [O N]. apply Forall_app in V as [V W]. inversion W as [|? ? W1 _]; subst. destruct (IH O V) as [a E].
  rewrite settle_app, E. cbn [settle_all]. destruct (settled _ _ _ E) as (_ & Nm & T & D & K & P & R & S).
  enough (H : exists b, settle checks g a = inl b) by (destruct H as [b ->]; eauto).
  assert (Z : forall o v, g = Sets o v -> forall w, ~ In (Sets o w) gs).
  { intros o v -> w I. apply N. apply in_map_iff. exists (Sets o w). auto. }
  assert (Q : forall A (M : str -> A -> Prop) o v x, g = Sets o v -> asked M o gs x -> x = None).
  { intros A M o v [x|] G X; auto. destruct X as (w & I & _). exfalso. eapply Z; eauto. }
  destruct g as [o v| |n]; cbn [settle valid] in *.
  - destruct o; cbn [take]; destruct W1 as [x X].
    + rewrite (Q _ _ _ _ _ eq_refl T). apply parse_u32_iff in X. rewrite X. eauto.
    + rewrite (Q _ _ _ _ _ eq_refl D). apply parse_duration_iff in X. rewrite X. eauto.
    + rewrite (Q _ _ _ _ _ eq_refl K). apply parse_u32_iff in X. rewrite X. eauto.
    + rewrite (Q _ _ _ _ _ eq_refl P). apply parse_path_iff in X. rewrite X. eauto.
    + rewrite (Q _ _ _ _ _ eq_refl R). apply parse_path_iff in X. rewrite X. eauto.
  - unfold take_stat. destruct (o_stat a); [|eauto]. exfalso. apply N. apply in_map_iff. exists Stat. split; auto. now apply S.
  - unfold take_name. destruct (o_name a) as [m|]; [|eauto]. exfalso. apply N. apply in_map_iff. exists (Name m). split; auto. now apply Nm.
Qed.
Lemma once_same gs g h : once_each gs -> In g gs -> In h gs -> slot_of g = slot_of h -> g = h.
Proof.
  unfold once_each. induction gs as [|x gs IH]; intros O; [intros []|]. cbn [map] in O. inversion O as [|? ? N O']; subst.
  intros [->|I] [->|J] E; auto; exfalso; apply N; apply in_map_iff; [exists h|exists g]; auto.
Qed.
Lemma asked_unique {A} (M : str -> A -> Prop) o gs x y : once_each gs -> (forall v a b, M v a -> M v b -> a = b) ->
  asked M o gs x -> asked M o gs y -> x = y.
Proof.
  intros O F X Y. destruct x as [a|], y as [b|]; cbn [asked] in *; auto.
  - destruct X as (v & I & X), Y as (w & J & Y). assert (E := once_same gs _ _ O I J eq_refl). injection E as <-. f_equal. eapply F; eauto.
  - destruct X as (v & I & _). exfalso. eapply Y; eauto.
  - destruct Y as (v & I & _). exfalso. eapply X; eauto.
Qed.
Lemma whole_unique v a b : whole v a -> whole v b -> a = b.
Proof. rewrite <- !parse_u32_iff. congruence. Qed.
Lemma lasting_unique checks v a b : lasting checks v a -> lasting checks v b -> a = b.
Proof. rewrite <- !parse_duration_iff. congruence. Qed.
Lemma somewhere_unique v a b : somewhere v a -> somewhere v b -> a = b.
Proof. intros [_ ->] [_ ->]. auto. Qed.
Lemma option_same {A} (x y : option A) (P : A -> Prop) : (forall n, x = Some n <-> P n) -> (forall n, y = Some n <-> P n) -> x = y.
Proof. intros X Y. destruct x as [a|]; [symmetry; apply Y, X; auto|]. destruct y as [b|]; auto. apply X, Y. auto. Qed.
Lemma agrees_unique checks gs a b : once_each gs -> agrees checks gs a -> agrees checks gs b -> a = b.
Proof.
  intros O (N & T & D & K & P & R & S) (N' & T' & D' & K' & P' & R' & S').
  assert (E1 := option_same _ _ _ N N'). assert (E2 := asked_unique _ _ _ _ _ O whole_unique T T').
  assert (E3 := asked_unique _ _ _ _ _ O (lasting_unique checks) D D'). assert (E4 := asked_unique _ _ _ _ _ O whole_unique K K').
  assert (E5 := asked_unique _ _ _ _ _ O somewhere_unique P P'). assert (E6 := asked_unique _ _ _ _ _ O somewhere_unique R R').
  assert (E7 : o_stat a = o_stat b) by (apply Bool.eq_true_iff_eq; now rewrite S, S').
  destruct a, b; cbn in *; congruence.
Qed.
Lemma asked_valid {A} (M : str -> A -> Prop) o gs x v : once_each gs -> asked M o gs x -> In (Sets o v) gs -> exists a, M v a.
Proof.
  intros O X I. destruct x as [a|]; [|exfalso; eapply X; eauto]. destruct X as (w & J & X).
  assert (E := once_same gs _ _ O I J eq_refl). injection E as <-. eauto.
Qed.
Lemma agrees_valid checks gs a : once_each gs -> agrees checks gs a -> Forall (valid checks) gs.
Proof.
  intros O (N & T & D & K & P & R & S). apply Forall_forall. intros [o v| |n] I; cbn [valid]; auto.
  destruct o; [exact (asked_valid _ _ _ _ _ O T I)|exact (asked_valid _ _ _ _ _ O D I)|exact (asked_valid _ _ _ _ _ O K I)|
    exact (asked_valid _ _ _ _ _ O P I)|exact (asked_valid _ _ _ _ _ O R I)].
Qed.
Lemma settled_iff checks gs a : settle_all checks gs no_options = inl a <-> once_each gs /\ agrees checks gs a.
Proof.
  split; [apply settled|]. intros [O A]. destruct (settle_valid checks gs O (agrees_valid _ _ _ O A)) as [b E].
  rewrite E. f_equal. apply (agrees_unique checks gs); auto. now apply settled.
Qed.
Lemma counted_iff o gs n : counted o gs n <-> exists x, asked whole o gs x /\ n = match x with Some m => m | None => 1 end.
Proof.
  unfold counted. split.
  - intros [H|[H ->]]; [exists (Some n)|exists None]; auto.
  - intros ([m|] & H & ->); auto.
Qed.
Lemma asks_iff checks gs i : asks checks gs i <-> exists a, agrees checks gs a /\ i = finish a.
Proof.
  split.
  - intros [nm t d k p r s N T D K P R S]. apply counted_iff in T as (x & T & ->). apply counted_iff in K as (y & K & ->).
    exists (Options nm x d y p r s). repeat split; auto; try apply N; apply S.
  - intros (a & (N & T & D & K & P & R & S) & ->). unfold finish. constructor; auto; apply counted_iff; eauto.
Qed.

(** ** the theorems *)
Theorem arguments_test checks args i : parse_main checks (lit "test" :: args) = Runs i <->
  exists gs, written gs args /\ once_each gs /\ asks checks gs i.
Proof.
  change (parse_main checks (lit "test" :: args)) with (parse_test checks args no_options). rewrite test_runs. split.
  - intros (gs & a & W & S & E). apply settled_iff in S as [O A]. exists gs. repeat split; auto. apply asks_iff. eauto.
  - intros (gs & W & O & A). apply asks_iff in A as (a & A & E). exists gs, a. repeat split; auto. apply settled_iff. auto.
Qed.
Lemma asks_perm checks gs hs i : Permutation gs hs -> asks checks gs i -> asks checks hs i.
Proof.
  intros P H.
  assert (I : forall g, In g gs <-> In g hs) by (intros g; split; apply Permutation_in; [exact P|now apply Permutation_sym]).
  assert (Q : forall A (M : str -> A -> Prop) o x, asked M o gs x -> asked M o hs x).
  { intros A M o [a|]; cbn [asked]; [intros (v & J & X); exists v; now rewrite <- I|intros X v J; apply (X v); now rewrite I]. }
  destruct H as [nm t d k p r s N T D K Pa R S]. constructor; auto.
  - intros n. now rewrite <- I.
  - destruct T as [T|[T E]]; [left|right]; auto.
  - destruct K as [T1|[T1 E]]; [left|right]; auto.
  - now rewrite <- I.
Qed.
Theorem arguments_order checks gs hs args brgs i : written gs args -> written hs brgs -> Permutation gs hs ->
  parse_main checks (lit "test" :: args) = Runs i -> parse_main checks (lit "test" :: brgs) = Runs i.
Proof.
  intros W V P H. change (parse_test checks args no_options = Runs i) in H. change (parse_test checks brgs no_options = Runs i).
  rewrite (written_parse checks gs args _ W) in H. destruct (settle_all checks gs no_options) as [a|r] eqn:E; [|exfalso; eapply settle_all_fails; eauto].
  injection H as <-. apply settled_iff in E as [O A]. rewrite (written_parse checks hs brgs _ V).
  assert (O' : once_each hs) by (eapply Permutation_NoDup; [apply Permutation_map; exact P|exact O]).
  assert (X : asks checks hs (finish a)) by (eapply asks_perm; [exact P|apply asks_iff; eauto]).
  apply asks_iff in X as (b & B & ->). assert (S : settle_all checks hs no_options = inl b) by (apply settled_iff; auto). now rewrite S.
Qed.

Theorem arguments_repl checks args : parse_main checks args = Runs Repl <-> args = [] \/ args = [lit "--"].
Proof.
  split; [|intros [->| ->]; reflexivity]. destruct args as [|x rest]; auto. unfold parse_main.
  destruct (str_eqb x (lit "eval")). { intros H. exfalso. revert H. generalize false, (@None str). induction rest as [|y rest IH]; intros p t; cbn [parse_eval]; [destruct t; discriminate|].
    destruct (negb p && str_eqb y (lit "--")); [apply IH|]. destruct (negb p && hyphened y); [|destruct t; [discriminate|apply IH]].
    unfold only_help. repeat match goal with |- context [match ?x with _ => _ end] => destruct x end; discriminate. }
  destruct (str_eqb x (lit "test")). { intros H. apply test_runs in H as (gs & a & _ & _ & E). discriminate. }
  destruct (str_eqb x (lit "help")). { unfold parse_help. repeat match goal with |- context [match ?x with _ => _ end] => destruct x end; discriminate. }
  destruct (str_eqb x (lit "--")) eqn:E. { apply str_eqb_eq in E as ->. destruct rest; [auto|discriminate]. }
  unfold only_help. repeat match goal with |- context [match ?x with _ => _ end] => destruct x end; discriminate.
Qed.

(** ** every line is read in one way *)
Fixpoint letters (cs : str) : option (list given * option opt) :=
  match cs with
  | [] => Some ([], None)
  | c :: cs' =>
      match short_flag c with
      | Some FStat => match letters cs' with Some (g, p) => Some (Stat :: g, p) | None => None end
      | Some (FOpt o) => match cs' with [] => Some ([], Some o) | c1 :: v => Some ([Sets o (if c1 =? 61 then v else cs')], None) end
      | _ => None
      end
  end.
Definition long_piece (s : str) : option (list given * option opt) :=
  match split_once 61 s with
  | Some (n, v) => match long_flag n with Some (FOpt o) => Some ([Sets o v], None) | _ => None end
  | None => match long_flag s with Some (FOpt o) => Some ([], Some o) | Some FStat => Some ([Stat], None) | _ => None end
  end.
Definition joined (r : option (list given * option opt)) (rest : list str) : option (list given * list str) :=
  match r with
  | Some (g, None) => Some (g, rest)
  | Some (g, Some o) => match rest with v :: rest' => Some (g ++ [Sets o v], rest') | [] => None end
  | None => None
  end.
Definition piece (args : list str) : option (list given * list str) :=
  match args with
  | [] => None
  | x :: rest =>
      if str_eqb x (lit "--") then None
      else if hyphened x then joined (match x with 45 :: 45 :: s => long_piece s | _ :: cs => letters cs | [] => None end) rest
      else Some ([Name x], rest)
  end.
Lemma letters_stats gs s t : stats gs s -> letters (s ++ t) = match letters t with Some (g, p) => Some (gs ++ g, p) | None => None end.
Proof.
  induction 1 as [|gs s H IH]; [cbn [app]; destruct (letters t) as [[g p]|]; reflexivity|].
  change ((lit "s" ++ s) ++ t) with (115 :: (s ++ t)). cbn [letters]. change (short_flag 115) with (Some FStat). cbv iota.
  rewrite IH. destruct (letters t) as [[g p]|]; reflexivity.
Qed.
Lemma piece_long s rest : s <> [] -> piece ((45 :: 45 :: s) :: rest) = joined (long_piece s) rest.
Proof. destruct s; [congruence|reflexivity]. Qed.
Lemma piece_letters c cs rest : c <> 45 -> piece ((45 :: c :: cs) :: rest) = joined (letters (c :: cs)) rest.
Proof.
  intros N. unfold piece.
  replace (str_eqb (45 :: c :: cs) (lit "--")) with false.
  2:{ symmetry. apply Bool.not_true_iff_false. rewrite str_eqb_eq. intros [= E _]. congruence. }
  change (hyphened (45 :: c :: cs)) with true. cbv iota.
  now rewrite (not45 c (long_piece cs) (letters (c :: cs)) N).
Qed.
Lemma piece_group gs (s : str) (c : char) (t : str) rest : stats gs s -> c <> 45 ->
  piece ((45 :: s ++ c :: t) :: rest) = joined (match letters (c :: t) with Some (g, p) => Some (gs ++ g, p) | None => None end) rest.
Proof.
  intros P C. rewrite <- (letters_stats gs s (c :: t) P).
  destruct (stats_head gs s c t P C) as (d & r & E & D). unfold str, char in *. rewrite E. now apply piece_letters.
Qed.
Lemma piece_spelled g x args : spelled g x -> piece (x ++ args) = Some (g, args).
Proof.
  intros H. destruct H as [n P| |gs s P N|o v|o v P|gs s o v P|gs s o v P N1 N2|gs s o v P Q].
  - apply ordinary_iff in P. unfold piece. cbn [app]. rewrite P.
    replace (str_eqb n (lit "--")) with false; auto.
    symmetry. apply Bool.not_true_iff_false. rewrite str_eqb_eq. intros ->. discriminate.
  - reflexivity.
  - assert (E := letters_stats gs s [] P). rewrite app_nil_r in E. cbn [letters] in E. rewrite app_nil_r in E.
    assert (L := stats_letters _ _ P). destruct s as [|c s]; [congruence|]. inversion L; subst.
    etransitivity; [apply (piece_letters 115 s args); discriminate|]. unfold str, char in *. now rewrite E.
  - etransitivity; [apply (piece_long (opt_name o ++ lit "=" ++ v) args); destruct o; discriminate|].
    unfold long_piece. destruct (long_name o) as [E N]. cbn [lit app]. rewrite split_once_some by exact N. now rewrite E.
  - etransitivity; [apply (piece_long (opt_name o) (v :: args)); destruct o; discriminate|].
    unfold long_piece. destruct (long_name o) as [E N]. rewrite split_once_none by exact N. now rewrite E.
  - destruct (short_letter o) as (c & L & F). rewrite L. assert (C : c <> 45) by (intros ->; discriminate).
    etransitivity; [exact (piece_group gs s c (61 :: v) args P C)|]. cbn [letters]. now rewrite F.
  - destruct (short_letter o) as (c & L & F). rewrite L. assert (C : c <> 45) by (intros ->; discriminate).
    etransitivity; [exact (piece_group gs s c v args P C)|]. cbn [letters]. rewrite F. destruct v as [|c1 v]; [congruence|].
    destruct (N.eqb_spec c1 61) as [->|_]; [exfalso; apply (N2 v); reflexivity|]. reflexivity.
  - destruct (short_letter o) as (c & L & F). rewrite L. assert (C : c <> 45) by (intros ->; discriminate).
    etransitivity; [exact (piece_group gs s c [] (v :: args) P C)|]. cbn [letters]. rewrite F. cbn [joined]. now rewrite app_nil_r.
Qed.
Theorem arguments_one_way gs hs args : written gs args -> written hs args -> gs = hs.
Proof.
  intros W. revert hs. induction W as [|ns|g x gs args S W IH]; intros hs V.
  - inversion V as [|?|g x gs args S V' E1 E2]; auto. apply (piece_spelled g x args) in S. rewrite E2 in S. discriminate.
  - inversion V as [|ms E1 E2|g x gs args S V' E1 E2]; auto. apply (piece_spelled g x args) in S. rewrite E2 in S. discriminate.
  - apply (piece_spelled g x args) in S. inversion V as [E1 E2|ms E1 E2|g' x' gs' args' S' V' E1 E2].
    + rewrite <- E2 in S. discriminate.
    + rewrite <- E2 in S. discriminate.
    + apply (piece_spelled g' x' args') in S'. rewrite E2, S in S'. injection S' as <- <-. f_equal. now apply IH.
Qed.

(** ** evaluating a text *)
Lemma only_help_fails x : only_help x = Shows \/ only_help x = Rejected.
Proof. unfold only_help. repeat match goal with |- context [match ?x with _ => _ end] => destruct x; auto end. Qed.
Lemma eval_filled args past t i : parse_eval args past (Some t) = Runs i ->
  i = EvalText t /\ (args = [] \/ past = false /\ args = [lit "--"]).
Proof.
  destruct args as [|x rest]; cbn [parse_eval]; [intros [= <-]; auto|]. destruct past; cbn [negb andb].
  - discriminate.
  - destruct (str_eqb x (lit "--")) eqn:E.
    + apply str_eqb_eq in E as ->. destruct rest as [|y rest]; cbn [parse_eval negb andb]; [intros [= <-]; auto|discriminate].
    + destruct (hyphened x); [|discriminate]. destruct (only_help_fails x) as [-> | ->]; discriminate.
Qed.
Lemma eval_iff args i : parse_eval args false None = Runs i <->
  exists t, i = EvalText t /\ (ordinary t /\ (args = [t] \/ args = [t; lit "--"]) \/ args = [lit "--"; t]).
Proof.
  split.
  - destruct args as [|x rest]; cbn [parse_eval negb andb]; [discriminate|]. destruct (str_eqb x (lit "--")) eqn:E.
    + apply str_eqb_eq in E as ->. destruct rest as [|y rest]; cbn [parse_eval negb andb]; [discriminate|].
      intros H. apply eval_filled in H as (-> & [->|[? _]]); [eauto|discriminate].
    + destruct (hyphened x) eqn:V; [destruct (only_help_fails x) as [-> | ->]; discriminate|].
      intros H. apply eval_filled in H as (-> & R). exists x. split; auto. left. split; [now apply ordinary_iff|].
      destruct R as [->|[_ ->]]; auto.
  - intros (t & -> & [(O & A)|A]).
    + apply ordinary_iff in O. assert (E : str_eqb t (lit "--") = false).
      { apply Bool.not_true_iff_false. rewrite str_eqb_eq. intros ->. discriminate. }
      destruct A as [-> | ->]; cbn [parse_eval negb andb]; rewrite E, O; reflexivity.
    + subst args. reflexivity.
Qed.
Theorem arguments_eval checks args t : parse_main checks args = Runs (EvalText t) <->
  ordinary t /\ (args = [lit "eval"; t] \/ args = [lit "eval"; t; lit "--"]) \/ args = [lit "eval"; lit "--"; t].
Proof.
  split.
  - destruct args as [|x rest]; [discriminate|]. unfold parse_main. destruct (str_eqb x (lit "eval")) eqn:E.
    + apply str_eqb_eq in E as ->. rewrite eval_iff. intros (u & [= <-] & [(O & [-> | ->])| ->]); auto.
    + destruct (str_eqb x (lit "test")). { intros H. apply test_runs in H as (gs & a & _ & _ & H). discriminate. }
      destruct (str_eqb x (lit "help")). { unfold parse_help. repeat match goal with |- context [match ?x with _ => _ end] => destruct x end; discriminate. }
      destruct (str_eqb x (lit "--")). { destruct rest; discriminate. }
      unfold only_help. repeat match goal with |- context [match ?x with _ => _ end] => destruct x end; discriminate.
  - intros H. assert (R : exists rest, args = lit "eval" :: rest /\ parse_eval rest false None = Runs (EvalText t)).
    { destruct H as [(O & [-> | ->])| ->]; eexists; (split; [reflexivity|]); apply eval_iff; exists t; auto. }
    destruct R as (rest & -> & R). exact R.
Qed.
Theorem arguments_runs checks args i : parse_main checks args = Runs i ->
  args = [] \/ args = [lit "--"] \/ (exists t, i = EvalText t) \/ exists rest, args = lit "test" :: rest.
Proof.
  destruct args as [|x rest]; auto. intros H. right. unfold parse_main in H. destruct (str_eqb x (lit "eval")) eqn:E.
  { apply eval_iff in H as (t & -> & _). right. left. eauto. }
  destruct (str_eqb x (lit "test")) eqn:E2. { apply str_eqb_eq in E2 as ->. right. right. eauto. }
  destruct (str_eqb x (lit "help")). { exfalso. revert H. unfold parse_help. repeat match goal with |- context [match ?x with _ => _ end] => destruct x end; discriminate. }
  destruct (str_eqb x (lit "--")) eqn:E3. { apply str_eqb_eq in E3 as ->. destruct rest; [auto|discriminate]. }
  exfalso. revert H. unfold only_help. repeat match goal with |- context [match ?x with _ => _ end] => destruct x end; discriminate.
Qed.

(** ** what else can happen *)
Lemma take_other checks o v a r : take checks o v a = inr r -> r = Rejected \/ r = Aborts /\ checks = true /\ endless v.
Proof.
  destruct o; cbn [take].
  2:{ destruct (o_duration a); [intros [= <-]; auto|]. destruct (parse_duration_cases checks v) as [[e ->]|[(d & -> & _)|(-> & C & E)]]; intros [= <-]; auto. }
  all: repeat match goal with |- context [match ?x with _ => _ end] => destruct x end; intros [= <-]; auto.
Qed.
Definition because checks (args : list str) (r : parsed) : Prop :=
  match r with
  | Runs _ | Rejected => True
  | Shows => exists x, In x args /\ curious x
  | Aborts => checks = true /\ exists x pre v, In x args /\ x = pre ++ v /\ endless v
  end.
Lemma because_more checks args args' r : because checks args r -> (forall x, In x args -> In x args') -> because checks args' r.
Proof.
  destruct r; cbn [because]; auto.
  - intros (x & I & C) H. eauto.
  - intros (C & x & p & v & I & H) K. split; auto. exists x, p, v. auto.
Qed.
Lemma take_because checks o v pre a r args : take checks o v a = inr r -> In (pre ++ v) args -> because checks args r.
Proof. intros H I. apply take_other in H as [->|(-> & C & E)]; cbn [because]; auto. split; auto. exists (pre ++ v), pre, v. auto. Qed.
Lemma stat_because checks a r args : take_stat a = inr r -> because checks args r.
Proof. unfold take_stat. destruct (o_stat a); intros [= <-]. exact I. Qed.
Lemma name_because checks n a r args : take_name n a = inr r -> because checks args r.
Proof. unfold take_name. destruct (o_name a); intros [= <-]. exact I. Qed.
Lemma short_help c : short_flag c = Some FHelp -> c = 104.
Proof.
  unfold short_flag.
  repeat match goal with |- context [if ?x =? ?y then _ else _] => destruct (N.eqb_spec x y) as [->|?] end; intros H; try discriminate; auto.
Qed.
Lemma long_help s : long_flag s = Some FHelp -> s = lit "help".
Proof.
  unfold long_flag.
  repeat match goal with |- context [if str_eqb ?x ?y then _ else _] => destruct (str_eqb x y) eqn:?E end;
  repeat match goal with H : str_eqb _ _ = true |- _ => apply str_eqb_eq in H end; intros H; try discriminate; assumption.
Qed.
Lemma cluster_because checks (pre cs : str) a r : cluster checks cs a = inr r -> because checks [45 :: pre ++ cs] r.
Proof.
  revert pre a. induction cs as [|c cs IH]; intros pre a H; cbn [cluster] in H; [discriminate|].
  destruct (short_flag c) as [[o| |]|] eqn:F.
  - destruct cs as [|c1 v]; [discriminate|]. destruct (take checks o (if c1 =? 61 then v else c1 :: v) a) as [a'|p] eqn:E; [discriminate|].
    injection H as <-. destruct (c1 =? 61).
    + apply (take_because checks o v (45 :: pre ++ [c; c1]) a p _ E). left. cbn. now rewrite <- app_assoc.
    + apply (take_because checks o (c1 :: v) (45 :: pre ++ [c]) a p _ E). left. cbn. now rewrite <- app_assoc.
  - destruct (take_stat a) as [a'|p] eqn:E; [|injection H as <-; eapply stat_because; eauto].
    replace (pre ++ c :: cs) with ((pre ++ [c]) ++ cs) by (now rewrite <- app_assoc). eapply IH; eauto.
  - injection H as <-. apply short_help in F as ->. eexists. split; [left; reflexivity|]. right. right. right.
    exists (pre ++ 104 :: cs). split; [reflexivity|]. left. apply in_app_iff. right. now left.
  - injection H as <-. exact I.
Qed.
Lemma long_because checks s a r : long_arg checks s a = inr r -> because checks [45 :: 45 :: s] r.
Proof.
  unfold long_arg. destruct (split_once_cases 61 s) as [[N ->]|(n & v & -> & N & ->)].
  - destruct (long_flag s) as [[o| |]|] eqn:F; intros H; try discriminate; try (injection H as <-; exact I).
    + destruct (take_stat a) as [a'|p] eqn:E; [discriminate|]. injection H as <-. eapply stat_because; eauto.
    + injection H as <-. apply long_help in F as ->. eexists. split; [left; reflexivity|]. right. left. reflexivity.
  - destruct (long_flag n) as [[o| |]|] eqn:F; intros H; try (injection H as <-; exact I).
    destruct (take checks o v a) as [a'|p] eqn:E; [discriminate|]. injection H as <-.
    apply (take_because checks o v (45 :: 45 :: n ++ [61]) a p _ E). left. cbn. now rewrite <- app_assoc.
Qed.
Lemma trailing_because checks args a : because checks args (trailing args a).
Proof.
  revert a. induction args as [|x rest IH]; intros a; cbn [trailing]; [exact I|]. destruct (take_name x a) as [a'|r] eqn:E; [|eapply name_because; eauto].
  apply (because_more checks rest); [apply IH|intros; now right].
Qed.
Lemma test_because checks args : forall a, because checks args (parse_test checks args a).
Proof.
  remember (length args) as n eqn:L. assert (B : (length args <= n)%nat) by lia. clear L. revert args B.
  induction n as [|n IH]; intros [|x rest] B a; cbn [length] in B; try lia; try exact I.
  assert (Rest : forall rest' a2, (exists pre, rest = pre ++ rest') -> because checks (x :: rest) (parse_test checks rest' a2)).
  { intros rest' a2 [pre ->]. rewrite app_length in B. apply (because_more checks rest'); [apply IH; lia|]. intros y Y. right. apply in_app_iff. auto. }
  assert (Step : forall r, (forall p, r = inr p -> because checks [x] p) -> because checks (x :: rest) (next_step checks r rest)).
  { intros [[a' [o|]]|p] R; cbn [next_step].
    - destruct rest as [|v rest']; [exact I|]. destruct (hyphened v); [exact I|].
      destruct (take checks o v a') as [a2|p] eqn:T; [apply Rest; now exists [v]|].
      apply (take_because checks o v [] a' p _ T). right. now left.
    - apply Rest. now exists [].
    - apply (because_more checks [x]); [auto|]. intros y [<-|[]]. now left. }
  assert (Plain : hyphened x = false -> because checks (x :: rest) (parse_test checks (x :: rest) a)).
  { intros V. rewrite test_plain by exact V. destruct (take_name x a) as [a'|p] eqn:T; [apply Rest; now exists []|eapply name_because; eauto]. }
  destruct x as [|c x]; [apply Plain; reflexivity|]. destruct (N.eq_dec c 45) as [->|C]; [|apply Plain; now apply hyphened_not].
  destruct x as [|c x]; [apply Plain; reflexivity|]. destruct (N.eq_dec c 45) as [->|C].
  - destruct x as [|c x].
    + change (because checks (lit "--" :: rest) (trailing rest a)). apply (because_more checks rest); [apply trailing_because|intros; now right].
    + rewrite test_long by discriminate. apply Step. intros p. apply long_because.
  - rewrite test_cluster by exact C. apply Step. intros p. apply (cluster_because checks []).
Qed.
Lemma only_help_curious x : only_help x = Shows -> curious x.
Proof.
  intros H. destruct (str_eqb x (lit "--help")) eqn:E. { apply str_eqb_eq in E as ->. right. now left. }
  destruct x as [|c x]; [discriminate|]. destruct x as [|d x].
  { exfalso. revert H. unfold only_help. rewrite E. repeat match goal with |- context [match ?x with _ => _ end] => destruct x end; discriminate. }
  destruct (N.eq_dec c 45) as [->|C]; [destruct (N.eq_dec d 104) as [->|D]|].
  - right. right. right. exists (104 :: x). split; [reflexivity|]. left. now left.
  - exfalso. revert H. unfold only_help. rewrite E. repeat match goal with |- context [match ?x with _ => _ end] => destruct x end; try discriminate; congruence.
  - exfalso. revert H. unfold only_help. rewrite E. repeat match goal with |- context [match ?x with _ => _ end] => destruct x end; try discriminate; congruence.
Qed.
Lemma eval_because checks args past t : because checks args (parse_eval args past t).
Proof.
  revert past t. induction args as [|x rest IH]; intros past t; cbn [parse_eval]; [destruct t; exact I|].
  assert (R : forall p u, because checks (x :: rest) (parse_eval rest p u)) by (intros p u; apply (because_more checks rest); [apply IH|intros; now right]).
  destruct (negb past && str_eqb x (lit "--")); auto. destruct (negb past && hyphened x); [|destruct t; auto; exact I].
  destruct (only_help x) eqn:E; try exact I; [|destruct (only_help_fails x); congruence]. exists x. split; [now left|now apply only_help_curious].
Qed.
Lemma main_because checks args : because checks args (parse_main checks args).
Proof.
  destruct args as [|x rest]; [exact I|]. unfold parse_main.
  destruct (str_eqb x (lit "eval")). { apply (because_more checks rest); [apply eval_because|intros; now right]. }
  destruct (str_eqb x (lit "test")). { apply (because_more checks rest); [apply test_because|intros; now right]. }
  destruct (str_eqb x (lit "help")) eqn:E.
  { apply str_eqb_eq in E as ->. assert (S : because checks (lit "help" :: rest) Shows) by (eexists; split; [left; reflexivity|now left]).
    unfold parse_help. repeat match goal with |- context [match ?x with _ => _ end] => destruct x; try exact I; try exact S end. }
  destruct (str_eqb x (lit "--")). { destruct rest; exact I. }
  assert (H : because checks (x :: rest) (if str_eqb x (lit "--version") then Shows else only_help x)).
  { destruct (str_eqb x (lit "--version")) eqn:E2.
    - apply str_eqb_eq in E2 as ->. eexists. split; [left; reflexivity|]. right. right. now left.
    - destruct (only_help x) eqn:E3; try exact I; [|destruct (only_help_fails x); congruence]. exists x. split; [now left|now apply only_help_curious]. }
  destruct x as [|c x]; auto. destruct x as [|d x]; [destruct c as [|q]; auto; do 6 (try (destruct q as [q|q|]; auto))|].
  destruct (N.eq_dec c 45) as [->|C].
  - destruct (N.eq_dec d 86) as [->|D].
    + eexists. split; [left; reflexivity|]. right. right. right. exists (86 :: x). split; [reflexivity|]. right. now left.
    + destruct d as [|q]; auto. do 7 (try (destruct q as [q|q|]; auto)). congruence.
  - destruct c as [|q]; auto. do 6 (try (destruct q as [q|q|]; auto)). congruence.
Qed.
Theorem arguments_shows checks args : parse_main checks args = Shows -> exists x, In x args /\ curious x.
Proof. intros H. assert (B := main_because checks args). rewrite H in B. exact B. Qed.
Theorem arguments_aborts checks args : parse_main checks args = Aborts ->
  checks = true /\ exists x pre v, In x args /\ x = pre ++ v /\ endless v.
Proof. intros H. assert (B := main_because checks args). rewrite H in B. exact B. Qed.
Lemma spelled_steps checks gss xs args a : Forall2 spelled gss xs ->
  parse_test checks (List.concat xs ++ args) a = match settle_all checks (List.concat gss) a with inl a' => parse_test checks args a' | inr r => r end.
Proof.
  intros H. revert a. induction H as [|g x gss xs S H IH]; intros a; [reflexivity|]. cbn [List.concat]. rewrite <- app_assoc.
  rewrite (spelled_step checks g x _ a S), settle_app. destruct (settle_all checks g a); auto.
Qed.
Theorem arguments_help_test checks gss xs i h rest : Forall2 spelled gss xs -> once_each (List.concat gss) -> asks checks (List.concat gss) i ->
  h = lit "--help" \/ (exists r, h = lit "-h" ++ r) -> parse_main checks (lit "test" :: List.concat xs ++ h :: rest) = Shows.
Proof.
  intros S O A H. apply asks_iff in A as (a & A & _). assert (E : settle_all checks (List.concat gss) no_options = inl a) by (apply settled_iff; auto).
  change (parse_test checks (List.concat xs ++ h :: rest) no_options = Shows). rewrite (spelled_steps checks gss xs _ _ S), E.
  destruct H as [->|[r ->]]; reflexivity.
Qed.
Theorem arguments_help checks h rest : h = lit "--help" \/ (exists r, h = lit "-h" ++ r) ->
  parse_main checks (h :: rest) = Shows /\ parse_main checks (lit "eval" :: h :: rest) = Shows /\
  forall t, ordinary t -> parse_main checks (lit "eval" :: t :: h :: rest) = Shows.
Proof.
  intros H. split; [|split]; [destruct H as [->|[r ->]]; reflexivity|destruct H as [->|[r ->]]; reflexivity|].
  intros t O. change (parse_eval (t :: h :: rest) false None = Shows). apply ordinary_iff in O.
  assert (E : str_eqb t (lit "--") = false) by (apply Bool.not_true_iff_false; rewrite str_eqb_eq; intros ->; discriminate).
  cbn [parse_eval negb andb]. rewrite E, O. cbn [parse_eval negb andb]. destruct H as [->|[r ->]]; reflexivity.
Qed.
Theorem arguments_version checks v rest : v = lit "--version" \/ (exists r, v = lit "-V" ++ r) -> parse_main checks (v :: rest) = Shows.
Proof. intros [->|[r ->]]; reflexivity. Qed.
Theorem arguments_help_command checks args : parse_main checks (lit "help" :: args) = Shows <->
  args = [] \/ args = [lit "help"] \/ exists x, (x = lit "eval" \/ x = lit "test") /\ (args = [x] \/ args = [lit "help"; x]).
Proof.
  change (parse_main checks (lit "help" :: args)) with (parse_help args). split.
  - destruct args as [|x [|y [|z r]]]; cbn [parse_help]; auto; try discriminate.
    + destruct (str_eqb x (lit "eval")) eqn:E1; [apply str_eqb_eq in E1; intros _; right; right; exists x; auto|].
      destruct (str_eqb x (lit "test")) eqn:E2; [apply str_eqb_eq in E2; intros _; right; right; exists x; auto|].
      destruct (str_eqb x (lit "help")) eqn:E3; [apply str_eqb_eq in E3 as ->; auto|discriminate].
    + destruct (str_eqb x (lit "help")) eqn:E3; [apply str_eqb_eq in E3 as ->|discriminate].
      destruct (str_eqb y (lit "eval")) eqn:E1; [apply str_eqb_eq in E1; intros _; right; right; exists y; auto|].
      destruct (str_eqb y (lit "test")) eqn:E2; [apply str_eqb_eq in E2; intros _; right; right; exists y; auto|discriminate].
  - intros [->|[->|(x & [-> | ->] & [-> | ->])]]; reflexivity.
Qed.
Theorem arguments_overflow gs hs args i v : written (gs ++ Sets ODuration v :: hs) args -> once_each gs -> asks true gs i ->
  (forall u, ~ In (Sets ODuration u) gs) -> endless v -> parse_main true (lit "test" :: args) = Aborts.
Proof.
  intros W O A N E. apply asks_iff in A as (a & A & _). assert (S : settle_all true gs no_options = inl a) by (apply settled_iff; auto).
  change (parse_test true args no_options = Aborts). rewrite (written_parse true _ args _ W), settle_app, S.
  assert (D : o_duration a = None).
  { destruct A as (_ & _ & D & _). destruct (o_duration a) as [d|]; auto. destruct D as (u & I & _). exfalso. eapply N; eauto. }
  destruct E as (x & c & n & k & V & U & K & L). cbn [settle_all settle take]. rewrite D, (duration_accepted true v x c n k V U K).
  destruct (N.ltb_spec (n * k) (2 ^ 64)); [lia|reflexivity].
Qed.
