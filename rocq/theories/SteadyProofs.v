(** Proofs: with servers that answer equal requests equally, a test that carries nothing
    over repeats its first round *)
From Coq Require Import Lia Permutation.
From Verif Require Import TextProofs EvaluatorProofs EvaluatorTop RunProofs LiveProofs ProcessProofs ProcessRun ProcessTop ProcessLaunch SpecSteady.
Open Scope N_scope.

Lemma times_snoc {A} (l : list A) n : times (S n) l = times n l ++ l.
Proof. unfold times. induction n as [|n IH]; [cbn; now rewrite app_nil_r|]. change (repeat l (S (S n))) with (l :: repeat l (S n)). cbn [List.concat]. rewrite IH at 1. change (repeat l (S n)) with (l :: repeat l n). cbn [List.concat]. now rewrite app_assoc. Qed.
Lemma times_add {A} (l : list A) a b : times (a + b) l = times a l ++ times b l.
Proof. unfold times. rewrite repeat_app. apply concat_app. Qed.
Lemma flat_repeat {A B} (f : A -> list B) a k : flat_map f (repeat a k) = times k (f a).
Proof. unfold times. induction k as [|k IH]; [reflexivity|]. cbn. now rewrite IH. Qed.

Section Rounds.
Variables (w : env) (body : list expr) (c : ctx) (o : out everr value) (s0 : st) (round : list event).
Hypothesis Cn : carries_nothing (c_reqs c) body.
Hypothesis Me : memoryless w.
Hypothesis F0 : first_round w body c o s0 round.

Lemma steady_trace k s bs : iterated w body c k s bs -> N.of_nat (length bs) = k /\ bs = repeat (c_recs (s_ctx s0)) (length bs) /\ s_trace s = times (length bs) round /\ (length bs <> 0%nat -> exists v, o = Ok v).
Proof.
  destruct F0 as [E0 ->]. intros I. assert (B : bs = repeat (c_recs (s_ctx s0)) (N.to_nat k)) by apply (iterations_same _ _ _ Cn Me _ _ E0 _ _ _ I).
  assert (L : length bs = N.to_nat k) by (rewrite B; apply repeat_length). split; [lia|]. split; [rewrite L; exact B|]. clear B L.
  induction I as [|k s bs v s1 I IH Ev]; [now split|]. destruct IH as (Tr & _).
  destruct (iterations_same _ _ _ Cn Me _ _ E0 _ _ _ I) as (_ & s1' & Ev' & Rc & T1). rewrite Ev in Ev'. injection Ev' as <- <-.
  rewrite app_length. cbn [length s_trace]. split; [|eauto].
  rewrite PeanoNat.Nat.add_1_r, times_snoc, <- Tr, T1, Rc. unfold lines. cbn [afterwards]. now rewrite app_assoc.
Qed.
Lemma steady_step k s bs : iterated w body c k s bs -> exists s2, eval_block w body s = (o, s2) /\ s_trace s2 ++ afterwards w o s2 = s_trace s ++ round.
Proof.
  destruct F0 as [E0 ->]. intros I. destruct (iterations_same _ _ _ Cn Me _ _ E0 _ _ _ I) as (_ & s2 & Ev & Rc & T). exists s2. split; [exact Ev|].
  rewrite T, <- app_assoc. do 2 f_equal. destruct o; cbn [afterwards]; try reflexivity. now rewrite Rc.
Qed.
Lemma steady_way m bs own : under_way w body c m bs own -> repeating round (exists v, o = Ok v) m own.
Proof.
  intros (s & I & Le & X). destruct (steady_trace _ _ _ I) as (_ & _ & Tr & B).
  destruct X as [->|(Lt & o1 & s2 & Ev & [part ->] & [rest P2])].
  - exists (length bs), []. rewrite app_nil_r. repeat split; [exact Tr|now exists round|lia|exact B].
  - destruct (steady_step _ _ _ I) as (s2' & Ev' & W). rewrite Ev in Ev'. injection Ev' as -> ->. rewrite W in P2. rewrite <- app_assoc in P2. apply app_inv_head in P2.
    exists (length bs), part. rewrite <- Tr. repeat split; [now exists rest|lia|lia|exact B].
Qed.
Lemma steady_done m stopped bs own : done_with w body c m stopped bs own -> (exists v, o = Ok v) ->
  bs = repeat (c_recs (s_ctx s0)) (length bs) /\ own = times (length bs) round /\ N.of_nat (length bs) <= m /\ (N.of_nat (length bs) = m \/ stopped = true).
Proof.
  intros (s & I & Le & X) [v Ov]. destruct (steady_trace _ _ _ I) as (_ & Bs & Tr & B). destruct X as [[-> X]|(Lt & o1 & s2 & Ev & F & _)].
  - now repeat split.
  - destruct (steady_step _ _ _ I) as (s2' & Ev' & _). rewrite Ev in Ev'. injection Ev' as -> ->. rewrite Ov in F. destruct F as [F|[e F]]; discriminate F.
Qed.
Lemma failed_done m stopped bs own : done_with w body c m stopped bs own -> (forall v, o <> Ok v) ->
  bs = [] /\ (own = round /\ 0 < m \/ own = [] /\ (m = 0 \/ stopped = true)).
Proof.
  intros (s & I & Le & X) No. destruct (steady_trace _ _ _ I) as (_ & Bs & Tr & B). assert (Z : bs = []). { destruct bs as [|b bs]; [reflexivity|]. destruct B as [v Ov]; [discriminate|]. destruct (No _ Ov). }
  subst bs. split; [reflexivity|]. cbn [length N.of_nat] in *. destruct X as [[-> X]|(Lt & o1 & s2 & Ev & F & ->)].
  - right. split; [exact Tr|]. destruct X as [X|X]; [left; now symmetry|now right].
  - left. split; [|exact Lt]. destruct (steady_step _ _ _ I) as (s2' & Ev' & W). rewrite Ev in Ev'. injection Ev' as -> ->. rewrite W, Tr. reflexivity.
Qed.
End Rounds.

Theorem steady_run iter w root name threads duration number record pod d g src s1 body p id o s0 round : loads w root src s1 -> mget name (s_tests src) = Some body -> id < threads ->
  carries_nothing (c_reqs (s_ctx s1)) body -> memoryless (g_world g id) -> first_round (g_world g id) body (s_ctx s1) o s0 round ->
  goes g (launch iter w root (Some name) threads duration number record pod d) p ->
  repeating round (exists v, o = Ok v) (share duration number threads) (events_of (Tester id) (p_log p)).
Proof.
  intros L M I Cn Me F G. assert (T : threads <> 0) by lia. destruct (named_log _ _ _ _ _ _ _ _ _ _ _ _ _ _ _ L M T G) as (_ & _ & X). destruct (X _ I) as (bs & U).
  eapply steady_way; eauto.
Qed.
Lemma all_repeated {A} (r : A) (bss : list (list A)) : (forall i bs, nth_error bss i = Some bs -> bs = repeat r (length bs)) ->
  List.concat bss = repeat r (list_sum (map (@length _) bss)).
Proof.
  induction bss as [|b bss IH]; intros H; [reflexivity|]. cbn [List.concat map list_sum fold_right]. rewrite repeat_app. f_equal; [exact (H 0%nat b eq_refl)|]. apply IH. intros i bs E. exact (H (S i) bs E).
Qed.
Theorem steady_end iter w root name threads duration number record pod d g src s1 body p w1 v s0 round : loads w root src s1 -> mget name (s_tests src) = Some body -> threads <> 0 ->
  carries_nothing (c_reqs (s_ctx s1)) body -> memoryless w1 -> (forall id, id < threads -> g_world g id = w1) -> first_round w1 body (s_ctx s1) (Ok v) s0 round ->
  goes g (launch iter w root (Some name) threads duration number record pod d) p -> p_main p = Gone true ->
  exists ks, length ks = N.to_nat threads /\
  (forall id k, nth_error ks (N.to_nat id) = Some k -> N.of_nat k <= share duration number threads /\ (p_flag p = true -> N.of_nat k = share duration number threads) /\
    events_of (Tester id) (p_log p) = times k round /\
    (record = true -> mget (record_path g pod id) (p_disk p) = Some (recorded g (record_path g pod id) name id (repeat (c_recs (s_ctx s0)) k)))) /\
  (g_stat g = true -> (forall l, Permutation (g_order g l) l) -> exists text, events_of Collector (p_log p) = [Printed text] /\ stat_report (times (list_sum ks) (samples (c_recs (s_ctx s0)))) text).
Proof.
  intros L M T Cn Me W F G Mg. destruct (named_end _ _ _ _ _ _ _ _ _ _ _ _ _ _ _ L M T G Mg) as (bss & Len & X & _ & St).
  assert (H : forall id bs, nth_error bss (N.to_nat id) = Some bs -> bs = repeat (c_recs (s_ctx s0)) (length bs) /\ events_of (Tester id) (p_log p) = times (length bs) round /\ N.of_nat (length bs) <= share duration number threads /\ (N.of_nat (length bs) = share duration number threads \/ negb (p_flag p) = true)).
  { intros id bs E. assert (I : id < threads) by (assert (Q : (N.to_nat id < length bss)%nat) by (apply nth_error_Some; congruence); lia). destruct (X _ _ E) as [D _]. rewrite (W _ I) in D. eapply steady_done; eauto. }
  exists (map (@length _) bss). split; [now rewrite map_length|]. split.
  - intros id k E. rewrite nth_error_map in E. destruct (nth_error bss (N.to_nat id)) as [bs|] eqn:Eb; [|discriminate E]. injection E as <-. destruct (H _ _ Eb) as (Bs & Ow & Le & Eq). repeat split; [exact Le| |exact Ow|].
    + intros Fl. rewrite Fl in Eq. destruct Eq as [Eq|Eq]; [exact Eq|discriminate Eq].
    + intros R. destruct (X _ _ Eb) as [_ Rc]. rewrite (Rc R). now rewrite <- Bs.
  - intros Gs Go. destruct (St Gs Go) as (l & text & El & Ec & Sr). exists text. split; [rewrite El; unfold events_of in *; rewrite flat_map_app, Ec; reflexivity|].
    rewrite (all_repeated (c_recs (s_ctx s0)) bss) in Sr; [now rewrite flat_repeat in Sr|]. intros i bs E. apply (H (N.of_nat i)). now rewrite Nnat.Nat2N.id.
Qed.
Theorem failing_end iter w root name threads duration number record pod d g src s1 body p w1 o s0 round : loads w root src s1 -> mget name (s_tests src) = Some body -> threads <> 0 ->
  carries_nothing (c_reqs (s_ctx s1)) body -> memoryless w1 -> (forall id, id < threads -> g_world g id = w1) -> first_round w1 body (s_ctx s1) o s0 round -> (forall v, o <> Ok v) ->
  goes g (launch iter w root (Some name) threads duration number record pod d) p -> p_main p = Gone true ->
  (forall id, id < threads -> (p_flag p = true -> 0 < share duration number threads -> events_of (Tester id) (p_log p) = round) /\
    (events_of (Tester id) (p_log p) = [] \/ events_of (Tester id) (p_log p) = round) /\
    (record = true -> mget (record_path g pod id) (p_disk p) = Some (recorded g (record_path g pod id) name id []))) /\
  (g_stat g = true -> (forall l, Permutation (g_order g l) l) -> events_of Collector (p_log p) = [Printed []]).
Proof.
  intros L M T Cn Me W F No G Mg. destruct (named_end _ _ _ _ _ _ _ _ _ _ _ _ _ _ _ L M T G Mg) as (bss & Len & X & _ & St).
  assert (H : forall id bs, nth_error bss (N.to_nat id) = Some bs -> bs = [] /\ (events_of (Tester id) (p_log p) = round /\ 0 < share duration number threads \/ events_of (Tester id) (p_log p) = [] /\ (share duration number threads = 0 \/ negb (p_flag p) = true))).
  { intros id bs E. assert (I : id < threads) by (assert (Q : (N.to_nat id < length bss)%nat) by (apply nth_error_Some; congruence); lia). destruct (X _ _ E) as [D _]. rewrite (W _ I) in D. eapply failed_done; eauto. }
  split.
  - intros id I. destruct (nth_error bss (N.to_nat id)) as [bs|] eqn:Eb; [|apply nth_error_None in Eb; lia]. destruct (H _ _ Eb) as (-> & C). destruct (X _ _ Eb) as [_ Rc]. split; [|split; [destruct C as [[C _]|[C _]]; [now right|now left]|exact Rc]].
    intros Fl P. destruct C as [[C _]|[_ [C|C]]]; [exact C|lia|rewrite Fl in C; discriminate C].
  - intros Gs Go. destruct (St Gs Go) as (l & text & El & Ec & Sr). rewrite El. unfold events_of in *. rewrite flat_map_app, Ec. cbn. do 2 f_equal.
    assert (Z : List.concat bss = []). { clear - H. assert (K : forall bs, In bs bss -> bs = []) by (intros bs In1; apply In_nth_error in In1; destruct In1 as [i E]; apply (H (N.of_nat i)); now rewrite Nnat.Nat2N.id). clear H. induction bss as [|b bss IH]; [reflexivity|]. cbn. rewrite (K b (or_introl eq_refl)). apply IH. intros bs B. apply K. now right. }
    rewrite Z in Sr. destruct Sr as (ls & _ & Sb & _ & ->). destruct ls as [|x ls]; [reflexivity|]. destruct (proj1 (Sb (fst x)) (or_introl eq_refl)).
Qed.
