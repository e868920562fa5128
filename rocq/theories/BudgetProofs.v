(** No run makes more requests than are written *)
From Coq Require Import Lia.
From Verif Require Import TextProofs EvaluatorProofs EvaluatorTop EvalWorkProofs RunProofs ProcessProofs ProcessRun ProcessTop ProcessOnce ProcessLaunch ProcessStop AsideProofs ShuffleProofs SpecProcess SpecBudget.
Open Scope N_scope.

Lemma sent_lines l : sent (map (fun r => Printed (show_record r ++ [10])) l) = 0%nat.
Proof. induction l as [|r l IH]; [reflexivity|exact IH]. Qed.
Lemma sent_prefix a b : starts_with a b -> (sent a <= sent b)%nat.
Proof. intros [x ->]. rewrite sent_app. lia. Qed.
Lemma block_sent w es s o s' : eval_block w es s = (o, s') -> N.of_nat (sent (s_trace s')) <= N.of_nat (sent (s_trace s)) + calls es.
Proof. intros E. destruct (block_requests_sent _ _ _ _ _ E) as (recs & tr & _ & T & C & _). rewrite T, sent_app. unfold calls. lia. Qed.
Lemma iterated_sent w body c k s bs : iterated w body c k s bs -> N.of_nat (sent (s_trace s)) <= k * calls body.
Proof.
  induction 1 as [|k s bs v s1 I IH E]; [cbn; lia|]. cbn [s_trace]. rewrite sent_app, sent_lines. pose proof (block_sent _ _ _ _ _ E). lia.
Qed.
Lemma afterwards_sent w o s : sent (afterwards w o s) = 0%nat.
Proof. destruct o; cbn [afterwards]; try reflexivity. apply sent_lines. Qed.
Lemma afterwards_once_sent w o s : sent (afterwards_once w o s) = 0%nat.
Proof. destruct o; cbn [afterwards_once]; try reflexivity; [apply sent_lines|]. exact (sent_lines (c_recs (s_ctx s))). Qed.
Lemma under_way_sent w body c m bs own : under_way w body c m bs own -> N.of_nat (sent own) <= m * calls body.
Proof.
  intros (s & I & L & [->|(Lt & o & s2 & E & _ & P)]); apply iterated_sent in I.
  - nia.
  - apply sent_prefix in P. rewrite sent_app, afterwards_sent in P. pose proof (block_sent _ _ _ _ _ E). nia.
Qed.
(** ** summing up *)
Lemma sum_bump (f : N -> nat) c id : forall ids, NoDup ids -> In id ids -> list_sum (map (fun i => (if N.eq_dec i id then c else 0) + f i)%nat ids) = (c + list_sum (map f ids))%nat.
Proof.
  assert (Z : forall ids, ~ In id ids -> list_sum (map (fun i => (if N.eq_dec i id then c else 0) + f i)%nat ids) = list_sum (map f ids)).
  { induction ids as [|i ids IH]; intros N; [reflexivity|]. cbn [map list_sum fold_right]. destruct (N.eq_dec i id) as [->|]; [exfalso; apply N; now left|]. change (fold_right Nat.add 0%nat) with list_sum. rewrite IH; [reflexivity|]. intros I. apply N. now right. }
  induction ids as [|i ids IH]; intros ND I; [destruct I|]. apply NoDup_cons_iff in ND. destruct ND as [Ni ND]. cbn [map list_sum fold_right]. change (fold_right Nat.add 0%nat) with list_sum. destruct (N.eq_dec i id) as [->|Ne].
  - rewrite Z by auto. lia.
  - destruct I as [->|I]; [congruence|]. rewrite IH by auto. lia.
Qed.
Lemma sent_total ids : NoDup ids -> forall l, (forall id e, In (Tester id, e) l -> In id ids) ->
  sent (map snd l) = (sent (events_of Main l) + sent (events_of Collector l) + list_sum (map (fun id => sent (events_of (Tester id) l)) ids))%nat.
Proof.
  intros ND. induction l as [|[x e] l IH]; intros H.
  - cbn. induction ids as [|i ids IH]; [reflexivity|]. apply NoDup_cons_iff in ND. cbn. apply IH; [tauto|]. intros ? ? [].
  - rewrite <- (app_nil_l ((x, e) :: l)). change ([] ++ (x, e) :: l) with ([(x, e)] ++ l). cbn [app map snd]. change (e :: map snd l) with ([e] ++ map snd l). rewrite sent_app, IH by (intros; eapply H; right; eauto).
    change ((x, e) :: l) with ([(x, e)] ++ l). destruct x as [|id|].
    + rewrite !events_app, events_own, (events_other Collector Main) by discriminate. rewrite (sent_app [e]). change (map (fun id => sent (events_of (Tester id) ([(Main, e)] ++ l))) ids) with (map (fun id => sent (events_of (Tester id) l)) ids). cbn [app]. lia.
    + rewrite !events_app, (events_other Main), (events_other Collector) by discriminate. cbn [app].
      rewrite (map_ext (fun i => sent (events_of (Tester i) ([(Tester id, e)] ++ l))) (fun i => (if N.eq_dec i id then sent [e] else 0) + sent (events_of (Tester i) l))%nat).
      * rewrite sum_bump; [lia|auto|]. eapply H. now left.
      * intros i. rewrite events_app, sent_app. destruct (N.eq_dec i id) as [->|Ne]; [now rewrite events_own|]. rewrite events_other by congruence. reflexivity.
    + rewrite !events_app, events_own, (events_other Main Collector) by discriminate. rewrite (sent_app [e]). change (map (fun id => sent (events_of (Tester id) ([(Collector, e)] ++ l))) ids) with (map (fun id => sent (events_of (Tester id) l)) ids). cbn [app]. lia.
Qed.
Definition quiet_statistics (l : list (who * event)) : Prop := forall e, In (Collector, e) l -> exists t, e = Printed t.
Lemma quiet_step g p q : process_step g p q -> quiet_statistics (p_log p) -> quiet_statistics (p_log q).
Proof.
  intros S Q. destruct S; cbn [p_log] in *; auto.
  - destruct a as [[e0| |]|]; auto. intros e I. apply in_app_or in I. destruct I as [I|[I|[]]]; [now apply Q|discriminate I].
  - intros e I. apply in_app_or in I. destruct I as [I|[I|[]]]; [now apply Q|]. injection I as <-. eauto.
Qed.
Lemma quiet_goes g p q : goes g p q -> quiet_statistics (p_log p) -> quiet_statistics (p_log q).
Proof. induction 1; eauto using quiet_step. Qed.
Lemma quiet_launch iter w root name threads duration number record pod d : quiet_statistics (p_log (launch iter w root name threads duration number record pod d)).
Proof.
  assert (Q : forall l, quiet_statistics (map (pair Main) l)) by (intros l e I; apply in_map_iff in I; destruct I as (x & E & _); discriminate E).
  unfold launch. destruct (read_node _ _) as [text|]; [|apply Q]. destruct (main_test _ _ _ _ _ _ _ _) as [[[js|]|x| |] s]; cbn [p_log]; apply Q.
Qed.
Lemma quiet_sent l : quiet_statistics l -> sent (events_of Collector l) = 0%nat.
Proof.
  induction l as [|[x e] l IH]; intros Q; [reflexivity|]. change ((x, e) :: l) with ([(x, e)] ++ l). rewrite events_app, sent_app, IH by (intros f I; apply Q; now right). destruct (who_dec Collector x) as [<-|N]; [|now rewrite events_other].
  rewrite events_own. destruct (Q e (or_introl eq_refl)) as [t ->]. reflexivity.
Qed.
Lemma sent_setup w root src s1 : loads w root src s1 -> N.of_nat (sent (s_trace s1)) <= calls (s_exprs src).
Proof. intros (text & v & _ & _ & E). apply block_sent in E. cbn [s_trace sent filter length] in E. lia. Qed.
Lemma main_events first l : Forall (fun x : who * event => fst x <> Main) l -> events_of Main (map (pair Main) first ++ l) = first.
Proof.
  intros F. rewrite events_app, events_mains, events_none; [apply app_nil_r|]. intros I. apply in_map_iff in I. destruct I as (x & E & I). rewrite Forall_forall in F. exact (F _ I E).
Qed.
Lemma sum_bound {A} (f g : A -> nat) l : (forall x, In x l -> (f x <= g x)%nat) -> (list_sum (map f l) <= list_sum (map g l))%nat.
Proof. induction l as [|x l IH]; intros H; [reflexivity|]. cbn [map list_sum fold_right]. change (fold_right Nat.add 0%nat) with list_sum. pose proof (H x (or_introl eq_refl)). assert (list_sum (map f l) <= list_sum (map g l))%nat by (apply IH; intros; apply H; now right). lia. Qed.
Lemma sum_same {A} (l : list A) k : list_sum (map (fun _ => k) l) = (length l * k)%nat.
Proof. induction l as [|x l IH]; [reflexivity|]. cbn [map list_sum fold_right length]. change (fold_right Nat.add 0%nat) with list_sum. rewrite IH. lia. Qed.
Lemma ids_below n : NoDup (map N.of_nat (seq 0 n)) /\ forall id, In id (map N.of_nat (seq 0 n)) <-> id < N.of_nat n.
Proof.
  split; [apply FinFun.Injective_map_NoDup; [intros a b; lia|apply seq_NoDup]|]. intros id. split; [intros I; apply in_map_iff in I; destruct I as (x & <- & I); apply in_seq in I; lia|].
  intros L. apply in_map_iff. exists (N.to_nat id). split; [lia|]. apply in_seq. lia.
Qed.
Theorem budget_named iter w root name threads duration number record pod d g src s1 body p : loads w root src s1 -> mget name (s_tests src) = Some body -> threads <> 0 ->
  goes g (launch iter w root (Some name) threads duration number record pod d) p ->
  requests_by Main (p_log p) <= calls (s_exprs src) /\ (forall id, requests_by (Tester id) (p_log p) <= share duration number threads * calls body) /\
  requests (p_log p) <= calls (s_exprs src) + rounds duration number * calls body.
Proof.
  intros L M T G. pose proof (sent_setup _ _ _ _ L) as S0. pose proof (quiet_goes _ _ _ G (quiet_launch _ _ _ _ _ _ _ _ _ _)) as Q. destruct (named_log _ _ _ _ _ _ _ _ _ _ _ _ _ _ _ L M T G) as ((l & El & F) & Hi & Lo).
  assert (Ma : requests_by Main (p_log p) <= calls (s_exprs src)) by (unfold requests_by; rewrite El, main_events by auto; exact S0).
  assert (Ea : forall id, requests_by (Tester id) (p_log p) <= share duration number threads * calls body).
  { intros id. destruct (N.lt_ge_cases id threads) as [H|H]; [destruct (Lo _ H) as (bs & U); apply under_way_sent in U; exact U|]. unfold requests_by. rewrite (Hi _ H). cbn. lia. }
  split; auto. split; auto. destruct (ids_below (N.to_nat threads)) as [ND Id]. unfold requests. rewrite (sent_total _ ND).
  - rewrite quiet_sent by auto. unfold requests_by in *.
    assert (Su : (list_sum (map (fun id => sent (events_of (Tester id) (p_log p))) (map N.of_nat (seq 0 (N.to_nat threads)))) <= N.to_nat threads * N.to_nat (share duration number threads * calls body))%nat).
    { etransitivity; [apply (sum_bound _ (fun _ => N.to_nat (share duration number threads * calls body))); intros id _; specialize (Ea id); lia|]. rewrite sum_same, map_length, seq_length. reflexivity. }
    assert (Sh : threads * share duration number threads <= rounds duration number) by (unfold share, rounds; apply N.mul_div_le; exact T). nia.
  - intros id e I. apply Id. rewrite N2Nat.id. destruct (N.lt_ge_cases id threads) as [H|H]; auto. apply events_in in I. rewrite (Hi _ H) in I. destruct I.
Qed.
Theorem budget_all iter w root threads duration number record pod d g src s1 p : loads w root src s1 -> N.of_nat (length (iter (s_tests src))) <= 2 ^ 32 ->
  goes g (launch iter w root None threads duration number record pod d) p ->
  requests_by Main (p_log p) <= calls (s_exprs src) /\
  (forall id name body, nth_error (iter (s_tests src)) (N.to_nat id) = Some (name, body) -> requests_by (Tester id) (p_log p) <= calls body) /\
  requests (p_log p) <= calls (s_exprs src) + calls (flat_map snd (iter (s_tests src))).
Proof.
  intros L B G. pose proof (sent_setup _ _ _ _ L) as S0. pose proof (quiet_goes _ _ _ G (quiet_launch _ _ _ _ _ _ _ _ _ _)) as Q. destruct (all_log _ _ _ _ _ _ _ _ _ _ _ _ _ L B G) as ((l & El & F) & Hi & _).
  assert (Ma : requests_by Main (p_log p) <= calls (s_exprs src)) by (unfold requests_by; rewrite El, main_events by auto; exact S0).
  assert (Ea : forall id name body, nth_error (iter (s_tests src)) (N.to_nat id) = Some (name, body) -> requests_by (Tester id) (p_log p) <= calls body).
  { intros id name body E. destruct (all_threads _ _ _ _ _ _ _ _ _ _ _ _ _ _ _ _ L B E G) as (o & s2 & Ev & P & _). apply sent_prefix in P. rewrite sent_app, afterwards_once_sent in P. apply block_sent in Ev. cbn [s_trace sent filter length] in Ev. unfold requests_by. lia. }
  split; auto. split; auto. destruct (ids_below (length (iter (s_tests src)))) as [ND Id]. unfold requests. rewrite (sent_total _ ND).
  - rewrite quiet_sent by auto. unfold requests_by in *. rewrite map_map.
    assert (Su : forall (ts : list (str * list expr)) k, (forall i name body, nth_error ts i = Some (name, body) -> N.of_nat (sent (events_of (Tester (N.of_nat (k + i))) (p_log p))) <= calls body) ->
      N.of_nat (list_sum (map (fun x => sent (events_of (Tester (N.of_nat x)) (p_log p))) (seq k (length ts)))) <= calls (flat_map snd ts)).
    { induction ts as [|[n b] ts IH]; intros k H; [cbn; lia|]. cbn [length seq map list_sum fold_right flat_map snd]. change (fold_right Nat.add 0%nat) with list_sum.
      assert (X : calls (b ++ flat_map snd ts) = calls b + calls (flat_map snd ts)) by (unfold calls; rewrite map_app, list_sum_app; lia). rewrite X.
      pose proof (H 0%nat n b eq_refl) as H0. rewrite Nat.add_0_r in H0. assert (Y : N.of_nat (list_sum (map (fun x => sent (events_of (Tester (N.of_nat x)) (p_log p))) (seq (S k) (length ts)))) <= calls (flat_map snd ts)).
      { apply IH. intros i n' b' E. specialize (H (S i) n' b' E). now rewrite Nat.add_succ_r in H. }
      lia. }
    specialize (Su (iter (s_tests src)) 0%nat). cut (N.of_nat (list_sum (map (fun x => sent (events_of (Tester (N.of_nat x)) (p_log p))) (seq 0 (length (iter (s_tests src)))))) <= calls (flat_map snd (iter (s_tests src)))); [lia|].
    apply Su. intros i n b E. apply (Ea (N.of_nat i) n b). now rewrite Nat2N.id.
  - intros id e I. apply Id. destruct (N.lt_ge_cases id (N.of_nat (length (iter (s_tests src))))) as [H|H]; auto. apply events_in in I. rewrite (Hi _ H) in I. destruct I.
Qed.
(** ** after the interrupt *)
Theorem budget_stopped iter w root name threads duration number record pod d g src s1 body p q : loads w root src s1 -> mget name (s_tests src) = Some body -> threads <> 0 ->
  goes g (launch iter w root (Some name) threads duration number record pod d) p -> p_flag p = false -> goes g p q ->
  (forall id, requests_by (Tester id) (p_log q) <= requests_by (Tester id) (p_log p) + calls body) /\ requests (p_log q) <= requests (p_log p) + threads * calls body.
Proof.
  intros L M T G F Gq. pose proof (goes_trans _ _ _ _ G Gq) as G'. destruct (named_log _ _ _ _ _ _ _ _ _ _ _ _ _ _ _ L M T G) as ((l & El & Fo) & Hi & _). destruct (named_log _ _ _ _ _ _ _ _ _ _ _ _ _ _ _ L M T G') as ((l' & El' & Fo') & Hi' & _).
  pose proof (quiet_goes _ _ _ G (quiet_launch _ _ _ _ _ _ _ _ _ _)) as Q. pose proof (quiet_goes _ _ _ G' (quiet_launch _ _ _ _ _ _ _ _ _ _)) as Q'.
  assert (Ea : forall id, requests_by (Tester id) (p_log q) <= requests_by (Tester id) (p_log p) + calls body).
  { intros id. destruct (N.lt_ge_cases id threads) as [H|H]; [|unfold requests_by; rewrite (Hi' _ H); cbn; lia]. destruct (named_stop _ _ _ _ _ _ _ _ _ _ _ _ _ _ _ id L M T H G F) as (bs & s & whole & I & _ & C & Aft).
    destruct (Aft _ Gq) as [P _]. apply sent_prefix in P. unfold requests_by. destruct C as [(_ & ->)|(_ & o & s2 & E & P0 & ->)]; [lia|]. rewrite sent_app, afterwards_sent in P. apply sent_prefix in P0. apply block_sent in E. lia. }
  split; auto. destruct (ids_below (N.to_nat threads)) as [ND Id]. unfold requests. rewrite (sent_total _ ND (p_log q)), (sent_total _ ND (p_log p)).
  - rewrite !quiet_sent by auto. rewrite El at 1. rewrite El' at 1. rewrite !main_events by auto. unfold requests_by in Ea.
    assert (Su : (list_sum (map (fun id => sent (events_of (Tester id) (p_log q))) (map N.of_nat (seq 0 (N.to_nat threads)))) <= list_sum (map (fun id => sent (events_of (Tester id) (p_log p))) (map N.of_nat (seq 0 (N.to_nat threads)))) + N.to_nat threads * N.to_nat (calls body))%nat).
    { rewrite <- (seq_length (N.to_nat threads) 0) at 3. rewrite <- (map_length N.of_nat). generalize (map N.of_nat (seq 0 (N.to_nat threads))). induction l0 as [|i l0 IH]; [cbn; lia|]. cbn [map list_sum fold_right length]. change (fold_right Nat.add 0%nat) with list_sum. specialize (Ea i). lia. }
    nia.
  - intros id e I. apply Id. rewrite N2Nat.id. destruct (N.lt_ge_cases id threads) as [H|H]; auto. apply events_in in I. rewrite (Hi _ H) in I. destruct I.
  - intros id e I. apply Id. rewrite N2Nat.id. destruct (N.lt_ge_cases id threads) as [H|H]; auto. apply events_in in I. rewrite (Hi' _ H) in I. destruct I.
Qed.
