(** Runs against a shared server come to their end *)
From Coq Require Import Lia.
From Verif Require Import TextProofs EvaluatorProofs SafeProofs RunProofs ProcessProofs ProcessRun ProcessTop ProcessOnce ProcessLaunch ProcessStop AsideProofs ShuffleProofs CausalProofs BudgetProofs SharedProofs SpecProcess SpecBudget SpecServed.
Open Scope N_scope.

Definition asked (p : process) : nat := sent (map snd (tests_part (p_log p))).
Lemma asked_requests p : (asked p <= N.to_nat (requests (p_log p)))%nat.
Proof.
  unfold asked, requests. rewrite Nat2N.id. induction (p_log p) as [|[x e] l IH]; [reflexivity|]. unfold tests_part in *. cbn [filter fst]. change (map snd ((x, e) :: l)) with ([e] ++ map snd l). rewrite sent_app.
  destruct x; cbn [map snd]; [change (e :: map snd (filter (fun x => match fst x with Collector => false | _ => true end) l)) with ([e] ++ map snd (filter (fun x => match fst x with Collector => false | _ => true end) l)); rewrite sent_app|change (e :: map snd (filter (fun x => match fst x with Collector => false | _ => true end) l)) with ([e] ++ map snd (filter (fun x => match fst x with Collector => false | _ => true end) l)); rewrite sent_app|]; lia.
Qed.
Lemma answered_step v g p q : process_step g p q -> answered_by v g (p_log p) ->
  starts_with (tests_part (p_log p)) (tests_part (p_log q)) /\ (answered_by v g (p_log q) \/ (asked p < asked q)%nat).
Proof.
  intros S An. assert (C : tests_part (p_log q) = tests_part (p_log p) \/ exists id e, p_log q = p_log p ++ [(Tester id, e)]).
  { destruct S; cbn [p_log]; auto; [|left; rewrite tests_app; cbn; now rewrite app_nil_r]. destruct a as [[e| |]|]; eauto. }
  destruct C as [C|(id & e & C)].
  - split; [rewrite C; apply sw_refl|]. left. unfold answered_by. now rewrite C.
  - assert (Cp : tests_part (p_log q) = tests_part (p_log p) ++ [(Tester id, e)]) by now rewrite C, tests_app. split; [exists [(Tester id, e)]; exact Cp|]. destruct e as [txt|msg].
    + left. intros l1 i m l2 E. rewrite Cp in E. destruct l2 as [|y l2] using rev_ind; [apply app_inj_tail in E; destruct E as [_ E]; discriminate E|].
      rewrite app_comm_cons, app_assoc in E. apply app_inj_tail in E. destruct E as [E _]. eapply An; eauto.
    + right. unfold asked. rewrite Cp, map_app, sent_app. cbn. lia.
Qed.
Lemma answered_along v g p r : goes g p r -> answered_by v g (p_log p) -> starts_with (tests_part (p_log p)) (tests_part (p_log r)) /\
  (answered_by v g (p_log r) \/ exists p1 q1, goes g p p1 /\ answered_by v g (p_log p1) /\ process_step g p1 q1 /\ goes g q1 r /\ (asked p < asked q1)%nat).
Proof.
  intros G An. induction G as [|p p2 p3 G IH S].
  - split; [apply sw_refl|]. auto.
  - destruct (IH An) as [P [A2|(p1 & q1 & G1 & A1 & S1 & G2 & L)]].
    + destruct (answered_step v g p2 p3 S A2) as [P' [A3|L]]; (split; [exact (sw_trans _ _ _ P P')|]); auto. right. exists p2, p3. split; auto. split; auto. split; auto. split; [constructor|].
      destruct P as [y Y]. unfold asked in *. rewrite Y, map_app, sent_app in L. lia.
    + split; [|right; exists p1, q1; split; [auto|]; split; [auto|]; split; [auto|]; split; auto; eapply go_step; eauto].
      assert (T : starts_with (tests_part (p_log p2)) (tests_part (p_log p3))) by (destruct S; cbn [p_log]; try apply sw_refl; rewrite ?tests_app; [destruct a as [[e| |]|]; [rewrite tests_app; eexists; reflexivity|apply sw_refl..]|eexists; reflexivity]). exact (sw_trans _ _ _ P T).
Qed.
Lemma flag_between g p q r : goes g p q -> goes g q r -> p_flag r = p_flag p -> p_flag q = p_flag p.
Proof.
  intros A B E. destruct (p_flag p) eqn:F; [|exact (proj1 (stays_stopped _ _ _ A F))]. destruct (p_flag q) eqn:F'; auto. rewrite (proj1 (stays_stopped _ _ _ B F')) in E. discriminate E.
Qed.
Lemma networks_trans g g1 g2 : other_networks g g1 -> other_networks g1 g2 -> other_networks g g2.
Proof.
  intros (A & B & C & D & E & F & S) (A' & B' & C' & D' & E' & F' & S'). repeat split; try congruence; destruct (S id), (S' id); congruence.
Qed.
Lemma served_on v bound iter w root name threads duration number record pod d :
  let start := launch iter w root name threads duration number record pod d in
  let fit g := (forall path, g_creates g path = true) /\ forall id, readable_bodies (g_world g id) in
  numbered_apart iter w root name -> readable_server v -> (forall g p, goes g start p -> requests (p_log p) <= bound) ->
  (forall g p, fit g -> goes g start p -> exists q, goes g p q /\ p_main q = Gone true /\ p_flag q = p_flag p) ->
  forall n g p, fit g -> goes g start p -> answered_by v g (p_log p) -> (N.to_nat bound - asked p <= n)%nat ->
  exists g' q, other_networks g g' /\ goes g' start q /\ p_main q = Gone true /\ p_flag q = p_flag p /\ starts_with (tests_part (p_log p)) (tests_part (p_log q)) /\ answered_by v g' (p_log q).
Proof.
  intros start fit Ap Rv Bd En. induction n as [|n IH]; intros g p Fi G An Le; destruct (En g p Fi G) as (r & Gr & M & F); destruct (answered_along v g p r Gr An) as [P [A|(p1 & q1 & G1 & A1 & S1 & G2 & L)]].
  1, 3: exists g, r; split; [repeat split|]; split; [exact (goes_trans _ _ _ _ G Gr)|]; auto.
  - assert (X : goes g start q1) by (eapply go_step; [exact (goes_trans _ _ _ _ G G1)|exact S1]). pose proof (Bd _ _ X). pose proof (asked_requests q1). lia.
  - destruct (shared_step fit v g _ _ _ _ _ _ _ _ _ _ _ _ (proj1 Fi) Ap (goes_trans _ _ _ _ G G1) A1 S1 Fi) as (g' & q' & O & G' & L' & F' & A' & Fi').
    { intros id own msg l. split; [apply Fi|]. intros i tr m rs. cbn. destruct (i =? id); [|apply Fi]. cbn. destruct (list_eq_dec event_dec tr own); [|apply Fi]. destruct (list_eq_dec N.eq_dec m msg); [|apply Fi]. apply Rv. }
    destruct (IH g' q' Fi' G' A') as (g2 & q2 & O2 & Gq & Mq & Fq & Pq & Aq); [unfold asked in *; rewrite L'; lia|].
    exists g2, q2. split; [exact (networks_trans _ _ _ O O2)|]. split; auto. split; auto.
    assert (Gpq : goes g p q1) by (eapply go_step; eauto). split; [rewrite Fq, F'; exact (flag_between _ _ _ _ Gpq G2 F)|]. split; auto. rewrite L' in Pq.
    exact (sw_trans _ _ _ (proj1 (answered_along v g p q1 Gpq An)) Pq).
Qed.
Theorem served_named v g iter w root name threads duration number record pod d p src s1 body : loads w root src s1 -> mget name (s_tests src) = Some body -> threads <> 0 ->
  (forall path, g_creates g path = true) -> (forall id, readable_bodies (g_world g id)) -> readable_server v ->
  goes g (launch iter w root (Some name) threads duration number record pod d) p -> answered_by v g (p_log p) ->
  exists g' q, other_networks g g' /\ goes g' (launch iter w root (Some name) threads duration number record pod d) q /\ p_main q = Gone true /\ p_flag q = p_flag p /\
    starts_with (tests_part (p_log p)) (tests_part (p_log q)) /\ answered_by v g' (p_log q).
Proof.
  intros L M T Cr Re Rv G An. eapply (served_on v (calls (s_exprs src) + rounds duration number * calls body)); eauto.
  - intros E. discriminate E.
  - intros g0 p0 G0. eapply budget_named; eauto.
  - intros g0 p0 [C0 R0] G0. destruct (named_ends iter w root name threads duration number record pod d g0 p0 src s1 body L M) as (q & b & Gq & Mq & Fq); auto; [intros; now apply evaluation_ends|].
    exists q. split; auto. split; auto. destruct b; auto. exfalso. eapply (exit_named iter w root name threads duration number record pod d g0 q); eauto. exact (goes_trans _ _ _ _ G0 Gq).
Qed.
Theorem served_all v g iter w root threads duration number record pod d p src s1 : loads w root src s1 -> N.of_nat (length (iter (s_tests src))) <= 2 ^ 32 ->
  (forall path, g_creates g path = true) -> (forall id, readable_bodies (g_world g id)) -> readable_server v ->
  goes g (launch iter w root None threads duration number record pod d) p -> answered_by v g (p_log p) ->
  exists g' q, other_networks g g' /\ goes g' (launch iter w root None threads duration number record pod d) q /\ p_main q = Gone true /\ p_flag q = p_flag p /\
    starts_with (tests_part (p_log p)) (tests_part (p_log q)) /\ answered_by v g' (p_log q).
Proof.
  intros L B Cr Re Rv G An. eapply (served_on v (calls (s_exprs src) + calls (flat_map snd (iter (s_tests src))))); eauto.
  - intros _ src' s' L'. replace src' with src; auto. destruct L as (t & x & A & A' & _), L' as (t' & x' & C & C' & _). congruence.
  - intros g0 p0 G0. eapply budget_all; eauto.
  - intros g0 p0 [C0 R0] G0. destruct (all_ends iter w root threads duration number record pod d g0 p0 src s1 L B) as (q & b & Gq & Mq & Fq); auto; [intros; now apply evaluation_ends|].
    exists q. split; auto. split; auto. destruct b; auto. exfalso. eapply (exit_all iter w root threads duration number record pod d g0 q); eauto. exact (goes_trans _ _ _ _ G0 Gq).
Qed.
