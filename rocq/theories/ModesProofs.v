(** Modes of the test command compared *)
From Coq Require Import Lia.
From Verif Require Import ProcessTop ProcessOnce ProcessRun ProcessProofs ProcessEnds ProcessLaunch EvalExamples SpecModes ProcessExamples.
Open Scope N_scope.

Theorem modes_alike : forall iter w root src s1 name body id threads duration number record pod d g p threads' number' record' pod' d' g' q id',
  loads w root src s1 -> mget name (s_tests src) = Some body -> N.of_nat (length (iter (s_tests src))) <= 2 ^ 32 -> nth_error (iter (s_tests src)) (N.to_nat id) = Some (name, body) ->
  goes g (launch iter w root None threads duration number record pod d) p -> p_main p = Gone true ->
  goes g' (launch iter w root (Some name) threads' None number' record' pod' d') q -> p_main q = Gone true -> p_flag q = true -> share None number' threads' = 1 -> id' < threads' ->
  g_world g' id' = g_world g id ->
  exists bs bs', alike (g_world g id) (events_of (Tester id') (p_log q)) bs (events_of (Tester id) (p_log p)) bs' /\
    (record' = true -> mget (record_path g' pod' id') (p_disk q) = Some (recorded g' (record_path g' pod' id') name id' bs)) /\
    (record = true -> mget (record_path g pod id) (p_disk p) = Some (recorded g (record_path g pod id) name id bs')) /\
    (bs = bs' \/ exists e s2, eval_block (g_world g id) body (St (Ctx (c_vars (s_ctx s1)) (c_reqs (s_ctx s1)) []) []) = (Err e, s2)).
Proof.
  intros iter w root src s1 name body id threads duration number record pod d g p threads' number' record' pod' d' g' q id' L B Len Nth Gp Mp Gq Mq Fq Sh I Wd.
  assert (T0 : threads' <> 0) by lia.
  destruct (all_threads iter w root threads duration number record pod d g src s1 p id name body L Len Nth Gp) as (o & s2 & E & Own). cbn zeta in Own. destruct Own as (_ & Own & Rec).
  destruct (Own Mp) as [Own1 ND].
  destruct (named_end iter w root name threads' None number' record' pod' d' g' src s1 body q L B T0 Gq Mq) as (bss & Lb & Each & _).
  destruct (nth_error bss (N.to_nat id')) as [bs|] eqn:Nb; [|apply nth_error_None in Nb; lia].
  destruct (Each id' bs Nb) as [Dn Fl]. rewrite Fq, Wd, Sh in Dn. destruct Dn as (s & It & Le & Cs).
  exists bs.
  assert (Z : forall s bs, iterated (g_world g id) body (s_ctx s1) 0 s bs -> bs = [] /\ s = St (Ctx (c_vars (s_ctx s1)) (c_reqs (s_ctx s1)) []) []).
  { intros x y H. inversion H; subst; [auto|]. lia. }
  destruct o as [v|e| |]; [| | |congruence].
  - (* value *)
    exists [c_recs (s_ctx s2)]. cbn [afterwards_once] in Own1.
    assert (H : bs = [c_recs (s_ctx s2)] /\ events_of (Tester id') (p_log q) = s_trace s2 ++ lines (c_recs (s_ctx s2))).
    { destruct Cs as [[Eo [K|K]]|(Lt & o' & s2' & E' & No & Eo)]; [|discriminate|].
      - rewrite K in It. inversion It as [|k x xs v' y It0 Ev Hk Hs Hb]; subst.
        assert (k = 0) by lia. subst k. destruct (Z _ _ It0) as [-> ->].
        rewrite E in Ev. injection Ev as -> ->. auto.
      - destruct bs; [|cbn in Lt; lia]. destruct (Z _ _ It) as [_ ->]. rewrite E in E'. injection E' as <- <-. destruct No as [No|[e No]]; discriminate. }
    destruct H as [-> H]. rewrite H, Own1. split; [constructor|]. split; [exact Fl|]. split; [|auto].
    intros R. destruct (Rec R) as [(_ & _ & X)|[(_ & X)|(_ & _ & _ & X)]]; [congruence|specialize (X Mp); discriminate|exact X].
  - exists [c_recs (s_ctx s2)]. cbn [afterwards_once] in Own1.
    assert (H : bs = [] /\ events_of (Tester id') (p_log q) = s_trace s2 ++ [complaint (g_world g id) e]).
    { destruct Cs as [[Eo [K|K]]|(Lt & o' & s2' & E' & No & Eo)]; [|discriminate|].
      - rewrite K in It. inversion It as [|k x xs v' y It0 Ev Hk Hs Hb]; subst.
        assert (k = 0) by lia. subst k. destruct (Z _ _ It0) as [-> ->].
        rewrite E in Ev. discriminate.
      - destruct bs; [|cbn in Lt; lia]. destruct (Z _ _ It) as [_ ->]. rewrite E in E'. injection E' as <- <-. auto. }
    destruct H as [-> H]. rewrite H, Own1. split; [apply (al_failed _ (s_trace s2) e)|]. split; [exact Fl|]. split; [|right; eauto].
    intros R. destruct (Rec R) as [(_ & _ & X)|[(_ & X)|(_ & _ & _ & X)]]; [congruence|specialize (X Mp); discriminate|exact X].
  - exists []. cbn [afterwards_once] in Own1.
    assert (H : bs = [] /\ events_of (Tester id') (p_log q) = s_trace s2).
    { destruct Cs as [[Eo [K|K]]|(Lt & o' & s2' & E' & No & Eo)]; [|discriminate|].
      - rewrite K in It. inversion It as [|k x xs v' y It0 Ev Hk Hs Hb]; subst.
        assert (k = 0) by lia. subst k. destruct (Z _ _ It0) as [-> ->].
        rewrite E in Ev. discriminate.
      - destruct bs; [|cbn in Lt; lia]. destruct (Z _ _ It) as [_ ->]. rewrite E in E'. injection E' as <- <-. cbn [afterwards] in Eo. rewrite app_nil_r in Eo. auto. }
    destruct H as [-> H]. rewrite H, Own1, app_nil_r. split; [constructor|]. split; [exact Fl|]. split; [|auto].
    intros R. destruct (Rec R) as [(_ & _ & X)|[(X & _)|(_ & X & _)]]; [congruence|exact X|congruence].
Qed.

(** a test that fails after a request *)
Definition failing_text : str := lit "request get`GET http://h/`[status == 200] test t { get(); 1 + true }".
Definition failing_all : process := play plain ([Onward; Onward; Onward] ++ taking_turns 20) (launch (fun l => l) online (at_file failing_text) None 1 None 1 true (lit "p") []).
Definition failing_named : process := play plain ([Onward; Onward; Onward] ++ taking_turns 20) (launch (fun l => l) online (at_file failing_text) (Some (lit "t")) 1 None 1 true (lit "p") []).
Theorem modes_differ : exists w root iter p q r file,
  goes plain (launch iter w root None 1 None 1 true (lit "p") []) p /\ p_main p = Gone true /\
  goes plain (launch iter w root (Some (lit "t")) 1 None 1 true (lit "p") []) q /\ p_main q = Gone true /\ p_flag q = true /\
  events_of (Tester 0) (p_log p) = events_of (Tester 0) (p_log q) ++ lines [r] /\
  mget (record_path plain (lit "p") 0) (p_disk q) = Some file /\ mget (record_path plain (lit "p") 0) (p_disk p) = Some (file ++ block [r] (lit "t") 0 0).
Proof.
  exists online, (at_file failing_text), (fun l => l), failing_all, failing_named.
  destruct (c_recs (s_ctx (snd (eval_block online [ECall (lit "get") []] (St (Ctx [] (s_requests (src_of failing_text)) []) []))))) as [|r l] eqn:E; [vm_compute in E; discriminate|].
  destruct (mget (record_path plain (lit "p") 0) (p_disk failing_named)) as [file|] eqn:F; [|vm_compute in F; discriminate].
  exists r, file. vm_compute in E. injection E as <- <-. vm_compute in F. injection F as <-.
  split; [apply play_goes|]. split; [vm_compute; reflexivity|]. split; [apply play_goes|]. repeat split; vm_compute; reflexivity.
Qed.
Lemma failing_loads : exists src s1 body, loads online (at_file failing_text) src s1 /\ s_tests src = [(lit "t", body)] /\ share None 1 1 = 1.
Proof.
  destruct (parse failing_text) as [src| | |] eqn:P; [|vm_compute in P; discriminate..].
  destruct (eval_block online (s_exprs src) (St (Ctx [] (mextend [] (s_requests src)) []) [])) as [[v|e| |] s1] eqn:E; [|vm_compute in P; injection P as <-; vm_compute in E; discriminate..].
  destruct (s_tests src) as [|[n body] [|]] eqn:M; [vm_compute in P; injection P as <-; discriminate M| |vm_compute in P; injection P as <-; discriminate M].
  exists src, s1, body. split; [exists failing_text, v; split; [vm_compute; reflexivity|auto]|]. split; [|reflexivity]. vm_compute in P. injection P as <-. injection M as <- <-. reflexivity.
Qed.
