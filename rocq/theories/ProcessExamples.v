(** Concrete processes *)
From Verif Require Import SpecProcess EvalExamples ValueExamples RunExamples ProcessProofs ProcessRun ProcessTop ProcessLaunch.
From Coq Require Import Permutation Lia.
Open Scope N_scope.

(** ** playing a schedule: the main thread or the statistics thread goes on, a test thread moves, a stop *)
Inductive turn := Onward | Moves (i : nat) | Stops.
Definition play1 (g : setting) (k : turn) (p : process) : process :=
  let '(Process mp ts flag q m r l d) := p in
  match k with
  | Onward =>
      match mp with
      | Starting (j :: js) =>
          let t := new_tester g j in
          match te_path t with
          | Some path => if g_creates g path then Process (Starting js) (ts ++ [t]) flag q m r l (disk_created g (te_path t) d) else Process Aborting ts flag q m r l d
          | None => Process (Starting js) (ts ++ [t]) flag q m r l (disk_created g (te_path t) d)
          end
      | Starting [] => Process Joining ts flag q m r l d
      | Joining =>
          if r then if forallb gone ts && eqb r (g_stat g) then Process (Gone true) ts flag q m r l d else p
          else if g_stat g then
            match q with
            | rs :: q => Process Joining ts flag q (stats_add_records m rs) false l d
            | [] => if forallb gone ts then Process Joining ts flag [] m true (l ++ [(Collector, Printed (show_stats (g_order g) m))]) d else p
            end
          else if forallb gone ts then Process (Gone true) ts flag q m r l d else p
      | Aborting => Process (Gone false) ts flag q m r l d
      | _ => p
      end
  | Moves i =>
      match nth_error ts i with
      | Some t =>
          match tester_move (g_stat g) flag t with
          | Some (a, t') =>
              if running mp then
                Process mp (firstn i ts ++ t' :: skipn (S i) ts) flag (match a with Some (Sends rs) => q ++ [rs] | _ => q end) m r
                  (match a with Some (Does e) => l ++ [(Tester (j_thread (te_job t)), e)] | _ => l end) (disk_after t a d)
              else p
          | None => p
          end
      | None => p
      end
  | Stops => match mp with Joining => Process mp ts false q m r l d | _ => p end
  end.
Definition play (g : setting) (ks : list turn) (p : process) : process := fold_left (fun p k => play1 g k p) ks p.
Lemma gone_all ts : forallb gone ts = true -> Forall (fun t => gone t = true) ts.
Proof. intros H. rewrite forallb_forall in H. now apply Forall_forall. Qed.
Lemma play1_goes g k p : goes g p (play1 g k p).
Proof.
  assert (One : forall a b, process_step g a b -> goes g a b) by (intros a b S; eapply go_step; [apply go_refl|exact S]).
  destruct p as [mp ts flag q m r l d]. destruct k as [|i|]; cbn [play1].
  - destruct mp as [[|j js]| | |b|]; try apply go_refl.
    + apply One, ps_started.
    + destruct (te_path (new_tester g j)) as [path|] eqn:E.
      * destruct (g_creates g path) eqn:C; [|apply One; eapply ps_no_file; eauto]. apply One. rewrite <- E. apply ps_start. intros p Q. rewrite E in Q. injection Q as <-. exact C.
      * apply One. rewrite <- E. apply ps_start. intros p Q. rewrite E in Q. discriminate.
    + destruct r.
      * destruct (forallb gone ts && eqb true (g_stat g)) eqn:B; [|apply go_refl]. apply andb_prop in B. destruct B as [B1 B2]. apply One, ps_exit; [now apply gone_all|now apply eqb_prop].
      * destruct (g_stat g) eqn:G.
        -- destruct q as [|rs q]; [|now apply One, ps_receive]. destruct (forallb gone ts) eqn:B; [|apply go_refl]. apply One, ps_report; auto. eapply Forall_impl; [|apply gone_all, B]. auto.
        -- destruct (forallb gone ts) eqn:B; [|apply go_refl]. apply One, ps_exit; auto using gone_all.
    + apply One, ps_die.
  - destruct (nth_error ts i) as [t|] eqn:N; [|apply go_refl]. destruct (tester_move (g_stat g) flag t) as [[a t']|] eqn:M; [|apply go_refl]. destruct (running mp) eqn:R; [|apply go_refl].
    assert (S : ts = firstn i ts ++ t :: skipn (S i) ts).
    { clear -N. revert ts N. induction i as [|i IH]; intros [|x ts] N; try discriminate; [injection N as ->; reflexivity|]. cbn [firstn skipn app]. f_equal. now apply IH. }
    rewrite S at 1. apply One. now apply ps_tester.
  - destruct mp; try apply go_refl. apply One, ps_stop.
Qed.
Lemma play_goes g ks : forall p, goes g p (play g ks p).
Proof. induction ks as [|k ks IH]; intros p; [apply go_refl|]. eapply goes_trans; [apply play1_goes|apply IH]. Qed.

(** ** two threads, interleaved *)
Definition at_file (t : str) : str * node := (lit "d", NDir [(lit "a.fan", NFile (Some (utf8 t)))]).
Definition plain : setting := Setting true (lit "out") (fun _ => true) (fun _ => []) (fun _ => online) (fun l => l) true.
Definition taking_turns (n : nat) : list turn := List.concat (repeat [Moves 0; Moves 1; Moves 1] n) ++ repeat Onward 20.
Definition old_files : amap bytes := [(lit "out/p000000", [1; 2]); (lit "out/p000002", [3])].
Definition demo_launch : process := launch (fun l => l) online (at_file demo_text) (Some (lit "t")) 2 None 5 true (lit "p") old_files.
Definition demo_done : process := play plain (Onward :: Moves 0 :: Onward :: Onward :: taking_turns 40) demo_launch.
Lemma demo_goes : goes plain demo_launch demo_done.
Proof. apply play_goes. Qed.
Lemma demo_loads : exists src s1 body, loads online (at_file demo_text) src s1 /\ mget (lit "t") (s_tests src) = Some body /\ share None 5 2 = 2.
Proof.
  destruct (parse demo_text) as [src| | |] eqn:P; [|vm_compute in P; discriminate..].
  destruct (eval_block online (s_exprs src) (St (Ctx [] (mextend [] (s_requests src)) []) [])) as [[v|e| |] s1] eqn:E; [|vm_compute in P; injection P as <-; vm_compute in E; discriminate..].
  destruct (mget (lit "t") (s_tests src)) as [body|] eqn:M; [|vm_compute in P; injection P as <-; vm_compute in M; discriminate].
  exists src, s1, body. split; [|split; auto]. exists demo_text, v. split; [vm_compute; reflexivity|auto].
Qed.
Definition texts (l : list (who * event)) : list (who * str) := flat_map (fun x => match snd x with Printed t => [(fst x, t)] | _ => [] end) l.
Lemma demo_seen : p_main demo_done = Gone true /\
  map fst (filter (fun x => match snd x with Sent _ => true | _ => false end) (p_log demo_done)) = [Tester 0; Tester 1; Tester 1; Tester 0] /\
  map (fun k => length (events_of k (p_log demo_done))) [Main; Tester 0; Tester 1; Tester 2; Collector] = [0; 6; 6; 0; 1]%nat /\
  last (texts (p_log demo_done)) (Main, []) = (Collector, lit "get count=4  sum=0  avg=0  max=0  min=0" ++ [10]) /\
  mget (lit "out/p000002") (p_disk demo_done) = Some [3] /\
  (match mget (lit "out/p000000") (p_disk demo_done), mget (lit "out/p000001") (p_disk demo_done) with Some a, Some b => firstn 3 a = [79; 98; 106] /\ firstn 3 b = [79; 98; 106] | _, _ => False end).
Proof. vm_compute. repeat split. Qed.

(** ** tests that fail, and the exit status *)
Definition quiet : setting := Setting false (lit "out") (fun _ => true) (fun _ => []) (fun _ => online) (fun l => l) true.
Definition single (t : str) : process := launch (fun l => l) online (at_file t) (Some (lit "t")) 1 None 2 false (lit "p") [].
Definition single_done (t : str) : process := play quiet (Onward :: Onward :: repeat (Moves 0) 20 ++ [Onward]) (single t).
Theorem exit_blind : exists g a b c,
  goes g (single (lit "test t { missing }")) a /\ p_main a = Gone true /\ p_log a = [(Tester 0, Printed (lit "ident:missing not found" ++ [10]))] /\
  goes g (single (lit "test t { 1 / 0 }")) b /\ p_main b = Gone true /\ p_log b = [] /\
  goes g (single (lit "request r`GET http://h/`[status == 500] test t { r(); }")) c /\ p_main c = Gone true /\
    texts (p_log c) = [(Tester 0, lit "=== TEST  r" ++ [10] ++ lit "status == 500 => 200 == 500 => false" ++ [10] ++ lit "--- FAIL  r (10ns)" ++ [10]);
                       (Tester 0, lit "=== TEST  r" ++ [10] ++ lit "status == 500 => 200 == 500 => false" ++ [10] ++ lit "--- FAIL  r (10ns)" ++ [10])].
Proof.
  exists quiet, (single_done (lit "test t { missing }")), (single_done (lit "test t { 1 / 0 }")), (single_done (lit "request r`GET http://h/`[status == 500] test t { r(); }")).
  split; [apply play_goes|]. split; [vm_compute; reflexivity|]. split; [vm_compute; reflexivity|].
  split; [apply play_goes|]. split; [vm_compute; reflexivity|]. split; [vm_compute; reflexivity|].
  split; [apply play_goes|]. split; vm_compute; reflexivity.
Qed.
(** the file of the second thread cannot be created while the first is at work *)
Definition narrow : setting := Setting true (lit "out") (fun p => negb (str_eqb p (lit "out/p000001"))) (fun _ => []) (fun _ => online) (fun l => l) true.
Definition narrow_done : process := play narrow (Onward :: repeat (Moves 0) 8 ++ [Onward; Moves 0; Moves 0; Onward; Moves 0]) demo_launch.
Lemma narrow_seen : g_creates narrow (record_path narrow (lit "p") 1) = false /\ goes narrow demo_launch narrow_done /\ p_main narrow_done = Gone false /\
  map (fun k => length (events_of k (p_log narrow_done))) [Main; Tester 0; Tester 1; Collector] = [0; 4; 0; 0]%nat /\ mget (lit "out/p000001") (p_disk narrow_done) = None.
Proof. split; [vm_compute; reflexivity|]. split; [apply play_goes|]. vm_compute. repeat split. Qed.
(** stopped before the second iteration *)
Definition stopped_done : process := play plain ([Onward; Onward; Onward] ++ repeat (Moves 0) 4 ++ [Stops] ++ taking_turns 40) demo_launch.
Lemma stopped_seen : p_main stopped_done = Gone true /\ map (fun k => length (events_of k (p_log stopped_done))) [Tester 0; Tester 1; Collector] = [3; 0; 1]%nat.
Proof. vm_compute. repeat split. Qed.
(** stopped in the middle of the first iteration of the first thread *)
Definition stopping : process := play plain ([Onward; Onward; Onward] ++ repeat (Moves 0) 3 ++ [Stops]) demo_launch.
Lemma stopping_seen : goes plain demo_launch stopping /\ p_flag stopping = false /\ map (fun k => length (events_of k (p_log stopping))) [Tester 0] = [1]%nat /\ let p' := play plain (taking_turns 40) stopping in goes plain stopping p' /\ p_main p' = Gone true /\ length (events_of (Tester 0) (p_log p')) = 3%nat.
Proof. split; [apply play_goes|]. split; [vm_compute; reflexivity|]. split; [vm_compute; reflexivity|]. cbv zeta. split; [apply play_goes|]. vm_compute. split; reflexivity. Qed.
(** every test once *)
Definition all_launch : process := launch (fun l => l) online (at_file all_text) None 9 None 9 true (lit "/abs") [].
Definition all_done : process := play plain ([Onward; Onward; Onward] ++ taking_turns 20) all_launch.
Lemma all_seen : goes plain all_launch all_done /\ p_main all_done = Gone true /\
  map (fun k => length (events_of k (p_log all_done))) [Tester 0; Tester 1; Collector] = [2; 4; 1]%nat /\
  map fst (p_disk all_done) = [lit "/abs000000"; lit "/abs000001"].
Proof. split; [apply play_goes|]. vm_compute. repeat split. Qed.
Lemma all_loads : exists src s1, loads online (at_file all_text) src s1 /\ N.of_nat (length (s_tests src)) <= 2 ^ 32 /\
  map fst (s_tests src) = [lit "a"; lit "b"].
Proof.
  destruct (parse all_text) as [src| | |] eqn:P; [|vm_compute in P; discriminate..].
  destruct (eval_block online (s_exprs src) (St (Ctx [] (mextend [] (s_requests src)) []) [])) as [[v|e| |] s1] eqn:E; [|vm_compute in P; injection P as <-; vm_compute in E; discriminate..].
  exists src, s1. split; [exists all_text, v; split; [vm_compute; reflexivity|auto]|]. vm_compute in P. injection P as <-. split; [cbn; lia|reflexivity].
Qed.
(** how the setup may end *)
Definition src_of (t : str) : source := match parse t with Ok s => s | _ => Source [] [] [] end.
Definition set_up (t : str) : out everr value * st := eval_block online (s_exprs (src_of t)) (St (Ctx [] (mextend [] (s_requests (src_of t))) []) []).
Lemma exit_cases :
  read_node (lit "d") (NDir [(lit "a.fan", NFile (Some [255]))]) = None /\
  (exists src s1, parse (lit "print(""x""); 1 / 0") = Ok src /\ eval_block online (s_exprs src) (St (Ctx [] (mextend [] (s_requests src)) []) []) = (Panic, s1) /\ s_trace s1 = [Printed (lit "x")]) /\
  (exists src s1, parse (lit "print(""x""); y") = Ok src /\ eval_block online (s_exprs src) (St (Ctx [] (mextend [] (s_requests src)) []) []) = (Err (EIdentNotFound (lit "y")), s1) /\ s_trace s1 = [Printed (lit "x")]) /\
  (exists e, parse (lit "let 5") = Err e) /\
  (exists src s1, loads online (at_file (lit "test t { 1 }")) src s1 /\ mget (lit "t") (s_tests src) = Some [EInt 1] /\ mget (lit "u") (s_tests src) = None).
Proof.
  split; [vm_compute; reflexivity|].
  split; [exists (src_of (lit "print(""x""); 1 / 0")), (snd (set_up (lit "print(""x""); 1 / 0"))); repeat split; vm_compute; reflexivity|].
  split; [exists (src_of (lit "print(""x""); y")), (snd (set_up (lit "print(""x""); y"))); repeat split; vm_compute; reflexivity|].
  split; [exists (match parse (lit "let 5") with Err e => e | _ => EBadExpr [] end); vm_compute; reflexivity|].
  exists (src_of (lit "test t { 1 }")), (snd (set_up (lit "test t { 1 }"))). split; [|split; vm_compute; reflexivity].
  exists (lit "test t { 1 }"), (match fst (set_up (lit "test t { 1 }")) with Ok v => v | _ => VNull end). repeat split; vm_compute; reflexivity.
Qed.
Lemma constant_ends g c m threads : forall id k s bs, id < threads -> k < m -> iterated (g_world g id) [EInt 1] c k s bs -> fst (eval_block (g_world g id) [EInt 1] s) <> Diverge.
Proof. intros id k [c0 t0] bs _ _ _. discriminate. Qed.
