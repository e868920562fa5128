(** Concrete executions with refused output and signals *)
From Verif Require Import SpecOutage EvalExamples ValueExamples RunExamples ProcessProofs ProcessRun ProcessTop ProcessLaunch ProcessExamples OutageProofs OutageTop OutageLaunch.
From Coq Require Import Permutation Lia.
Open Scope N_scope.

Lemma play1_step g k p : play1 g k p = p \/ process_step g p (play1 g k p).
Proof.
  destruct p as [mp ts flag q m r l d]. destruct k as [|i|]; cbn [play1].
  - destruct mp as [[|j js]| | |b|]; auto.
    + right. apply ps_started.
    + right. destruct (te_path (new_tester g j)) as [path|] eqn:E.
      * destruct (g_creates g path) eqn:C; [|eapply ps_no_file; eauto]. rewrite <- E. apply ps_start. intros p Q. rewrite E in Q. injection Q as <-. exact C.
      * rewrite <- E. apply ps_start. intros p Q. rewrite E in Q. discriminate.
    + destruct r.
      * destruct (forallb gone ts && eqb true (g_stat g)) eqn:B; auto. right. apply andb_prop in B. destruct B as [B1 B2]. apply ps_exit; [now apply gone_all|now apply eqb_prop].
      * destruct (g_stat g) eqn:G.
        -- destruct q as [|rs q]; [|right; now apply ps_receive]. destruct (forallb gone ts) eqn:B; auto. right. apply ps_report; auto. eapply Forall_impl; [|apply gone_all, B]. auto.
        -- destruct (forallb gone ts) eqn:B; auto. right. apply ps_exit; auto using gone_all.
    + right. apply ps_die.
  - destruct (nth_error ts i) as [t|] eqn:N; auto. destruct (tester_move (g_stat g) flag t) as [[a t']|] eqn:M; auto. destruct (running mp) eqn:R; auto. right.
    assert (S : ts = firstn i ts ++ t :: skipn (S i) ts).
    { clear -N. revert ts N. induction i as [|i IH]; intros [|x ts] N; try discriminate; [injection N as ->; reflexivity|]. cbn [firstn skipn app]. f_equal. now apply IH. }
    rewrite S at 1. now apply ps_tester.
  - destruct mp; auto. right. apply ps_stop.
Qed.

(** ** playing a schedule *)
Inductive scene := Loads | Mutes_main | Turn (k : turn) | Mutes (i : nat) | Mutes_collector | Closes | Strikes | Fails.
Definition still (dead : list N) (t : tester) : bool := gone t || (if in_dec N.eq_dec (j_thread (te_job t)) dead then true else false).
Definition keeps (dead : list N) (k : turn) (p : process) : bool :=
  match k with
  | Moves i => match nth_error (p_testers p) i with Some t => if in_dec N.eq_dec (j_thread (te_job t)) dead then false else true | None => true end
  | _ => true
  end.
Definition stage1 (g : setting) (x : scene) (k : state) : list trouble * state :=
  match x, k with
  | Loads, Loading did (e :: todo) next => ([], Loading (did ++ [e]) todo next)
  | Loads, Loading did [] next => ([], Running next [] Waiting)
  | Mutes_main, Loading did (Printed t :: todo) next => ([Mute Main], ended_as (Exit false) k)
  | Turn z, Running p dead Waiting => if keeps dead z p then ([], Running (play1 g z p) dead Waiting) else ([], k)
  | Mutes i, Running p dead c =>
      match nth_error (p_testers p) i with
      | Some t =>
          match te_todo t with
          | Does (Printed x) :: _ =>
              if in_dec N.eq_dec (j_thread (te_job t)) dead then ([], k) else
              if running (p_main p) then ([Mute (Tester (j_thread (te_job t)))], Running p (j_thread (te_job t) :: dead) c) else ([], k)
          | _ => ([], k)
          end
      | None => ([], k)
      end
  | Mutes_collector, Running p dead Waiting =>
      match p_main p, p_queue p with
      | Joining, [] => if g_stat g && negb (p_reported p) && forallb (still dead) (p_testers p) then ([Mute Collector], Running p dead Refused) else ([], k)
      | _, _ => ([], k)
      end
  | Closes, Running p dead c =>
      match p_main p with
      | Joining =>
          if forallb (still dead) (p_testers p) then
            if negb (g_stat g) || p_reported p then ([], ended_as (Exit true) k) else
            match c, p_queue p with
            | Waiting, [] => ([], Running p dead (Told (show_stats (g_order g) (p_stats p))))
            | Waiting, _ => ([], k)
            | _, _ => ([], ended_as (Exit true) k)
            end
          else ([], k)
      | Gone b => ([], ended_as (Exit b) k)
      | _ => ([], k)
      end
  | Strikes, Loading _ _ _ => ([Signal], ended_as ByInterrupt k)
  | Strikes, Running p dead c =>
      match p_main p with
      | Joining => if forallb (fun t => match j_limit (te_job t) with None => true | _ => false end) (p_testers p) then ([Signal], ended_as ByInterrupt k) else ([], k)
      | Gone _ => ([], k)
      | _ => ([Signal], ended_as ByInterrupt k)
      end
  | Fails, Running p dead c =>
      match p_main p with
      | Starting [] => ([Unstarted], ended_as (Exit false) k)
      | Starting (j :: _) =>
          if match te_path (new_tester g j) with Some path => g_creates g path | None => true end
          then ([Unstarted], Ended (Exit false) (stopped_of k) (log_of k) (disk_created g (te_path (new_tester g j)) (p_disk p))) else ([], k)
      | _ => ([], k)
      end
  | _, _ => ([], k)
  end.
Fixpoint stage (g : setting) (xs : list scene) (k : state) : list trouble * state :=
  match xs with [] => ([], k) | x :: xs => let '(a, k1) := stage1 g x k in let '(b, k2) := stage g xs k1 in (a ++ b, k2) end.
Lemma still_all dead ts : forallb (still dead) ts = true -> Forall (stilled dead) ts.
Proof.
  intros H. rewrite forallb_forall in H. apply Forall_forall. intros t I. specialize (H _ I). unfold still in H. apply orb_prop in H. destruct H as [H|H]; [now left|right]. destruct (in_dec _ _ _); [auto|discriminate].
Qed.
Lemma keeps_all g dead z p : keeps dead z p = true -> forall t, In t (p_testers p) -> In (j_thread (te_job t)) dead -> In t (p_testers (play1 g z p)).
Proof.
  destruct p as [mp ts flag q m r l d]. intros K t I D. destruct z as [|i|]; cbn [play1 p_testers keeps] in *.
  - destruct mp as [[|j js]| | |b|]; auto.
    + destruct (te_path (new_tester g j)) as [path|]; [destruct (g_creates g path)|]; cbn [p_testers]; auto; apply in_or_app; now left.
    + destruct r; [destruct (forallb gone ts && eqb true (g_stat g)); auto|]. destruct (g_stat g); [|destruct (forallb gone ts); auto]. destruct q; auto. destruct (forallb gone ts); auto.
  - destruct (nth_error ts i) as [t0|] eqn:N; auto. destruct (in_dec _ _ _) as [|ND]; [discriminate|]. destruct (tester_move (g_stat g) flag t0) as [[a t']|]; auto. destruct (running mp); auto. cbn [p_testers].
    assert (S : ts = firstn i ts ++ t0 :: skipn (S i) ts).
    { clear -N. revert ts N. induction i as [|i IH]; intros [|x ts] N; try discriminate; [injection N as ->; reflexivity|]. cbn [firstn skipn app]. f_equal. now apply IH. }
    rewrite S in I. apply in_app_or in I. apply in_or_app. destruct I as [I|[<- |I]]; [now left|contradiction|right; now right].
  - destruct mp; auto.
Qed.
Lemma reaches_some g x k k' : state_step g (Some x) k k' -> reaches g [x] k k'.
Proof. intros S. exact (rc_step g [] k k k' (Some x) (rc_refl _ _) S). Qed.
Lemma stage1_reaches g x k : reaches g (fst (stage1 g x k)) k (snd (stage1 g x k)).
Proof.
  assert (R0 : reaches g (fst (@nil trouble, k)) k (snd (@nil trouble, k))) by apply rc_refl.
  destruct x as [| |z|i| | | |], k as [did todo next|p dead c|e s l d]; try exact R0.
  - cbn [stage1]. destruct todo as [|e todo]; apply reaches_one; constructor.
  - cbn [stage1]. destruct todo as [|[t|m] todo]; try exact R0. apply reaches_some. apply st_unprinted.
  - cbn [stage1]. destruct c; try exact R0. destruct (keeps dead z p) eqn:K; [|exact R0]. destruct (play1_step g z p) as [E|S]; [rewrite E; exact R0|]. apply reaches_one. apply st_turn; [exact S|now apply keeps_all|now left].
  - cbn [stage1]. destruct (nth_error (p_testers p) i) as [t|] eqn:N; [|exact R0]. destruct (te_todo t) as [|[[x|m]|b|rs] rest] eqn:T; try exact R0. destruct (in_dec _ _ _) as [|ND]; [exact R0|]. destruct (running (p_main p)) eqn:RU; [|exact R0].
    apply reaches_some. eapply st_vain; eauto. eapply nth_error_In; eauto.
  - cbn [stage1]. destruct c; try exact R0. destruct (p_main p) eqn:M; try exact R0. destruct (p_queue p) eqn:Q; [|exact R0]. destruct (g_stat g && negb (p_reported p) && forallb (still dead) (p_testers p)) eqn:B; [|exact R0].
    apply andb_prop in B. destruct B as [B B3]. apply andb_prop in B. destruct B as [B1 B2]. apply reaches_some. apply st_refused; auto; [now apply negb_true_iff|]. eapply Forall_impl; [|apply still_all, B3]. auto.
  - cbn [stage1]. destruct (p_main p) as [js| | |b|] eqn:M; try exact R0; [|apply reaches_one; now apply st_gone].
    destruct (forallb (still dead) (p_testers p)) eqn:B; [|exact R0]. apply still_all in B. destruct (negb (g_stat g) || p_reported p) eqn:D.
    + apply reaches_one. apply st_exit; auto. intros G. rewrite G in D. auto.
    + apply orb_false_iff in D. destruct D as [D1 D2]. apply negb_false_iff in D1. destruct c; [destruct (p_queue p) eqn:Q; [|exact R0]|..].
      * apply reaches_one. apply st_report; auto.
      * apply reaches_one. apply st_exit; auto. right. discriminate.
      * apply reaches_one. apply st_exit; auto. right. discriminate.
  - apply reaches_some. apply st_interrupt; discriminate.
  - cbn [stage1]. destruct (p_main p) as [js| | |b|] eqn:M; try exact R0.
    + apply reaches_some. apply st_interrupt; [discriminate|]. intros p' dead' c' [= -> -> ->]. rewrite M. split; auto. intros (_ & J & _). congruence.
    + destruct (forallb _ (p_testers p)) eqn:B; [|exact R0]. apply reaches_some. apply st_interrupt; [discriminate|]. intros p' dead' c' [= -> -> ->]. rewrite M. split; auto. intros (_ & _ & t & I & N). rewrite forallb_forall in B. specialize (B _ I). destruct (j_limit (te_job t)); [discriminate|congruence].
    + apply reaches_some. apply st_interrupt; [discriminate|]. intros p' dead' c' [= -> -> ->]. rewrite M. split; auto. intros (_ & J & _). congruence.
    + apply reaches_some. apply st_interrupt; [discriminate|]. intros p' dead' c' [= -> -> ->]. rewrite M. split; auto. intros (_ & J & _). congruence.
  - cbn [stage1]. destruct (p_main p) as [[|j js]| | |b|] eqn:M; try exact R0.
    + apply reaches_some. now apply st_unfinished.
    + destruct (match te_path (new_tester g j) with Some path => g_creates g path | None => true end) eqn:B; [|exact R0]. apply reaches_some. eapply st_unstarted; [exact M|]. intros path E. now rewrite E in B.
Qed.
Lemma stage_reaches g xs : forall k fs k', stage g xs k = (fs, k') -> reaches g fs k k'.
Proof.
  induction xs as [|x xs IH]; intros k fs k'; cbn [stage]; [intros [= <- <-]; apply rc_refl|]. pose proof (stage1_reaches g x k) as R. destruct (stage1 g x k) as [a k1]. destruct (stage g xs k1) as [b k2] eqn:E. intros [= <- <-].
  eapply reaches_trans; eauto.
Qed.

Lemma stage_ok g xs k : reaches g (fst (stage g xs k)) k (snd (stage g xs k)).
Proof. eapply stage_reaches. apply surjective_pairing. Qed.

(** ** two threads; the second cannot print its second record *)
Definition home : str * node := (lit "/", NDir []).
Definition demo_start : state := command_start (fun l => l) online (Some home) (Some (at_file demo_text)) (Some (lit "t")) 2 None 5 true (lit "p") old_files.
Definition demo_scenes : list scene :=
  Loads :: map Turn (Onward :: Onward :: Onward :: repeat (Moves 1) 11) ++ [Mutes 1] ++ map Turn (repeat (Moves 0) 30 ++ repeat Onward 5) ++ [Closes; Closes].
Definition demo_out : list trouble * state := stage plain demo_scenes demo_start.
Lemma demo_out_reaches : reaches plain (fst demo_out) demo_start (snd demo_out).
Proof. exact (stage_ok plain demo_scenes demo_start). Qed.
Lemma demo_out_seen : fst demo_out = [Mute (Tester 1)] /\
  match snd demo_out with
  | Ended e s l d =>
      e = Exit true /\ s = false /\ map (fun k => length (events_of k l)) [Main; Tester 0; Tester 1; Collector] = [0; 6; 5; 1]%nat /\
      last (texts l) (Main, []) = (Collector, lit "get count=3  sum=0  avg=0  max=0  min=0" ++ [10]) /\
      (match mget (lit "out/p000000") d, mget (lit "out/p000001") d with Some a, Some b => (length b < length a)%nat | _, _ => False end)
  | _ => False
  end.
Proof. vm_compute. repeat split; lia. Qed.
(** the statistics cannot be printed *)
Definition mute_out_scenes : list scene := Loads :: map Turn (Onward :: Onward :: Onward :: repeat (Moves 1) 30 ++ repeat (Moves 0) 30 ++ repeat Onward 4) ++ [Mutes_collector; Closes].
Definition mute_out : list trouble * state := stage plain mute_out_scenes demo_start.
Lemma mute_out_seen : reaches plain (fst mute_out) demo_start (snd mute_out) /\ fst mute_out = [Mute Collector] /\
  match snd mute_out with Ended e s l d => e = Exit true /\ map (fun k => length (events_of k l)) [Main; Tester 0; Tester 1; Collector] = [0; 6; 6; 0]%nat | _ => False end.
Proof. split; [exact (stage_ok plain mute_out_scenes demo_start)|]. vm_compute. repeat split. Qed.
(** interrupted before the threads are started, and afterwards *)
Definition early_out_scenes : list scene := Loads :: map Turn (Onward :: repeat (Moves 0) 5) ++ [Strikes].
Definition early_out : list trouble * state := stage plain early_out_scenes demo_start.
Lemma early_out_seen : reaches plain (fst early_out) demo_start (snd early_out) /\ fst early_out = [Signal] /\
  match snd early_out with Ended e s l d => e = ByInterrupt /\ map (fun k => length (events_of k l)) [Tester 0; Tester 1; Collector] = [3; 0; 0]%nat | _ => False end.
Proof. split; [exact (stage_ok plain early_out_scenes demo_start)|]. vm_compute. repeat split. Qed.
Definition joining_scenes : list scene := Loads :: map Turn (Onward :: Onward :: Onward :: repeat (Moves 0) 5).
Definition joining : state := snd (stage plain joining_scenes demo_start).
Lemma joining_seen : reaches plain [] demo_start joining /\ match joining with Running p dead c => p_main p = Joining /\ p_flag p = true /\ length (p_testers p) = 2%nat | _ => False end.
Proof. split; [|vm_compute; repeat split]. assert (E : fst (stage plain joining_scenes demo_start) = []) by (vm_compute; reflexivity). rewrite <- E. exact (stage_ok plain joining_scenes demo_start). Qed.
(** every test once: the interrupt ends the process and the records are lost *)
Definition all_start : state := command_start (fun l => l) online (Some (at_file all_text)) None None 9 None 9 true (lit "/abs") [].
Definition all_out_scenes : list scene := Loads :: map Turn (Onward :: Onward :: Onward :: repeat (Moves 0) 2) ++ [Strikes].
Definition all_out : list trouble * state := stage plain all_out_scenes all_start.
Lemma all_out_seen : reaches plain (fst all_out) all_start (snd all_out) /\ fst all_out = [Signal] /\
  match snd all_out with Ended e s l d => e = ByInterrupt /\ map fst d = [lit "/abs000000"; lit "/abs000001"] /\ mget (lit "/abs000000") d = Some (recorded plain (lit "/abs000000") (lit "a") 0 []) | _ => False end.
Proof. split; [exact (stage_ok plain all_out_scenes all_start)|]. vm_compute. repeat split. Qed.
Definition all_muted_scenes : list scene := Loads :: map Turn (Onward :: Onward :: Onward :: repeat (Moves 0) 2) ++ [Mutes 0] ++ map Turn (repeat (Moves 1) 30 ++ repeat Onward 4) ++ [Closes; Closes].
Definition all_muted : list trouble * state := stage plain all_muted_scenes all_start.
Lemma all_muted_seen : reaches plain (fst all_muted) all_start (snd all_muted) /\ fst all_muted = [Mute (Tester 0)] /\
  match snd all_muted with Ended e s l d => e = Exit true /\ map (fun k => length (events_of k l)) [Tester 0; Tester 1; Collector] = [1; 4; 1]%nat /\ mget (lit "/abs000000") d = Some (recorded plain (lit "/abs000000") (lit "a") 0 []) | _ => False end.
Proof. split; [exact (stage_ok plain all_muted_scenes all_start)|]. vm_compute. repeat split. Qed.
(** the setup cannot print *)
Definition setup_start : state := command_start (fun l => l) online (Some (at_file (lit "print(""x""); test t { 1 }"))) None (Some (lit "t")) 1 None 1 true (lit "p") old_files.
Lemma setup_out : reaches plain [Mute Main] setup_start (Ended (Exit false) false [] old_files).
Proof. apply (stage_reaches plain [Mutes_main]). vm_compute. reflexivity. Qed.
(** a message about a mistake in the sources cannot be printed: the status changes *)
Definition syntax_start : state := command_start (fun l => l) online (Some (at_file (lit "let 5"))) None None 1 None 1 false (lit "p") [].
Lemma syntax_out : reaches plain [Mute Main] syntax_start (Ended (Exit false) false [] []) /\
  exists l, reaches plain [] syntax_start (Ended (Exit true) false l []) /\ length l = 1%nat.
Proof.
  split; [apply (stage_reaches plain [Mutes_main]); vm_compute; reflexivity|]. exists (log_of (snd (stage plain [Loads; Loads; Closes] syntax_start))). split; [apply (stage_reaches plain [Loads; Loads; Closes])|]; vm_compute; reflexivity.
Qed.
(** the second thread cannot be started: its file has the header alone *)
Definition alone_scenes : list scene := Loads :: map Turn (Onward :: repeat (Moves 0) 11) ++ [Fails].
Definition alone_out : list trouble * state := stage plain alone_scenes demo_start.
Lemma alone_out_seen : reaches plain (fst alone_out) demo_start (snd alone_out) /\ fst alone_out = [Unstarted] /\
  match snd alone_out with
  | Ended e s l d =>
      e = Exit false /\ map (fun k => length (events_of k l)) [Main; Tester 0; Tester 1; Collector] = [0; 5; 0; 0]%nat /\
      mget (lit "out/p000001") d = Some (recorded plain (lit "out/p000001") (lit "t") 1 []) /\
      match mget (lit "out/p000000") d, mget (lit "out/p000001") d with Some a, Some b => (length b < length a)%nat | _, _ => False end
  | _ => False
  end.
Proof. split; [exact (stage_ok plain alone_scenes demo_start)|]. vm_compute. repeat split; lia. Qed.
(** neither can the thread of the statistics, when every test runs once *)
Definition last_scenes : list scene := Loads :: map Turn (Onward :: Onward :: repeat (Moves 1) 30) ++ [Fails].
Definition last_out : list trouble * state := stage plain last_scenes all_start.
Lemma last_out_seen : reaches plain (fst last_out) all_start (snd last_out) /\ fst last_out = [Unstarted] /\
  match snd last_out with
  | Ended e s l d => e = Exit false /\ map (fun k => length (events_of k l)) [Tester 0; Tester 1; Collector] = [0; 4; 0]%nat /\
      mget (lit "/abs000000") d = Some (recorded plain (lit "/abs000000") (lit "a") 0 [])
  | _ => False
  end.
Proof. split; [exact (stage_ok plain last_scenes all_start)|]. vm_compute. repeat split. Qed.
