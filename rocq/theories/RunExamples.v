(** Concrete runs *)
From Verif Require Import SpecRun EvalExamples ValueExamples TextMore RunProofs RunTop RunMore.
From Coq Require Import Permutation Lia.
Open Scope N_scope.

(** ** a schedule: the first live thread moves; then batches are received, then printed *)
Fixpoint first_live (ts : list thread) : option (list thread * thread * list thread) :=
  match ts with
  | [] => None
  | t :: ts' => if live (th_phase t) then Some ([], t, ts')
                else match first_live ts' with Some (a, x, b) => Some (t :: a, x, b) | None => None end
  end.
Definition hung (t : thread) : bool := match th_phase t with Hung => true | _ => false end.
Section Drive.
Variables (order : list str -> list str) (name : str) (body : list expr) (maximun : N) (stat : bool).
Definition drive1 (r : run) : run :=
  match first_live (run_threads r) with
  | Some (a, t, b) =>
      let (t', sent) := thread_move name body maximun stat (run_flag r) t in
      Run (a ++ t' :: b) (run_flag r) (match sent with Some rs => run_queue r ++ [rs] | None => run_queue r end) (run_stats r) (run_stat_phase r)
  | None =>
      match run_stat_phase r, stat, run_queue r with
      | Receiving, true, rs :: q => Run (run_threads r) (run_flag r) q (stats_add_records (run_stats r) rs) Receiving
      | Receiving, true, [] => if existsb hung (run_threads r) then r else Run (run_threads r) (run_flag r) [] (run_stats r) (Printed_ (show_stats order (run_stats r)))
      | _, _, _ => r
      end
  end.
Fixpoint drive (n : nat) (r : run) : run := match n with O => r | S n' => drive n' (drive1 r) end.
Lemma first_live_split ts a t b : first_live ts = Some (a, t, b) -> ts = a ++ t :: b /\ live (th_phase t) = true.
Proof.
  revert a. induction ts as [|x ts IH]; intros a; cbn; [discriminate|]. destruct (live (th_phase x)) eqn:L; [intros [= <- <- <-]; auto|].
  destruct (first_live ts) as [[[a' y] b']|]; [|discriminate]. intros [= <- <- <-]. destruct (IH _ eq_refl) as [-> ?]. auto.
Qed.
Lemma first_live_none ts : first_live ts = None -> Forall (fun t => live (th_phase t) = false) ts.
Proof.
  induction ts as [|x ts IH]; cbn; [constructor|]. destruct (live (th_phase x)) eqn:L; [discriminate|].
  destruct (first_live ts) as [[[a' y] b']|]; [discriminate|]. intros _. constructor; auto.
Qed.
Lemma drive1_executes r : executes order name body maximun stat r (drive1 r).
Proof.
  unfold drive1. destruct r as [ts flag q m p]. cbn [run_threads run_flag run_queue run_stats run_stat_phase]. destruct (first_live ts) as [[[a t] b]|] eqn:F.
  - apply first_live_split in F. destruct F as [-> L]. destruct (thread_move name body maximun stat flag t) as [t' sent] eqn:M.
    eapply ex_step; [apply ex_refl|]. now apply step_thread.
  - apply first_live_none in F. rewrite Forall_forall in F. destruct p; [|apply ex_refl]. destruct stat eqn:ST; [|apply ex_refl]. destruct q.
    + destruct (existsb hung ts) eqn:H; [apply ex_refl|]. eapply ex_step; [apply ex_refl|]. apply step_print; auto. intros t T. split; auto. intros P.
      assert (X : existsb hung ts = true) by (apply existsb_exists; exists t; split; auto; unfold hung; now rewrite P). congruence.
    + eapply ex_step; [apply ex_refl|]. now apply step_receive.
Qed.
Lemma drive_executes n : forall r, executes order name body maximun stat r (drive n r).
Proof. induction n as [|n IH]; intros r; cbn [drive]; [apply ex_refl|]. eapply executes_trans; [apply drive1_executes|apply IH]. Qed.
End Drive.

(** ** a test with a request, a variable and a print *)
Definition demo_text : str := lit "let n = 0; request get`GET http://h/{n}`[status == 200] test t { let n = n + 1; get(); print(""{n}"", n) }".
Definition demo : option (amap (list expr) * ctx) := match test_setup online demo_text with (Ok x, _) => x | _ => None end.
Definition demo_body : list expr := match demo with Some (ts, _) => match mget (lit "t") ts with Some b => b | None => [] end | None => [] end.
Definition demo_ctx : ctx := match demo with Some (_, c) => c | None => ctx_new end.
Definition demo_files (n : N) : option file := Some (writer_new []).
Definition id_order (l : list str) : list str := l.
Definition demo_start : run := run_start demo_ctx (fun _ => online) demo_files 2.
(** two threads, number 5 *)
Definition demo_end : run := drive id_order (lit "t") demo_body 2 true 30 demo_start.
Lemma demo_reached : executes id_order (lit "t") demo_body 2 true demo_start demo_end.
Proof. apply drive_executes. Qed.
Lemma demo_view : maximun_of 5 2 = Ok 2 /\ map (fun t => (th_id t, th_number t, th_phase t)) (run_threads demo_end) = [(0, 2, Finished); (1, 2, Finished)] /\
  map (fun t => mget (lit "n") (c_vars (s_ctx (th_state t)))) (run_threads demo_end) = [Some (VInt 2); Some (VInt 2)] /\ run_flag demo_end = true /\
  run_stat_phase demo_end = Printed_ (lit "get count=4  sum=0  avg=0  max=0  min=0" ++ [10]).
Proof. vm_compute. repeat split. Qed.
Lemma demo_ended : ended demo_end.
Proof. apply first_live_none. vm_compute. reflexivity. Qed.
(** stopped while the first thread is in its body *)
Definition demo_mid : run := drive id_order (lit "t") demo_body 2 true 1 demo_start.
Definition demo_stopped : run := Run (run_threads demo_mid) false (run_queue demo_mid) (run_stats demo_mid) (run_stat_phase demo_mid).
Lemma demo_stopped_reached : executes id_order (lit "t") demo_body 2 true demo_start demo_stopped.
Proof.
  eapply ex_step; [apply (drive_executes id_order (lit "t") demo_body 2 true 1 demo_start)|]. fold demo_mid. unfold demo_stopped. destruct demo_mid. apply step_stop.
Qed.
Definition demo_after : run := drive id_order (lit "t") demo_body 2 true 30 demo_stopped.
Lemma demo_after_view : map th_phase (run_threads demo_stopped) = [InBody; AtHead] /\
  map (fun t => (th_number t, th_phase t)) (run_threads demo_after) = [(1, Finished); (0, Finished)] /\
  run_stat_phase demo_after = Printed_ (lit "get count=1  sum=0  avg=0  max=0  min=0" ++ [10]).
Proof. vm_compute. repeat split. Qed.
(** a test whose second iteration fails *)
Definition fail_text : str := lit "let n = 0; request get`GET http://h/{n}`[status == 200] test t { let n = n + 1; get(); if (n == 2) { missing } }".
Definition fail_setup := match test_setup online fail_text with (Ok (Some x), _) => x | _ => ([], ctx_new) end.
Definition fail_body : list expr := match mget (lit "t") (fst fail_setup) with Some b => b | None => [] end.
Definition fail_end : run := drive id_order (lit "t") fail_body 3 true 40 (run_start (snd fail_setup) (fun _ => online) demo_files 2).
Lemma fail_view : map (fun t => (th_number t, th_phase t, length (c_recs (s_ctx (th_state t))))) (run_threads fail_end) = [(1, Finished, 1%nat); (1, Finished, 1%nat)] /\
  run_stat_phase fail_end = Printed_ (lit "get count=2  sum=0  avg=0  max=0  min=0" ++ [10]).
Proof. vm_compute. repeat split. Qed.
Lemma constant_never_fails w c : never_fails w [EInt 1] c.
Proof. intros k s bs _. exists (VInt 1), s. destruct s. reflexivity. Qed.

(** ** run-all mode *)
Definition all_text : str := lit "let n = 7; request get`GET http://h/{n}`[status == 200] test a { get(); let n = 8; } test b { print(""{n}"", n); get(); missing }".
Definition all_view := match test_setup online all_text with
  | (Ok (Some (tests, c)), _) => map (fun p => (fst p, match snd p with Some (rs, s, f) => Some (length rs, printed (s_trace s), match f with Some _ => true | None => false end) | None => None end)) (run_all_from (fun _ => online) demo_files c 0 tests)
  | _ => [] end.

(** ** a session *)
Definition session_lines : list (option str) :=
  [Some (lit "let a = 1"); None; Some (lit "  "); Some (lit "let a = a + ;"); Some (lit "let a = a + 1; missing; let a = 9"); Some (lit "a"); Some (lit "exit"); Some (lit "a")].

(** ** a directory tree *)
Definition demo_tree : node := NDir
  [(lit "b", NDir [(lit "x.fan", NFile (Some (utf8 (lit "3")))); (lit "a.fan", NFile (Some (utf8 (lit "2"))))]); (lit "c.txt", NFile None); (lit ".fan", NFile (Some (utf8 (lit "no"))));
   (lit "b.fan", NFile (Some (utf8 (lit "4")))); (lit "a.fan", NFile (Some (utf8 (lit "1"))))].
Lemma all_example : map (fun p => (fst p, option_map (fun x => fst (fst x)) (snd p))) all_view = [(lit "a", Some 1%nat); (lit "b", Some 1%nat)].
Proof. vm_compute. reflexivity. Qed.
Lemma session_example : (let (o, s) := repl online session_lines (St ctx_new []) in (o, c_vars (s_ctx s), printed (s_trace s))) =
  (Ok tt, [(lit "a", VInt 2)], lit "1" ++ [10] ++ lit "parse expr error: ;" ++ [10] ++ lit "ident:missing not found" ++ [10] ++ lit "2" ++ [10]).
Proof. vm_compute. reflexivity. Qed.
Lemma session_demo : exists s, session online (firstn 6 session_lines) (St ctx_new []) s /\ c_vars (s_ctx s) = [(lit "a", VInt 2)].
Proof.
  unfold session_lines. cbn [firstn].
  assert (NB : forall l, (trim l = [] -> False) -> ~ blank l) by (intros l H B; apply H; now apply trim_blank).
  eexists. split.
  - eapply se_line; [apply NB; discriminate|discriminate|apply line_ok; vm_compute; reflexivity|]. apply se_unreadable.
    apply se_blank; [apply trim_blank; reflexivity|].
    eapply se_line; [apply NB; discriminate|discriminate|apply line_ok; vm_compute; reflexivity|].
    eapply se_line; [apply NB; discriminate|discriminate|apply line_ok; vm_compute; reflexivity|].
    eapply se_line; [apply NB; discriminate|discriminate|apply line_ok; vm_compute; reflexivity|]. apply se_nil.
  - reflexivity.
Qed.
Lemma tree_example : distinct_names demo_tree /\ listable demo_tree /\ read_node (lit "d") demo_tree = Some (lit "1234") /\
  read_node (lit "d") (NDir [(lit "a.fan", NFile None)]) = None /\ read_node (lit "d") (NDir [(lit "b.txt", NSealed)]) = None.
Proof.
  split; [cbn; repeat split; repeat constructor; cbn; intuition discriminate|]. split; [cbn; tauto|]. vm_compute. repeat split.
Qed.
