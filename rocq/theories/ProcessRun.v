(** The process of a named test refines the run of its threads *)
From Verif Require Import SpecProcess TestProofs TextProofs ValueProofs EvaluatorTop RunProofs RunTop RunMore SendProofs ProcessProofs.
From Coq Require Import Permutation Lia.
Open Scope N_scope.

Section Named.
Variables (g : setting) (pod : option str) (c : ctx) (name : str) (body : list expr) (m threads : N) (l0 : list event) (d0 : amap bytes).
Let stat := g_stat g.
Let js0 := named_jobs pod c name body m 0 (N.to_nat threads).
Definition fresh_file (id : N) : option file := option_map (fun n => writer_new (g_accepts g (path_join (g_dir g) n))) (record_name pod id).
Let files := fresh_file.
Let start := begin js0 l0 d0.

Lemma named_distinct : NoDup (map j_thread js0).
Proof.
  destruct (named_jobs_shape pod c name body m (N.to_nat threads) 0) as [T _]. cbv zeta in T. fold js0 in T. rewrite T. apply (indices_nodup (N.to_nat threads)).
Qed.
Lemma named_shape j : In j js0 -> j_name j = name /\ j_body j = body /\ j_limit j = Some m /\ j_ctx j = ctx_clone c /\ j_file j = record_name pod (j_thread j).
Proof. intros I. destruct (named_jobs_shape pod c name body m (N.to_nat threads) 0) as [_ F]. cbv zeta in F. fold js0 in F. rewrite Forall_forall in F. auto. Qed.
Lemma named_apart a b p : In a js0 -> In b js0 -> file_of g a = Some p -> file_of g b = Some p -> j_thread a = j_thread b.
Proof.
  intros A B. apply named_shape in A, B. destruct A as (_ & _ & _ & _ & A), B as (_ & _ & _ & _ & B). unfold file_of. rewrite A, B. unfold record_name.
  destruct pod as [q|]; [|discriminate]. cbn [option_map]. intros [= <-] [= E]. symmetry. apply (record_path_inj g q). exact E.
Qed.
Lemma sound_named p : goes g start p -> sound g js0 l0 d0 p.
Proof. apply sound_goes; [exact named_distinct|exact named_apart]. Qed.

(** ** one thread *)
Definition content (d : amap bytes) (p : str) : bytes := match mget p d with Some x => x | None => [] end.
Definition seen (d : amap bytes) (t : tester) : option file := option_map (fun p => File (content d p) (te_accept t)) (te_path t).
Definition settled (t : tester) (f : option file) (th : thread) : Prop :=
  th_phase th = te_phase t /\ th_number th = te_number t /\ th_state th = te_state t /\ th_file th = f.
Definition store (b : option bytes) : list action := match b with Some b => [Stores b] | None => [] end.
Definition sending (r : option (list record)) : list action := match r with Some rs => [Sends rs] | None => [] end.
Definition pictured (d : amap bytes) (t : tester) (th : thread) : Prop :=
  th_id th = j_thread (te_job t) /\ th_env th = te_env t /\
  match te_todo t with
  | [] => settled t (seen d t) th
  | _ => th_phase th = InBody /\ exists th' done evs b sent, thread_move name body m stat true th = (th', sent) /\
      te_todo t = map Does evs ++ store b ++ sending sent /\
      s_trace (te_state t) = s_trace (th_state th) ++ done ++ evs /\
      settled t (match b with Some b => option_map (fun f => file_write f b) (seen d t) | None => seen d t end) th' /\
      (evs <> [] \/ b <> None -> th_file th = seen d t)
  end.
Definition ours (j : job) : Prop := j_name j = name /\ j_body j = body /\ j_limit j = Some m.
Definition given (a : option action) : option (list record) := match a with Some (Sends rs) => Some rs | _ => None end.

Lemma move_flag flag th : th_phase th = InBody -> thread_move name body m stat flag th = thread_move name body m stat true th.
Proof. unfold thread_move. now intros ->. Qed.
Lemma move_keeps flag th th' sent : thread_move name body m stat flag th = (th', sent) -> th_id th' = th_id th /\ th_env th' = th_env th.
Proof.
  unfold thread_move. destruct (th_phase th); try (intros [= <- <-]; auto; fail).
  destruct (eval_block _ _ _) as [[v|e| |] s1]; [destruct (ctx_records _)|..]; intros [= <- <-]; auto.
Qed.
Lemma seen_store d t b : seen (disk_after t (Some (Stores b)) d) (Test (te_job t) (te_env t) (te_path t) (tl (te_accept t)) (te_number t) (te_state t) (te_phase t) []) =
  option_map (fun f => file_write f b) (seen d t).
Proof.
  unfold seen, disk_after. cbn [te_path te_accept]. destruct (te_path t) as [p|]; [|reflexivity]. cbn [option_map]. unfold content. rewrite mget_mset_same.
  unfold file_write. cbn [f_accept f_data]. destruct (te_accept t) as [|[n|] r]; reflexivity.
Qed.

(** the actions of an iteration *)
Lemma iteration_pictured d t th : ours (te_job t) -> te_todo t = [] -> te_phase t = InBody -> pictured d t th ->
  exists th' sent evs b, thread_move name body m stat true th = (th', sent) /\
    te_todo (iteration stat t) = map Does evs ++ store b ++ sending sent /\
    s_trace (te_state (iteration stat t)) = s_trace (th_state th) ++ evs /\
    settled (iteration stat t) (match b with Some b => option_map (fun f => file_write f b) (seen d t) | None => seen d t end) th'.
Proof.
  intros (Jn & Jb & Jl) T P (I & E & X). rewrite T in X. destruct X as (X1 & X2 & X3 & X4). rewrite P in X1.
  unfold thread_move, iteration, settled. rewrite X1, E, X3, Jb, Jl. destruct (eval_block (te_env t) body (te_state t)) as [o s1] eqn:EV.
  destruct (since_spec _ _ _ _ _ EV) as (tr & TR & ->). destruct o as [v|e| |].
  - unfold ctx_records. cbn [te_todo te_state te_phase te_number]. rewrite print_records. do 2 eexists.
    exists (tr ++ record_lines (c_recs (s_ctx s1))), (match te_path t with Some _ => Some (block (c_recs (s_ctx s1)) name (th_id th) (th_number th)) | None => None end).
    split; [reflexivity|]. cbn [th_phase th_number th_state th_file s_ctx s_trace]. rewrite TR. split; [|split; [|split; [|split; [|split]]]]; auto.
    + rewrite map_app, <- app_assoc. do 2 f_equal. unfold puts. rewrite Jn, X2, I. destruct (te_path t), stat; reflexivity.
    + now rewrite <- app_assoc.
    + now rewrite X2.
    + rewrite X4. unfold seen. destruct (te_path t); reflexivity.
  - do 2 eexists. exists (tr ++ [Printed (everr_text (e_host (te_env t)) e ++ [10])]), None. split; [reflexivity|]. cbn [te_todo te_state te_phase te_number th_phase th_number th_state th_file s_trace store sending app].
    rewrite TR, map_app, <- !app_assoc. cbn [app map]. repeat split; auto. unfold println_, emit. now rewrite TR, <- app_assoc.
  - do 2 eexists. exists tr, None. split; [reflexivity|]. cbn [te_todo te_state te_phase te_number th_phase th_number th_state th_file store sending app].
    rewrite app_nil_r. repeat split; auto.
  - do 2 eexists. exists tr, None. split; [reflexivity|]. cbn [te_todo te_state te_phase te_number th_phase th_number th_state th_file store sending app].
    rewrite app_nil_r. repeat split; auto.
Qed.
Lemma move_pictured d flag t a t' th : ours (te_job t) -> pictured d t th -> tester_move stat flag t = Some (a, t') ->
  (pictured (disk_after t a d) t' th /\ given a = None) \/
  exists th' sent, live (th_phase th) = true /\ thread_move name body m stat flag th = (th', sent) /\ pictured (disk_after t a d) t' th' /\ sent = given a.
Proof.
  intros O P M. pose proof P as (I & E & X). unfold tester_move in M. destruct (te_todo t) as [|x r] eqn:T.
  - destruct X as (X1 & X2 & X3 & X4). destruct (te_phase t) eqn:PH; try discriminate.
    + destruct O as (_ & _ & Jl). rewrite Jl in M. injection M as <- <-. right. do 2 eexists. unfold thread_move. rewrite X1, X2. split; [reflexivity|]. split; [reflexivity|].
      split; [|reflexivity]. cbn [disk_after]. split; [exact I|]. split; [exact E|]. cbn [te_todo]. repeat split; auto.
    + injection M as <- <-. destruct (iteration_pictured d t th O T PH) as (th' & sent & evs & b & MV & TD & TR & SE); [split; [exact I|split; [exact E|rewrite T; repeat split; auto; congruence]]|].
      destruct (iteration_ends stat t) as [(E1 & E2 & E3) E4]. cbn [disk_after given].
      assert (SN : seen d (iteration stat t) = seen d t) by (unfold seen; now rewrite E3, E4).
      destruct (move_keeps _ _ _ _ MV) as [K1 K2]. destruct (te_todo (iteration stat t)) as [|a r] eqn:TI.
      * right. exists th', sent. rewrite (move_flag flag) by auto. rewrite X1. split; [reflexivity|]. split; [exact MV|].
        destruct evs; [|discriminate]. destruct b; [discriminate|]. destruct sent; [discriminate|]. split; [|reflexivity].
        split; [congruence|]. split; [congruence|]. rewrite TI, SN. exact SE.
      * left. split; [|reflexivity]. split; [congruence|]. split; [congruence|]. rewrite TI. split; [exact X1|].
        exists th', [], evs, b, sent. rewrite SN. split; [exact MV|]. split; [exact TD|]. split; [exact TR|]. split; [exact SE|]. intros _. exact X4.
  - destruct X as (X1 & th' & done & evs & b & sent & MV & TD & TR & SE & FI). injection M as <- <-.
    destruct (move_keeps _ _ _ _ MV) as [K1 K2].
    assert (Last : r = [] -> forall f t', settled t f th' -> t' = Test (te_job t) (te_env t) (te_path t) (match x with Stores _ => tl (te_accept t) | _ => te_accept t end) (te_number t) (te_state t) (te_phase t) r ->
        seen (disk_after t (Some x) d) t' = f -> given (Some x) = sent ->
        exists th'0 sent0, live (th_phase th) = true /\ thread_move name body m stat flag th = (th'0, sent0) /\ pictured (disk_after t (Some x) d) t' th'0 /\ sent0 = given (Some x)).
    { intros R f t' S -> SF G. subst r. exists th', sent. rewrite X1. rewrite (move_flag flag) by auto. split; [reflexivity|]. split; [exact MV|]. split; [|auto].
      split; [cbn; congruence|]. split; [cbn; congruence|]. cbn [te_todo]. rewrite SF. exact S. }
    assert (Same : forall t2, te_path t2 = te_path t -> te_accept t2 = te_accept t -> seen d t2 = seen d t) by (intros t2 A B; unfold seen; now rewrite A, B).
    destruct evs as [|e evs]; [destruct b as [b|]; [|destruct sent as [rs|]; [|discriminate]]|]; cbn [map store sending app] in TD; injection TD as -> R.
    + (* the write *)
      destruct r as [|y r].
      * right. eapply Last; eauto; [apply seen_store|]. now destruct sent.
      * left. split; [|reflexivity]. split; [exact I|]. split; [exact E|]. cbn [te_todo]. split; [exact X1|]. exists th', done, [], None, sent. split; [exact MV|]. split; [exact R|].
        split; [exact TR|]. split; [|intros [Q|Q]; congruence]. pose proof (seen_store d t b) as SS. unfold seen in SS |- *. cbn [te_path te_accept] in *. rewrite SS. exact SE.
    + (* sending *)
      right. eapply Last; eauto.
    + (* an event *)
      destruct r as [|y r].
      * right. destruct evs; [|discriminate]. destruct b; [discriminate|]. destruct sent; [discriminate|]. eapply Last; eauto.
      * left. split; [|reflexivity]. split; [exact I|]. split; [exact E|]. cbn [te_todo]. split; [exact X1|]. exists th', (done ++ [e]), evs, b, sent. split; [exact MV|]. split; [exact R|].
        split; [cbn [te_state]; rewrite TR, <- app_assoc; reflexivity|]. split; [exact SE|]. intros _. apply FI. left. discriminate.
Qed.

(** ** the process *)
Local Notation steps := (executes (g_order g) name body m stat).
Definition tail_ok (p : process) (rest : list thread) : Prop :=
  match p_main p with
  | Starting js => rest = start_threads c (g_world g) files (N.of_nat (length (p_testers p))) (length js)
  | Joining | Gone true => rest = []
  | _ => True
  end.
Definition sim (p : process) (r : run) : Prop :=
  exists ths rest, run_threads r = ths ++ rest /\ Forall2 (pictured (p_disk p)) (p_testers p) ths /\ tail_ok p rest /\
    run_flag r = p_flag p /\ run_queue r = p_queue p /\ run_stats r = p_stats p /\
    run_stat_phase r = if p_reported p then Printed_ (show_stats (g_order g) (p_stats p)) else Receiving.
Lemma named_length : length js0 = N.to_nat threads.
Proof.
  unfold js0. generalize 0 as id. induction (N.to_nat threads) as [|n IH]; intros id; cbn; auto.
Qed.
Lemma named_index a j b : js0 = a ++ j :: b -> j_thread j = N.of_nat (length a).
Proof.
  intros E. destruct (named_jobs_shape pod c name body m (N.to_nat threads) 0) as [T _]. cbv zeta in T. fold js0 in T.
  assert (Q : nth_error (map j_thread js0) (length a) = Some (j_thread j)) by (rewrite E, map_app, nth_error_app2; rewrite map_length; [|lia]; rewrite Nat.sub_diag; reflexivity).
  rewrite T in Q. rewrite nth_error_map in Q. destruct (nth_error (seq 0 (N.to_nat threads)) (length a)) as [i|] eqn:S; [|discriminate].
  assert (L : (length a < N.to_nat threads)%nat) by (rewrite <- named_length, E, app_length; cbn; lia).
  rewrite (nth_error_nth' _ 0%nat) in S by (rewrite seq_length; lia). rewrite seq_nth in S by lia. injection S as <-. cbn in Q. injection Q as <-. lia.
Qed.
Lemma seen_same d d' t : (forall p, te_path t = Some p -> mget p d' = mget p d) -> seen d' t = seen d t.
Proof. intros H. unfold seen. destruct (te_path t) as [p|]; [|reflexivity]. cbn [option_map]. unfold content. now rewrite (H p eq_refl). Qed.
Lemma pictured_same d d' t th : (forall p, te_path t = Some p -> mget p d' = mget p d) -> pictured d t th -> pictured d' t th.
Proof.
  intros H (I & E & X). split; auto. split; auto. rewrite (seen_same d d' t H). exact X.
Qed.
Lemma new_pictured d j : ours j -> j_ctx j = ctx_clone c -> j_file j = record_name pod (j_thread j) ->
  pictured (disk_created g (te_path (new_tester g j)) d) (new_tester g j) (start_thread c (g_world g (j_thread j)) (files (j_thread j)) (j_thread j)).
Proof.
  intros (_ & _ & L) C F. split; [reflexivity|]. split; [reflexivity|]. cbn [new_tester te_todo]. unfold settled, start_thread, new_tester, disk_created, seen. cbn [th_phase th_number th_state th_file te_phase te_number te_state te_path te_accept].
  rewrite L, C, F. repeat split. unfold files, fresh_file. destruct (record_name pod (j_thread j)) as [n|]; [|reflexivity]. cbn [option_map]. unfold content. rewrite mget_mset_same. now destruct (writer_new _).
Qed.
Lemma sim_start : sim start (run_start c (g_world g) files threads).
Proof.
  exists [], (start_threads c (g_world g) files 0 (N.to_nat threads)). unfold start, begin, run_start, tail_ok. cbn [p_main p_testers p_disk run_threads run_flag run_queue run_stats run_stat_phase p_reported p_flag p_queue p_stats length N.of_nat].
  rewrite named_length. repeat split. constructor.
Qed.
Lemma Forall2_here {A B} (P : A -> B -> Prop) l1 x l2 m1 : Forall2 P (l1 ++ x :: l2) m1 -> exists a y b, m1 = a ++ y :: b /\ Forall2 P l1 a /\ P x y /\ Forall2 P l2 b.
Proof. apply Forall2_split. Qed.
Lemma Forall2_in_r {A B} (P : A -> B -> Prop) l k y : Forall2 P l k -> In y k -> exists x, In x l /\ P x y.
Proof. intros F. induction F; intros I; [contradiction|]. destruct I as [<-|I]; [eexists; split; [now left|eauto]|]. destruct (IHF I) as (z & Z & Q). exists z. split; auto. now right. Qed.
Lemma Forall2_mono {A B} (P Q : A -> B -> Prop) l k : Forall2 P l k -> (forall x y, In x l -> P x y -> Q x y) -> Forall2 Q l k.
Proof. intros F. induction F as [|a b l k p F IH]; intros X; constructor; [apply X; auto; now left|]. apply IH. intros; apply X; auto. now right. Qed.
Lemma sim_step p p' r : sound g js0 l0 d0 p -> sim p r -> process_step g p p' -> exists r', (r' = r \/ run_step (g_order g) name body m stat r r') /\ sim p' r'.
Proof.
  intros S (ths & rest & RT & F & TO & RF & RQ & RS & RP) P. pose proof (paths_apart g js0 l0 d0 named_distinct named_apart p) as PA. pose proof S as [(rj & J & O) SF MA LG OW NO DI].
  destruct r as [rts rf rq rs rp]. cbn [run_threads run_flag run_queue run_stats run_stat_phase] in *. subst rts rf rq rs rp.
  destruct P as [j js ts flag q mm r l d C|j js ts flag q mm r l d pa E C|ts flag q mm r l d|mp ts1 t ts2 flag q mm r l d a t' R M|ts flag q mm r l d|ts flag rs q mm l d G|ts flag mm l d G A|ts flag q mm r l d A R|ts flag q mm r l d];
    unfold tail_ok in TO; cbn [p_main p_testers p_log p_disk p_flag p_queue p_stats p_reported] in *.
  - (* a thread is started *)
    cbn [left_over] in O. subst rj. assert (IJ : In j js0) by (rewrite J; apply in_or_app; right; now left).
    destruct (named_shape j IJ) as (N1 & N2 & N3 & N4 & N5).
    assert (TI : j_thread j = N.of_nat (length ts)) by (rewrite (named_index _ _ _ J), map_length; reflexivity).
    cbn [length start_threads] in TO. eexists. split; [left; reflexivity|].
    exists (ths ++ [start_thread c (g_world g (j_thread j)) (files (j_thread j)) (j_thread j)]), (start_threads c (g_world g) files (N.of_nat (length ts) + 1) (length js)).
    cbn [run_threads run_flag run_queue run_stats run_stat_phase p_main p_testers p_log p_disk p_flag p_queue p_stats p_reported].
    split; [rewrite TO, TI, <- app_assoc; reflexivity|]. split.
    + apply Forall2_app; [|constructor; [|constructor]; apply new_pictured; auto; repeat split; auto].
      eapply Forall2_mono; [exact F|]. intros x y Ix. apply pictured_same. intros pa Q. unfold disk_created. destruct (te_path (new_tester g j)) as [pj|] eqn:EP; [|reflexivity].
      apply mget_mset_other. intros ->. rewrite Forall_forall in SF. destruct (SF _ Ix) as [_ Fx].
      assert (Z : j_thread (te_job x) = j_thread j).
      { apply (named_apart _ _ pj); auto; [rewrite J; apply in_or_app; left; now apply in_map|rewrite <- Fx; exact Q]. }
      pose proof named_distinct as ND. rewrite J, map_app in ND. cbn [map] in ND. apply NoDup_remove_2 in ND. apply ND. apply in_or_app. left. rewrite <- Z, map_map.
      now apply (in_map (fun x => j_thread (te_job x))).
    + split; [|repeat split; auto]. unfold tail_ok. cbn [p_main p_testers]. rewrite app_length. cbn [length]. f_equal. lia.
  - eexists. split; [left; reflexivity|]. exists ths, rest. repeat split; auto.
  - eexists. split; [left; reflexivity|]. exists ths, rest. cbn [length start_threads] in TO. repeat split; auto.
  - (* a thread moves *)
    destruct (Forall2_here _ _ _ _ _ F) as (a1 & th & a2 & -> & F1 & Pt & F2). destruct (move_ends _ _ _ _ _ M) as (E1 & E2 & E3).
    assert (OJ : ours (te_job t)).
    { destruct (named_shape (te_job t)) as (N1 & N2 & N3 & _); [|repeat split; auto]. rewrite J. apply in_or_app. left. apply in_map. apply in_or_app. right. now left. }
    assert (Oth : forall x, In x (ts1 ++ ts2) -> forall pa, te_path x = Some pa -> mget pa (disk_after t a d) = mget pa d).
    { intros x Ix pa Q. unfold disk_after. destruct a as [[e|b|rs]|]; auto. destruct (te_path t) as [pt|] eqn:EP; auto. apply mget_mset_other. intros ->.
      exact (PA ts1 t ts2 x pt S eq_refl Ix EP Q). }
    assert (G1 : Forall2 (pictured (disk_after t a d)) ts1 a1) by (eapply Forall2_mono; [exact F1|]; intros x y Ix; apply pictured_same; apply Oth, in_or_app; now left).
    assert (G2 : Forall2 (pictured (disk_after t a d)) ts2 a2) by (eapply Forall2_mono; [exact F2|]; intros x y Ix; apply pictured_same; apply Oth, in_or_app; now right).
    assert (TL : tail_ok (Process mp (ts1 ++ t' :: ts2) flag q mm r l d) rest).
    { unfold tail_ok. cbn [p_main p_testers]. rewrite app_length in *. exact TO. }
    destruct (move_pictured d flag t a t' th OJ Pt M) as [[P' GV]|(th' & sent & LV & MV & P' & ->)].
    + eexists. split; [left; reflexivity|]. exists (a1 ++ th :: a2), rest. cbn [run_threads run_flag run_queue run_stats run_stat_phase p_main p_testers p_log p_disk p_flag p_queue p_stats p_reported].
      split; [reflexivity|]. split; [apply Forall2_app; auto|]. split; [exact TL|]. repeat split. destruct a as [[e|b|rs]|]; auto. discriminate.
    + exists (Run ((a1 ++ th' :: a2) ++ rest) flag (match given a with Some rs => q ++ [rs] | None => q end) mm (if r then Printed_ (show_stats (g_order g) mm) else Receiving)). split.
      * right. rewrite <- !app_assoc. cbn [app]. apply step_thread; auto.
      * exists (a1 ++ th' :: a2), rest. cbn [run_threads run_flag run_queue run_stats run_stat_phase p_main p_testers p_log p_disk p_flag p_queue p_stats p_reported].
        split; [reflexivity|]. split; [apply Forall2_app; auto|]. split; [exact TL|]. repeat split. destruct a as [[e|b|rs]|]; auto.
  - eexists. split; [right; apply step_stop|]. exists ths, rest. repeat split; auto.
  - eexists. split; [right; apply step_receive; exact G|]. exists ths, rest. repeat split; auto.
  - subst rest. eexists. split; [right; apply step_print; [exact G|]|].
    + rewrite app_nil_r. intros th I. destruct (Forall2_in_r _ _ _ _ F I) as (t & It & (_ & _ & X)).
      rewrite Forall_forall in A. destruct (A _ It) as [Q|Q].
      * exfalso. destruct (named_shape (te_job t)) as (_ & _ & N3 & _); [rewrite J; apply in_or_app; left; now apply in_map|congruence].
      * unfold gone in Q. destruct (te_todo t); [|discriminate]. destruct X as (-> & _). destruct (te_phase t); try discriminate; split; auto; discriminate.
    + exists ths, []. repeat split; auto.
  - eexists. split; [left; reflexivity|]. exists ths, rest. repeat split; auto.
  - eexists. split; [left; reflexivity|]. exists ths, rest. repeat split; auto.
Qed.
Theorem process_refines p : goes g start p -> exists r, steps (run_start c (g_world g) files threads) r /\ sim p r.
Proof.
  remember start as b eqn:B. intros H. induction H as [|p p1 p2 H IH P]; subst; [exists (run_start c (g_world g) files threads); split; [constructor|apply sim_start]|].
  destruct (IH eq_refl) as (r & E & SM). destruct (sim_step p1 p2 r (sound_named _ H) SM P) as (r' & [->|ST] & SM'); [exists r|exists r']; split; auto. eapply ex_step; eauto.
Qed.
End Named.
