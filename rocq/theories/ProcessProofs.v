(** The process: what the log and the disk contain *)
From Verif Require Import SpecProcess TestProofs TextProofs ValueProofs EvaluatorTop RunProofs RunTop RunMore SendProofs.
From Coq Require Import Permutation Lia.
Open Scope N_scope.

Lemma goes_trans g p p1 p2 : goes g p p1 -> goes g p1 p2 -> goes g p p2.
Proof. intros A B. revert A. induction B as [|p1 p2 p3 B IH S]; intros A; [exact A|]. exact (go_step _ _ _ _ (IH A) S). Qed.
Lemma events_app x a b : events_of x (a ++ b) = events_of x a ++ events_of x b.
Proof. apply flat_map_app. Qed.
Lemma events_one x e : events_of x [(x, e)] = [e].
Proof. unfold events_of. cbn. now destruct (who_dec x x). Qed.
Lemma events_other x y e : y <> x -> events_of x [(y, e)] = [].
Proof. intros N. unfold events_of. cbn. now destruct (who_dec y x). Qed.
Lemma events_main i l : events_of (Tester i) (map (pair Main) l) = [].
Proof. induction l as [|e l IH]; [reflexivity|]. exact IH. Qed.

(** ** paths *)
Lemma path_join_inj dir a b : path_join dir a = path_join dir b -> a <> [] -> b <> [] -> (hd 0 a = 47 <-> hd 0 b = 47) -> a = b.
Proof.
  assert (S : forall n, n <> [] -> (hd 0 n = 47 /\ path_join dir n = n) \/ (hd 0 n <> 47 /\ path_join dir n = match rev dir with [] => n | 47 :: _ => dir ++ n | _ => dir ++ [47] ++ n end)).
  { intros [|x n] N; [congruence|]. cbn [hd]. destruct (N.eq_dec x 47) as [->|NE]; [left; split; reflexivity|right]. split; auto.
    unfold path_join. destruct x as [|p]; [reflexivity|]. do 6 (destruct p as [p|p|]; try reflexivity). congruence. }
  intros E Na Nb H. destruct (S a Na) as [[A1 A2]|[A1 A2]], (S b Nb) as [[B1 B2]|[B1 B2]]; try tauto; rewrite A2, B2 in E; auto.
  assert (K : forall z : str, match rev dir with [] => z | 47 :: _ => dir ++ z | _ => dir ++ [47] ++ z end = (match rev dir with [] => [] | 47 :: _ => dir | _ => dir ++ [47] end) ++ z).
  { intros z. destruct (rev dir) as [|x r]; [reflexivity|]. destruct x as [|p]; [rewrite <- app_assoc; reflexivity|]. do 6 (destruct p as [p|p|]; try (rewrite <- ?app_assoc; reflexivity)). }
  rewrite !K in E. now apply app_inv_head in E.
Qed.
Theorem record_path_inj g pod a b : record_path g pod a = record_path g pod b -> a = b.
Proof.
  unfold record_path. intros E. apply (file_name_inj pod). destruct (file_name_digits pod a) as (da & A & FA & _ & LA & _), (file_name_digits pod b) as (db & B & FB & _ & LB & _).
  assert (Na : file_name pod a <> []) by (rewrite A; destruct pod; [destruct da; [cbn in LA; lia|discriminate]|discriminate]).
  assert (Nb : file_name pod b <> []) by (rewrite B; destruct pod; [destruct db; [cbn in LB; lia|discriminate]|discriminate]).
  apply (path_join_inj _ _ _ E Na Nb). rewrite A, B. destruct pod as [|x pod]; [|reflexivity].
  destruct da as [|x da]; [cbn in LA; lia|]. destruct db as [|y db]; [cbn in LB; lia|]. cbn [app hd].
  inversion FA as [|? ? DA _]; inversion FB as [|? ? DB _]; subst. unfold digit in *. lia.
Qed.

(** ** one move of a thread *)
Definition pend (todo : list action) : list event := flat_map (fun a => match a with Does e => [e] | _ => [] end) todo.
Lemma pend_app a b : pend (a ++ b) = pend a ++ pend b.
Proof. apply flat_map_app. Qed.
Lemma pend_do l : pend (map Does l) = l.
Proof. induction l as [|e l IH]; [reflexivity|]. unfold pend in *. cbn. now rewrite IH. Qed.
Lemma pend_puts t rs n : pend (puts t rs n) = [].
Proof. unfold puts. now destruct (te_path t). Qed.
Lemma since_spec w es s o s1 : eval_block w es s = (o, s1) -> exists tr, s_trace s1 = s_trace s ++ tr /\ since s s1 = map Does tr.
Proof.
  intros H. destruct (block_frame _ _ _ _ _ H) as (_ & _ & _ & tr & T). exists tr. split; auto. unfold since. rewrite T. f_equal.
  rewrite skipn_app, skipn_all, Nat.sub_diag. reflexivity.
Qed.
Definition same_ends (t t' : tester) : Prop := te_job t' = te_job t /\ te_env t' = te_env t /\ te_path t' = te_path t.
Lemma iteration_ends stat t : same_ends t (iteration stat t) /\ te_accept (iteration stat t) = te_accept t.
Proof. unfold iteration, same_ends. destruct (eval_block _ _ _) as [[?|?| |] ?], (j_limit (te_job t)); cbn; auto. Qed.
Lemma iteration_pend stat t : s_trace (te_state (iteration stat t)) = s_trace (te_state t) ++ pend (te_todo (iteration stat t)).
Proof.
  unfold iteration. destruct (eval_block _ _ _) as [o s1] eqn:E. destruct (since_spec _ _ _ _ _ E) as (tr & T & ->).
  assert (PS : forall b rs, pend (if b : bool then [Sends rs] else []) = []) by (intros [|]; reflexivity).
  destruct o as [v|e| |], (j_limit (te_job t)); cbn [te_state te_todo s_trace ctx_records];
    repeat rewrite ?pend_app, ?pend_do, ?pend_puts, ?PS, ?app_nil_r; rewrite T, <- ?app_assoc; reflexivity.
Qed.
Lemma move_ends stat flag t a t' : tester_move stat flag t = Some (a, t') -> same_ends t t'.
Proof.
  unfold tester_move. destruct (te_todo t) as [|x r]; [|intros [= <- <-]; repeat split].
  destruct (te_phase t); try discriminate.
  - destruct (j_limit (te_job t)); [|discriminate]. intros [= <- <-]. repeat split.
  - intros [= <- <-]. apply iteration_ends.
Qed.
Definition did (a : option action) : list event := match a with Some (Does e) => [e] | _ => [] end.
Lemma move_pend stat flag t a t' l : tester_move stat flag t = Some (a, t') -> l ++ pend (te_todo t) = s_trace (te_state t) ->
  (l ++ did a) ++ pend (te_todo t') = s_trace (te_state t').
Proof.
  unfold tester_move. intros M L. destruct (te_todo t) as [|x r] eqn:T.
  - destruct (te_phase t); try discriminate.
    + destruct (j_limit (te_job t)); [|discriminate]. injection M as <- <-. cbn in *. rewrite app_nil_r. exact L.
    + injection M as <- <-. cbn [did]. rewrite iteration_pend, <- L. cbn [pend flat_map]. now rewrite !app_nil_r.
  - injection M as <- <-. cbn [te_todo te_state]. rewrite <- L, <- app_assoc. f_equal.
Qed.

Lemma nodup_left {A} (a b : list A) : NoDup (a ++ b) -> NoDup a.
Proof. induction a as [|x a IH]; intros H; [constructor|]. inversion H; subst. constructor; auto. intros I. apply H2. apply in_or_app. now left. Qed.

(** ** the whole process *)
Definition ids (ts : list tester) : list N := map (fun t => j_thread (te_job t)) ts.
Section Process.
Variables (g : setting) (js0 : list job) (l0 : list event) (d0 : amap bytes).
Definition begin : process := Process (Starting js0) [] true [] [] false (map (pair Main) l0) d0.
Definition file_of (j : job) : option str := option_map (path_join (g_dir g)) (j_file j).
Hypothesis ids_distinct : NoDup (map j_thread js0).
Hypothesis files_apart : forall a b p, In a js0 -> In b js0 -> file_of a = Some p -> file_of b = Some p -> j_thread a = j_thread b.

Definition left_over (m : main_phase) (rest : list job) : Prop :=
  match m with
  | Starting js => rest = js
  | Joining | Gone true => rest = []
  | Aborting | Gone false => exists j more p, rest = j :: more /\ file_of j = Some p /\ g_creates g p = false
  | Stuck => False
  end.
Record sound (p : process) : Prop := {
  so_jobs : exists rest, js0 = map te_job (p_testers p) ++ rest /\ left_over (p_main p) rest;
  so_from : Forall (fun t => te_env t = g_world g (j_thread (te_job t)) /\ te_path t = file_of (te_job t)) (p_testers p);
  so_made : forall t path, In t (p_testers p) -> te_path t = Some path -> g_creates g path = true;
  so_log : exists l, p_log p = map (pair Main) l0 ++ l /\ Forall (fun x => fst x <> Main) l;
  so_own : Forall (fun t => events_of (Tester (j_thread (te_job t))) (p_log p) ++ pend (te_todo t) = s_trace (te_state t)) (p_testers p);
  so_none : forall i, ~ In i (ids (p_testers p)) -> events_of (Tester i) (p_log p) = [];
  so_disk : forall path, (forall t, In t (p_testers p) -> te_path t <> Some path) -> mget path (p_disk p) = mget path d0
}.
Lemma sound_begin : sound begin.
Proof.
  split; cbn [begin p_testers p_main p_log p_disk].
  - exists js0. split; reflexivity.
  - constructor.
  - contradiction.
  - exists []. split; [now rewrite app_nil_r|constructor].
  - constructor.
  - intros i _. apply events_main.
  - reflexivity.
Qed.
Lemma ids_nodup p : sound p -> NoDup (ids (p_testers p)).
Proof.
  intros [(rest & J & _) _ _ _ _ _ _]. rewrite J, map_app, map_map in ids_distinct. now apply nodup_left in ids_distinct.
Qed.
Lemma paths_apart p ts1 t ts2 t2 path : sound p -> p_testers p = ts1 ++ t :: ts2 -> In t2 (ts1 ++ ts2) -> te_path t = Some path -> te_path t2 <> Some path.
Proof.
  intros S E I P P2. pose proof (ids_nodup p S) as D. destruct S as [(rest & J & _) F _ _ _ _ _]. rewrite E in *.
  assert (It : In t (ts1 ++ t :: ts2)) by (apply in_or_app; right; now left).
  assert (I2 : In t2 (ts1 ++ t :: ts2)) by (apply in_app_or in I; apply in_or_app; cbn; tauto).
  rewrite Forall_forall in F. destruct (F _ It) as [_ Ft]. destruct (F _ I2) as [_ F2].
  assert (Q : j_thread (te_job t) = j_thread (te_job t2)).
  { apply (files_apart _ _ path); [| |congruence|congruence]; rewrite J; apply in_or_app; left; now apply in_map. }
  unfold ids in D. rewrite map_app in D. cbn [map] in D. apply NoDup_remove_2 in D. apply D. rewrite <- map_app, Q. now apply (in_map (fun t => j_thread (te_job t))).
Qed.
Lemma sound_step p p' : sound p -> process_step g p p' -> sound p'.
Proof.
  intros S P. pose proof (ids_nodup p S) as D. pose proof (paths_apart p) as PA.
  destruct P as [j js ts flag q m r l d C|j js ts flag q m r l d pa E C|ts flag q m r l d|mp ts1 t ts2 flag q m r l d a t' R M|ts flag q m r l d|ts flag rs q m l d G|ts flag m l d G A|ts flag q m r l d A R|ts flag q m r l d];
    pose proof S as [(rest & J & O) F MA LG OW NO DI]; cbn [p_main p_testers p_log p_disk] in *.
  - cbn in O. subst rest. assert (NI : ~ In (j_thread j) (ids ts)).
    { rewrite J, map_app in ids_distinct. cbn [map] in ids_distinct. apply NoDup_remove_2 in ids_distinct. unfold ids. rewrite map_map in ids_distinct. intros I. apply ids_distinct. apply in_or_app. now left. }
    split; cbn [p_main p_testers p_log p_disk].
    + exists js. split; [|reflexivity]. rewrite map_app, <- app_assoc. exact J.
    + apply Forall_app. split; auto.
    + intros t path I. apply in_app_or in I. destruct I as [I|[<-|[]]]; eauto.
    + exact LG.
    + apply Forall_app. split; auto. constructor; [|constructor]. cbn. rewrite NO by exact NI. reflexivity.
    + intros i I. apply NO. intros K. apply I. unfold ids. rewrite map_app. apply in_or_app. now left.
    + intros path N. assert (NP : te_path (new_tester g j) <> Some path) by (apply N, in_or_app; right; now left).
      unfold disk_created. destruct (te_path (new_tester g j)) as [p|]; [rewrite mget_mset_other by congruence|]; apply DI; intros t I; apply N, in_or_app; now left.
  - split; cbn [p_main p_testers p_log p_disk]; auto. exists rest. split; auto. cbn in O. subst rest. exists j, js, pa. auto.
  - split; cbn [p_main p_testers p_log p_disk]; auto. exists rest. split; auto.
  - destruct (move_ends _ _ _ _ _ M) as (E1 & E2 & E3).
    assert (EI : forall x, In x (ts1 ++ t' :: ts2) -> exists y, In y (ts1 ++ t :: ts2) /\ te_job x = te_job y /\ te_path x = te_path y).
    { intros x I. apply in_app_or in I. destruct I as [I|[<-|I]]; [exists x|exists t|exists x]; repeat split; auto; apply in_or_app; cbn; auto. }
    assert (EJ : forall f : job -> N, map (fun x => f (te_job x)) (ts1 ++ t' :: ts2) = map (fun x => f (te_job x)) (ts1 ++ t :: ts2)).
    { intros f. rewrite !map_app. cbn [map]. now rewrite E1. }
    set (l' := match a with Some (Does e) => l ++ [(Tester (j_thread (te_job t)), e)] | _ => l end).
    assert (L' : exists x, l' = l ++ x /\ Forall (fun y => fst y = Tester (j_thread (te_job t))) x /\ events_of (Tester (j_thread (te_job t))) x = did a).
    { subst l'. destruct a as [[e|b|rs]|]; try (exists []; rewrite app_nil_r; repeat split; constructor).
      exists [(Tester (j_thread (te_job t)), e)]. split; auto. split; [repeat constructor|apply events_one]. }
    destruct L' as (x & Lx & Fx & Ox).
    assert (OT : forall i, i <> j_thread (te_job t) -> events_of (Tester i) l' = events_of (Tester i) l).
    { intros i N. rewrite Lx, events_app. assert (Z : events_of (Tester i) x = []); [|now rewrite Z, app_nil_r].
      clear -Fx N. induction Fx as [|y x H Fx IH]; [reflexivity|]. destruct y as [y e]. cbn [fst] in H. subst y. change (_ :: x) with ([(Tester (j_thread (te_job t)), e)] ++ x). rewrite events_app, IH, app_nil_r. apply events_other. congruence. }
    unfold ids in D. rewrite map_app in D. cbn [map] in D.
    split; cbn [p_main p_testers p_log p_disk].
    + exists rest. split; auto. rewrite J. f_equal. rewrite !map_app. cbn [map]. now rewrite E1.
    + apply Forall_app in F. destruct F as [F1 F2]. inversion F2; subst. apply Forall_app. split; auto. constructor; auto. rewrite E1, E2, E3. auto.
    + intros y path I. destruct (EI _ I) as (z & I' & _ & ->). eauto.
    + destruct LG as (l1 & LG & Fl). exists (l1 ++ x). split; [fold l'; rewrite Lx, LG, app_assoc; reflexivity|]. apply Forall_app. split; auto.
      eapply Forall_impl; [|exact Fx]. cbn. intros y ->. discriminate.
    + fold l'. apply Forall_app in OW. destruct OW as [W1 W2]. inversion W2 as [|? ? Wt W3]; subst. apply NoDup_remove_2 in D.
      apply Forall_app. split; [|constructor].
      * apply Forall_forall. intros y I. rewrite Forall_forall in W1. rewrite OT; auto. intros Q. apply D. rewrite <- Q. apply in_or_app. left. now apply (in_map (fun t => j_thread (te_job t))).
      * rewrite E1, Lx, events_app, Ox. eapply move_pend; eauto.
      * apply Forall_forall. intros y I. rewrite Forall_forall in W3. rewrite OT; auto. intros Q. apply D. rewrite <- Q. apply in_or_app. right. now apply (in_map (fun t => j_thread (te_job t))).
    + fold l'. intros i I. unfold ids in I. rewrite (EJ j_thread) in I. rewrite OT; [apply NO; exact I|]. intros ->. apply I. rewrite map_app. apply in_or_app. right. now left.
    + intros path N. assert (Q : mget path (disk_after t a d) = mget path d).
      { assert (NT : te_path t <> Some path) by (rewrite <- E3; apply N, in_or_app; right; now left). unfold disk_after. destruct a as [[e|b|rs]|]; auto. destruct (te_path t) as [p|]; auto. apply mget_mset_other. congruence. }
      rewrite Q. apply DI. intros y I. apply in_app_or in I. destruct I as [I|[<-|I]]; [|rewrite <- E3|]; apply N; apply in_or_app; cbn; auto.
  - split; cbn [p_main p_testers p_log p_disk]; eauto.
  - split; cbn [p_main p_testers p_log p_disk]; eauto.
  - split; cbn [p_main p_testers p_log p_disk]; eauto.
    + destruct LG as (l1 & -> & Fl). eexists. split; [rewrite <- app_assoc; reflexivity|]. apply Forall_app. split; auto. repeat constructor. discriminate.
    + eapply Forall_impl; [|exact OW]. cbn beta. intros y <-. rewrite events_app, events_other, app_nil_r by discriminate. reflexivity.
    + intros i I. rewrite events_app, events_other, app_nil_r by discriminate. now apply NO.
  - split; cbn [p_main p_testers p_log p_disk]; eauto.
  - split; cbn [p_main p_testers p_log p_disk]; eauto.
Qed.
Lemma sound_goes p : goes g begin p -> sound p.
Proof. remember begin as b eqn:B. intros H. induction H; subst; [apply sound_begin|]. eapply sound_step; eauto. Qed.
End Process.
