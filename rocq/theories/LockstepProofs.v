(** Two processes that take the same steps *)
From Verif Require Import TextProofs RunProofs ProcessProofs SpecProcess SpecPace SpecAdded.
Open Scope N_scope.

Section Lockstep.
Variables (g g' : setting) (RJ : job -> job -> Prop) (RT : tester -> tester -> Prop) (RE RC : event -> event -> Prop) (RR : record -> record -> Prop) (RS : stats -> stats -> Prop).
Definition alike_action (a a' : action) : Prop :=
  match a, a' with Does e, Does e' => RE e e' | Stores _, Stores _ => True | Sends rs, Sends rs' => Forall2 RR rs rs' | _, _ => False end.
Definition alike_did (a a' : option action) : Prop := match a, a' with Some a, Some a' => alike_action a a' | None, None => True | _, _ => False end.
Definition alike_main (m m' : main_phase) : Prop :=
  match m, m' with Starting js, Starting js' => Forall2 RJ js js' | Starting _, _ => False | _, Starting _ => False | _, _ => m = m' end.
Definition alike_log : list (who * event) -> list (who * event) -> Prop :=
  Forall2 (fun x y => fst x = fst y /\ match fst x with Collector => RC (snd x) (snd y) | _ => RE (snd x) (snd y) end).
Record alike_process (p p' : process) : Prop := {
  ap_main : alike_main (p_main p) (p_main p');
  ap_testers : Forall2 RT (p_testers p) (p_testers p');
  ap_flag : p_flag p' = p_flag p;
  ap_queue : Forall2 (Forall2 RR) (p_queue p) (p_queue p');
  ap_stats : RS (p_stats p) (p_stats p');
  ap_reported : p_reported p' = p_reported p;
  ap_log : alike_log (p_log p) (p_log p');
  ap_disk : same_files (p_disk p) (p_disk p')
}.
Hypothesis stat_same : g_stat g' = g_stat g.
Hypothesis creates_same : g_creates g' = g_creates g.
Hypothesis new_alike : forall j j', RJ j j' -> RT (new_tester g j) (new_tester g' j').
Hypothesis path_alike : forall t t', RT t t' -> te_path t = te_path t'.
Hypothesis thread_alike : forall t t', RT t t' -> j_thread (te_job t) = j_thread (te_job t') /\ j_limit (te_job t) = j_limit (te_job t').
Hypothesis gone_alike : forall t t', RT t t' -> gone t' = gone t.
Hypothesis move_alike : forall stat flag t t' a t1, RT t t' -> tester_move stat flag t = Some (a, t1) -> exists a' t1', tester_move stat flag t' = Some (a', t1') /\ alike_did a a' /\ RT t1 t1'.
Hypothesis add_alike : forall rs rs' m m', Forall2 RR rs rs' -> RS m m' -> RS (stats_add_records m rs) (stats_add_records m' rs').
Hypothesis show_alike : forall m m', RS m m' -> RC (Printed (show_stats (g_order g) m)) (Printed (show_stats (g_order g') m')).
Lemma files_put d d' path x x' : same_files d d' -> same_files (mset path x d) (mset path x' d').
Proof.
  intros H q. destruct (list_eq_dec N.eq_dec q path) as [->|Ne]; [rewrite !mget_mset_same; split; discriminate|]. rewrite !mget_mset_other by auto. apply H.
Qed.
Lemma step_alike p p1 p' : alike_process p p' -> process_step g p p1 -> exists p1', process_step g' p' p1' /\ alike_process p1 p1'.
Proof.
  intros [M T F Q Q2 R L D] S. destruct p' as [m' ts' flag' q' st' r' l' d']. cbn in M, T, F, Q, Q2, R, L, D.
  destruct S; cbn in M, T, F, Q, Q2, R, L, D; subst.
  - destruct m'; try contradiction. inversion M as [|? j' ? js' Mj Mjs]; subst. pose proof (new_alike _ _ Mj) as Nw. pose proof (path_alike _ _ Nw) as Pa. eexists. split; [apply ps_start; rewrite <- Pa, creates_same; assumption|].
    split; cbn [p_main p_testers p_flag p_queue p_stats p_reported p_log p_disk]; auto.
    + apply Forall2_app; auto.
    + rewrite <- Pa. unfold disk_created. destruct (te_path (new_tester g j)); auto using files_put.
  - destruct m'; try contradiction. inversion M as [|? j' ? js' Mj Mjs]; subst. pose proof (new_alike _ _ Mj) as Nw. pose proof (path_alike _ _ Nw) as Pa. eexists. split; [eapply ps_no_file; [rewrite <- Pa; eassumption|now rewrite creates_same]|]. split; cbn; auto.
  - destruct m'; try contradiction. inversion M; subst. eexists. split; [apply ps_started|]. split; cbn; auto.
  - apply Forall2_app_inv_l in T. destruct T as (u1 & u2 & T1 & T2 & ->). inversion T2 as [|? t0 ? u2' Tt T3]; subst.
    match goal with H : tester_move _ _ _ = _ |- _ => destruct (move_alike _ _ _ _ _ _ Tt H) as (a' & t1' & Mv & Dd & Tn) end.
    assert (Rn : running m' = true) by (destruct mp, m'; cbn in M |- *; try contradiction; try reflexivity; try discriminate).
    eexists. split; [eapply ps_tester; [exact Rn|rewrite stat_same; exact Mv]|]. destruct (thread_alike _ _ Tt) as [<- _]. pose proof (path_alike _ _ Tt) as Pa.
    split; cbn [p_main p_testers p_flag p_queue p_stats p_reported p_log p_disk]; auto.
    + apply Forall2_app; auto.
    + destruct a as [[]|], a' as [[]|]; cbn in Dd; try contradiction; auto. apply Forall2_app; auto.
    + destruct a as [[]|], a' as [[]|]; cbn in Dd; try contradiction; auto. apply Forall2_app; auto.
    + unfold disk_after. rewrite <- Pa. destruct a as [[]|], a' as [[]|]; cbn in Dd; try contradiction; auto. destruct (te_path t); auto using files_put.
  - destruct m'; try contradiction; try discriminate. eexists. split; [apply ps_stop|]. split; cbn; auto.
  - destruct m'; try contradiction; try discriminate. inversion Q as [|? rs' ? q0 Q0 Q1]; subst. eexists. split; [apply ps_receive; congruence|]. split; cbn; auto.
  - destruct m'; try contradiction; try discriminate. inversion Q; subst. eexists. split; [apply ps_report; [congruence|]|].
    + match goal with H : Forall _ ts |- _ => revert H end. clear -T thread_alike gone_alike. induction T as [|t t' ts ts' Tt _ IH]; intros H; [constructor|]. inversion H; subst. constructor; auto. destruct (thread_alike _ _ Tt) as [_ <-]. rewrite (gone_alike _ _ Tt). assumption.
    + split; cbn [p_main p_testers p_flag p_queue p_stats p_reported p_log p_disk]; auto. apply Forall2_app; auto. constructor; [|constructor]. split; [reflexivity|]. now apply show_alike.
  - destruct m'; try contradiction; try discriminate. eexists. split; [apply ps_exit; [|congruence]|].
    + match goal with H : Forall _ ts |- _ => revert H end. clear -T gone_alike. induction T as [|t t' ts ts' Tt _ IH]; intros H; [constructor|]. inversion H; subst. constructor; auto. now rewrite (gone_alike _ _ Tt).
    + split; cbn; auto.
  - destruct m'; try contradiction; try discriminate. eexists. split; [apply ps_die|]. split; cbn; auto.
Qed.
Lemma goes_alike p p1 : goes g p p1 -> forall p', alike_process p p' -> exists p1', goes g' p' p1' /\ alike_process p1 p1'.
Proof.
  induction 1 as [p|p p1 p2 G IH S]; intros p' P; [exists p'; split; [constructor|exact P]|].
  destruct (IH _ P) as (p1' & G' & P1). destruct (step_alike _ _ _ P1 S) as (p2' & S' & P2). exists p2'. split; [eapply go_step; eassumption|exact P2].
Qed.
End Lockstep.
Definition other_way {A} (R : A -> A -> Prop) : A -> A -> Prop := fun x y => R y x.
Lemma forall_other {A} (R : A -> A -> Prop) l l' : Forall2 R l l' -> Forall2 (other_way R) l' l.
Proof. induction 1; constructor; auto. Qed.
Lemma alike_other RJ RT RE RC RR RS p p' : alike_process RJ RT RE RC RR RS p p' ->
  alike_process (other_way RJ) (other_way RT) (other_way RE) (other_way RC) (other_way RR) (other_way RS) p' p.
Proof.
  intros [M T F Q Q2 R L D]. split; auto.
  - destruct (p_main p), (p_main p'); cbn in *; try contradiction; auto. now apply forall_other.
  - now apply forall_other.
  - induction Q; constructor; auto. now apply forall_other.
  - unfold alike_log in *. induction L as [|x y l l' [A B] _ IH]; constructor; auto. split; [congruence|]. rewrite <- A. destruct (fst x); exact B.
  - intros q. specialize (D q). tauto.
Qed.
Lemma action_other RE RR a a' : alike_did RE RR a a' -> alike_did (other_way RE) (other_way RR) a' a.
Proof. destruct a as [[]|], a' as [[]|]; cbn; auto. apply forall_other. Qed.
