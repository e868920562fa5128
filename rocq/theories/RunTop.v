(** The properties of a run *)
From Verif Require Import SpecRun StatProofs EvaluatorProofs TextProofs RunProofs ContainerProofs.
From Coq Require Import Permutation Lia ZifyBool ZifyNat ZifyN.
Open Scope N_scope.

Lemma Forall2_in_l {A B} (P : A -> B -> Prop) l m x : Forall2 P l m -> In x l -> exists y, In y m /\ P x y.
Proof. induction 1; intros []; subst; [eexists; split; [now left|auto]|]. destruct IHForall2 as (y0 & ? & ?); auto. eexists; split; [right|]; eauto. Qed.
Lemma crew_in worlds threads ts t : crew worlds threads ts -> In t ts -> th_id t < threads /\ th_env t = worlds (th_id t).
Proof.
  intros [C F] I. rewrite Forall_forall in F. split; auto. apply (in_map th_id) in I. rewrite C in I. apply in_map_iff in I. destruct I as (k & <- & K).
  apply in_seq in K. lia.
Qed.
Lemma crew_length worlds threads ts : crew worlds threads ts -> N.of_nat (length ts) = threads.
Proof. intros [C _]. apply (f_equal (@length _)) in C. rewrite !map_length, seq_length in C. lia. Qed.

Section Top.
Variables (order : list str -> list str) (name : str) (body : list expr) (c : ctx) (worlds : N -> env) (files : N -> option file).
Variables (threads maximun : N) (stat : bool).
Notation reach r := (executes order name body maximun stat (run_start c worlds files threads) r).

(** ** C56, C58 *)
Theorem run_stands r : reach r -> crew worlds threads (run_threads r) /\
  Forall (fun t => exists bs a, stands name body c files t bs a /\ th_number t = N.of_nat (length bs) /\ th_number t <= a <= maximun) (run_threads r).
Proof.
  intros R. apply inv_reach in R. destruct R as (C & bss & rc & F & _). split; auto. apply Forall_forall. intros t T.
  destruct (Forall2_in_l _ _ _ _ F T) as (bs & _ & a & S & A & _). exists bs, a. destruct (stands_number _ _ _ _ _ _ _ S) as [E L]. split; auto. split; auto. lia.
Qed.
Theorem run_complete r : reach r -> ended r -> run_flag r = true -> (forall id, id < threads -> never_fails (worlds id) body c) ->
  Forall (fun t => th_phase t = Finished /\ th_number t = maximun) (run_threads r) /\ total (map th_number (run_threads r)) = threads * maximun.
Proof.
  intros R E FL NF. apply inv_reach in R. destruct R as (C & bss & rc & F & _). unfold ended in E. rewrite Forall_forall in E.
  assert (X : Forall (fun t => th_phase t = Finished /\ th_number t = maximun) (run_threads r)).
  { apply Forall_forall. intros t T. destruct (Forall2_in_l _ _ _ _ F T) as (bs & _ & a & (s & I & _ & S) & A & Z). specialize (E t T). rewrite FL in Z.
    destruct (crew_in _ _ _ _ C T) as [L W]. specialize (NF _ L). rewrite <- W in NF. destruct (NF _ _ _ I) as (v & s1 & EV).
    destruct (th_phase t); try discriminate.
    - split; auto. destruct S as [[_ ->]|(e & s2 & X & _)]; [|rewrite EV in X; discriminate]. destruct (Z eq_refl eq_refl); lia.
    - destruct S as [X _]. rewrite EV in X. discriminate.
    - destruct S as [X _]. rewrite EV in X. discriminate. }
  split; auto. rewrite <- (crew_length _ _ _ C). clear -X. unfold total. induction X as [|t ts [_ E] X IH]; cbn [map fold_right length]; [reflexivity|]. rewrite IH, E. lia.
Qed.

(** ** every run comes to an end *)
Definition weight (t : thread) : N := match th_phase t with AtHead => 3 * (maximun - th_number t) + 1 | InBody => 3 * (maximun - th_number t) | _ => 0 end.
Definition work (r : run) : N :=
  total (map weight (run_threads r)) + N.of_nat (length (run_queue r)) + match run_stat_phase r with Receiving => 1 | _ => 0 end.
Lemma total_app a b : total (a ++ b) = total a + total b.
Proof. unfold total. induction a; cbn [app fold_right]; lia. Qed.
Lemma thread_work ts1 t ts2 flag q m p t' sent : reach (Run (ts1 ++ t :: ts2) flag q m p) -> live (th_phase t) = true -> thread_move name body maximun stat flag t = (t', sent) ->
  work (Run (ts1 ++ t' :: ts2) flag (match sent with Some rs => q ++ [rs] | None => q end) m p) < work (Run (ts1 ++ t :: ts2) flag q m p).
Proof.
  intros R L M. apply inv_reach in R. destruct R as (C & bss & rc & F & _). unfold work; cbn [run_threads run_flag run_queue run_stats run_stat_phase length] in *.
  apply Forall2_split in F. destruct F as (b1 & bs & b2 & -> & F1 & Gt & F2). rewrite !map_app. cbn [map]. rewrite !total_app. unfold total. cbn [fold_right].
  assert (X : weight t' + (match sent with Some _ => 1 | None => 0 end) < weight t).
  { pose proof Gt as (a & St & A & _). destruct (stands_number _ _ _ _ _ _ _ St) as [_ An]. unfold weight. destruct (th_phase t) eqn:PH; try discriminate.
    - destruct (move_head _ _ _ _ _ _ _ _ _ _ _ PH M Gt) as (Gt' & -> & _ & _ & -> & [(-> & _ & Q)|(-> & _)]); lia.
    - assert (Ln : th_number t < maximun). { destruct St as (s & _ & _ & St). rewrite PH in St. lia. }
      destruct (move_body _ _ _ _ _ _ _ _ _ _ _ PH M Gt) as (_ & _ & [(_ & -> & _ & Lv & _)|(rs & _ & -> & -> & -> & _)]).
      + destruct (th_phase t'); try discriminate; lia.
      + destruct stat; lia. }
  assert (Y : N.of_nat (length (match sent with Some rs => q ++ [rs] | None => q end)) = N.of_nat (length q) + (match sent with Some _ => 1 | None => 0 end)).
  { destruct sent; [rewrite app_length; cbn [length]; lia|lia]. }
  rewrite Y. lia.
Qed.
Lemma step_work r r' : reach r -> run_step order name body maximun stat r r' -> work r' < work r \/ r' = Run (run_threads r) false (run_queue r) (run_stats r) (run_stat_phase r).
Proof.
  intros R S. destruct S as [ts1 t ts2 flag q m p t' sent L M|ts flag q m p|ts flag rs q m ST|ts flag m ST D]; [left; now apply thread_work|now right|..];
    left; unfold work; cbn [run_threads run_queue run_stat_phase length]; lia.
Qed.
Lemma executes_trans r r1 r2 : executes order name body maximun stat r r1 -> executes order name body maximun stat r1 r2 -> executes order name body maximun stat r r2.
Proof. intros A B. induction B as [|r1 r2 r3 B IH S]; [exact A|]. eapply ex_step; [apply IH; exact A|exact S]. Qed.
Lemma executes_app r r1 : executes order name body maximun stat r r1 -> forall r0, executes order name body maximun stat r0 r -> executes order name body maximun stat r0 r1.
Proof. intros A r0 B. eapply executes_trans; eauto. Qed.
(** a run that is not over has a step without stopping it, and only finitely many *)
Theorem run_progress r : reach r -> over stat r \/ exists r', run_step order name body maximun stat r r' /\ run_flag r' = run_flag r /\ work r' < work r.
Proof.
  intros R. destruct (List.Exists_dec (fun t => live (th_phase t) = true) (run_threads r)) as [E|NE]; [intros t; destruct (live (th_phase t)); auto|..].
  - right. apply Exists_exists in E. destruct E as (t & T & L). apply in_split in T. destruct T as (ts1 & ts2 & T). destruct r as [ts flag q m p]. cbn [run_threads run_flag] in *. subst ts.
    destruct (thread_move name body maximun stat flag t) as [t' sent] eqn:M. eexists. split; [eapply step_thread; eauto|]. split; [reflexivity|]. now apply thread_work.
  - assert (E : ended r). { apply Forall_forall. intros t T. destruct (live (th_phase t)) eqn:L; auto. exfalso. apply NE. apply Exists_exists. eauto. }
    destruct r as [ts flag q m p]. destruct (bool_dec stat true) as [ST|ST]; [|left; split; [exact E|intros; congruence]].
    destruct p as [|text]; [|left; split; [exact E|intros; exists text; reflexivity]].
    destruct q as [|rs q]; [|right; eexists; split; [now apply step_receive|split; [reflexivity|unfold work; cbn [run_threads run_queue run_stat_phase length]; lia]]].
    destruct (List.Exists_dec (fun t => th_phase t = Hung) ts) as [H|H]; [intros t; destruct (th_phase t); auto; right; discriminate|..].
    + left. split; auto. intros _ X. exfalso. apply Exists_exists in H. destruct H as (t & T & P). exact (X t T P).
    + right. eexists. split; [apply step_print; auto|split; [reflexivity|unfold work; cbn [run_threads run_queue run_stat_phase length]; lia]].
      intros t T. unfold ended in E. rewrite Forall_forall in E. split; [now apply E|]. intros P. apply H, Exists_exists. eauto.
Qed.
Theorem run_ends r : reach r -> exists r', executes order name body maximun stat r r' /\ run_flag r' = run_flag r /\ over stat r'.
Proof.
  remember (work r) as n eqn:N. revert r N. induction n as [n IH] using (well_founded_induction N.lt_wf_0). intros r -> R.
  destruct (run_progress r R) as [O|(r1 & S1 & FL & W)]; [exists r; split; [apply ex_refl|auto]|].
  destruct (IH (work r1) W r1 eq_refl) as (r' & X & Y & Z); [econstructor; eauto|]. exists r'. split; [|split; [congruence|auto]].
  eapply executes_trans; [eapply ex_step; [apply ex_refl|exact S1]|exact X].
Qed.
Theorem run_bounded : exists measure : run -> N, forall r r', reach r -> run_step order name body maximun stat r r' ->
  measure r' < measure r \/ r' = Run (run_threads r) false (run_queue r) (run_stats r) (run_stat_phase r).
Proof. exists work. exact step_work. Qed.
Theorem run_onward r : reach r -> ~ over stat r -> exists r', run_step order name body maximun stat r r' /\ run_flag r' = run_flag r /\ r' <> r.
Proof.
  intros R O. destruct (run_progress r R) as [|(r' & S & F & W)]; [contradiction|]. exists r'. split; auto. split; auto. intros ->. lia.
Qed.
End Top.
(** ** the number of iterations *)
Theorem iteration_numbers number threads : (threads = 0 -> maximun_of number threads = Panic) /\ (0 < threads -> maximun_of number threads = Ok (number / threads)) /\
  (0 < threads -> threads * (number / threads) <= number /\ (threads * (number / threads) = number <-> (threads | number)) /\ (number < threads -> threads * (number / threads) = 0)).
Proof.
  unfold maximun_of. repeat split; intros.
  - subst. reflexivity.
  - destruct (N.eqb_spec threads 0); [lia|reflexivity].
  - apply N.mul_div_le. lia.
  - exists (number / threads). lia.
  - match goal with X : (_ | _) |- _ => destruct X as (q & ->) end. rewrite N.div_mul by lia. lia.
  - rewrite N.div_small by lia. lia.
Qed.

