(** The command when output is refused or a signal comes: what stays true *)
From Verif Require Import SpecOutage TestProofs TextProofs ValueProofs EvaluatorTop RunProofs RunTop RunMore SendProofs ProcessProofs ProcessRun ProcessTop ProcessEnds ProcessOnce ProcessLaunch.
From Coq Require Import Permutation Lia.
Open Scope N_scope.

Definition stopped_at (dead : list N) (p : process) : Prop :=
  Forall (fun id => exists t x rest, In t (p_testers p) /\ j_thread (te_job t) = id /\ te_todo t = Does (Printed x) :: rest) dead.
Section Over.
Variables (g : setting) (L : process) (l0 : list event).

Definition told (p : process) (dead : list N) (c : collected) : Prop :=
  c <> Waiting -> g_stat g = true /\ p_reported p = false /\ p_main p = Joining /\
    match c with Told text => text = show_stats (g_order g) (p_stats p) /\ p_queue p = [] /\ Forall (stilled dead) (p_testers p) | _ => True end.
Definition live (fs : list trouble) (k : state) : Prop :=
  match k with
  | Loading did todo next => next = L /\ l0 = did ++ todo /\ fs = []
  | Running p dead c => goes g L p /\ stopped_at dead p /\ (forall id, In (Mute (Tester id)) fs <-> In id dead) /\ ~ In (Mute Main) fs /\ (~ In Signal fs /\ ~ In Unstarted fs) /\
      (In (Mute Collector) fs <-> c = Refused) /\ told p dead c
  | Ended _ _ _ _ => False
  end.
Definition also (j : job) (js : list job) (p : process) : process :=
  Process (Starting js) (p_testers p ++ [new_tester g j]) (p_flag p) (p_queue p) (p_stats p) (p_reported p) (p_log p) (disk_created g (te_path (new_tester g j)) (p_disk p)).
Inductive closed : list trouble -> ending -> state -> Prop :=
| cl_unprinted did t todo next : live [] (Loading did (Printed t :: todo) next) -> closed [Mute Main] (Exit false) (Loading did (Printed t :: todo) next)
| cl_exit fs p dead c : live fs (Running p dead c) -> p_main p = Joining -> Forall (stilled dead) (p_testers p) -> (g_stat g = true -> p_reported p = true \/ c <> Waiting) ->
    closed fs (Exit true) (Running p dead c)
| cl_gone fs p dead c b : live fs (Running p dead c) -> p_main p = Gone b -> closed fs (Exit b) (Running p dead c)
| cl_interrupt fs k : live fs k -> (forall p dead c, k = Running p dead c -> ~ handled g p /\ running (p_main p) = true) -> closed (fs ++ [Signal]) ByInterrupt k
| cl_signal fs k : live fs k -> (forall p dead c, k = Running p dead c -> running (p_main p) = true) -> closed (fs ++ [Signal]) BySignal k
| cl_unstarted fs p dead c j js : live fs (Running p dead c) -> p_main p = Starting (j :: js) -> (forall path, te_path (new_tester g j) = Some path -> g_creates g path = true) ->
    closed (fs ++ [Unstarted]) (Exit false) (Running (also j js p) dead c)
| cl_unfinished fs p dead c : live fs (Running p dead c) -> p_main p = Starting [] -> closed (fs ++ [Unstarted]) (Exit false) (Running p dead c).
Definition proper (fs : list trouble) (k : state) : Prop := live fs k \/ exists e k0, k = ended_as e k0 /\ closed fs e k0.

Lemma stopped_step dead p p' : (forall t, In t (p_testers p) -> In (j_thread (te_job t)) dead -> In t (p_testers p')) -> stopped_at dead p -> stopped_at dead p'.
Proof.
  intros K S. unfold stopped_at in *. rewrite Forall_forall in *. intros id I. destruct (S _ I) as (t & x & r & It & <- & T). exists t, x, r. split; auto.
Qed.
Lemma told_step p p' dead c : stopped_at dead p -> process_step g p p' -> (forall t, In t (p_testers p) -> In (j_thread (te_job t)) dead -> In t (p_testers p')) ->
  c = Waiting \/ p_reported p' = p_reported p -> dead = [] \/ NoDup (ids (p_testers p)) -> told p dead c -> told p' dead c.
Proof.
  intros SA S K [-> |R] ND T N; [congruence|]. destruct (T N) as (G & RE & J & C). rewrite R.
  destruct S as [j js ts flag q mm r l d Cr|j js ts flag q mm r l d pa E Cr|ts flag q mm r l d|mp ts1 t ts2 flag q mm r l d a t' RU MV|ts flag q mm r l d|ts flag rs q mm l d Gs|ts flag mm l d Gs A|ts flag q mm r l d A Rs|ts flag q mm r l d];
    cbn [p_main p_testers p_reported p_queue p_stats] in *; try discriminate.
  - subst mp. split; auto. split; auto. split; auto. destruct c as [|text|]; auto. destruct C as (C1 & C2 & C3). exfalso.
    assert (It : In t (ts1 ++ t :: ts2)) by (apply in_or_app; cbn; auto). rewrite Forall_forall in C3. destruct (C3 _ It) as [Z|Z]; [rewrite gone_still in MV by auto; discriminate|]. destruct ND as [-> |ND]; [contradiction|].
    specialize (K _ It Z). unfold ids in ND. rewrite map_app in ND. cbn [map] in ND. pose proof (NoDup_remove_2 _ _ _ ND) as NI.
    assert (In t [t']) as [E|[]].
    { apply in_app_or in K. destruct K as [K|[K|K]]; [exfalso|left; exact K|exfalso]; apply NI, in_or_app; [left|right]; now apply (in_map (fun x => j_thread (te_job x))). }
    assert (Q : stopped_at dead (Process Joining (ts1 ++ t :: ts2) flag q mm r l d)) by exact SA. unfold stopped_at in Q. rewrite Forall_forall in Q. destruct (Q _ Z) as (t2 & x & rest & I2 & E2 & T2). cbn [p_testers] in I2.
    assert (t2 = t) as ->. { apply in_app_or in I2. destruct I2 as [K2|[K2|K2]]; auto; exfalso; apply NI, in_or_app; [left|right]; rewrite <- E2; now apply (in_map (fun x => j_thread (te_job x))). }
    unfold tester_move in MV. rewrite T2 in MV. injection MV as _ E3. rewrite <- E3 in E. rewrite <- E in T2. cbn in T2. clear -T2. induction rest as [|y r IH] using rev_ind; [discriminate|]. apply (f_equal (@length _)) in T2. rewrite !app_length in T2. cbn in T2. rewrite app_length in T2. cbn in T2. lia.
  - split; auto.
  - split; auto. split; auto. split; auto. destruct c as [|text|]; auto. destruct C as (_ & Z & _). discriminate.
  - subst. rewrite G in RE. discriminate.
Qed.
Lemma live_step fs k x k' : fs = [] \/ (forall p, goes g L p -> NoDup (ids (p_testers p))) -> live fs k -> state_step g x k k' -> proper (fs ++ match x with Some t => [t] | None => [] end) k'.
Proof.
  intros NDI V S. destruct S as [did e todo next|did t todo next|did next|p p' dead c S K R|p dead c t y rest RU I T N|p dead G J R Q A|p dead G J R Q A|p dead c J A R|p dead c b G|k NE H|k NE H|p dead c j js M Cr|p dead c M]; rewrite ?app_nil_r.
  - left. destruct V as (-> & -> & ->). repeat split. now rewrite <- app_assoc.
  - right. exists (Exit false), (Loading did (Printed t :: todo) next). split; auto. pose proof V as (_ & _ & ->). now constructor.
  - left. destruct V as (-> & _ & ->). split; [constructor|]. split; [constructor|]. split; [reflexivity|]. repeat split; auto; try discriminate; try contradiction; congruence.
  - left. destruct V as (H & SA & V). split; [eapply go_step; eauto|]. split; [eapply stopped_step; eauto|]. destruct V as (V1 & V2 & V3 & V4 & V5). split; auto. split; auto. split; auto. split; auto. eapply told_step; eauto.
    destruct NDI as [-> |NDI]; [left|right; auto]. destruct dead as [|i dead]; auto. destruct (proj2 (V1 i)). now left.
  - left. destruct V as (H & SA & V1 & V2 & V3 & V4 & V5). split; auto. split; [constructor; auto; exists t, y, rest; auto|]. split; [|split; [|split; [|split]]].
    + intros id. rewrite in_app_iff, V1. cbn. split; [intros [Z|[[= <-]|[]]]; auto|intros [<- |Z]; auto].
    + intros Z. apply in_app_or in Z. destruct Z as [Z|[Z|[]]]; [auto|discriminate].
    + destruct V3. split; intros Z; apply in_app_or in Z; destruct Z as [Z|[Z|[]]]; auto; discriminate.
    + rewrite in_app_iff, V4. split; [intros [Z|[Z|[]]]; [auto|discriminate]|auto].
    + intros Z. destruct (V5 Z) as (B1 & B2 & B3 & B4). split; auto. split; auto. split; auto. destruct c; auto. destruct B4 as (C1 & C2 & C3). split; auto. split; auto. eapply Forall_impl; [|exact C3]. intros z [Y|Y]; [now left|right; now right].
  - left. destruct V as (H & SA & V1 & V2 & V3 & V4 & V5). split; auto. split; auto. split; auto. split; auto. split; auto. split; [rewrite V4; split; discriminate|]. intros _. repeat split; auto.
  - left. destruct V as (H & SA & V1 & V2 & V3 & V4 & V5). split; auto. split; auto. split; [|split; [|split; [|split]]].
    + intros id. rewrite in_app_iff, V1. split; [intros [Z|[Z|[]]]; [auto|discriminate]|auto].
    + intros Z. apply in_app_or in Z. destruct Z as [Z|[Z|[]]]; [auto|discriminate].
    + destruct V3. split; intros Z; apply in_app_or in Z; destruct Z as [Z|[Z|[]]]; auto; discriminate.
    + rewrite in_app_iff. split; [auto|intros _; right; now left].
    + intros _. repeat split; auto.
  - right. exists (Exit true), (Running p dead c). split; auto. now constructor.
  - right. exists (Exit b), (Running p dead c). split; auto. now apply cl_gone.
  - right. exists ByInterrupt, k. split; auto. now apply cl_interrupt.
  - right. exists BySignal, k. split; auto. now apply cl_signal.
  - right. exists (Exit false), (Running (also j js p) dead c). split; [destruct c; reflexivity|]. now apply cl_unstarted.
  - right. exists (Exit false), (Running p dead c). split; auto. now apply cl_unfinished.
Qed.
Lemma ended_still fs e k0 x k' : closed fs e k0 -> ~ state_step g x (ended_as e k0) k'.
Proof. intros _ S. unfold ended_as in S. inversion S as [| | | | | | | | |k NE H E1 E2 |k NE H E1 E2| |]; subst; eapply NE; reflexivity. Qed.
Lemma proper_reaches fs k : fs = [] \/ (forall p, goes g L p -> NoDup (ids (p_testers p))) -> reaches g fs (Loading [] l0 L) k -> proper fs k.
Proof.
  intros NDI H. remember (Loading [] l0 L) as b eqn:B. induction H as [|fs k k1 k2 x H IH S]; subst; [left; repeat split|]. assert (ND : fs = [] \/ (forall p, goes g L p -> NoDup (ids (p_testers p)))) by (destruct NDI as [E|]; [left; now apply app_eq_nil in E|now right]). destruct (IH ND eq_refl) as [V|(e & k0 & -> & C)].
  - eapply live_step; eauto.
  - exfalso. exact (ended_still _ _ _ _ _ C S).
Qed.
Lemma also_step j js p : p_main p = Starting (j :: js) -> (forall path, te_path (new_tester g j) = Some path -> g_creates g path = true) -> process_step g p (also j js p).
Proof. intros M Cr. destruct p as [mp ts flag q mm r l d]. cbn in M. subst mp. now apply ps_start. Qed.
Lemma live_also fs p dead c j js : live fs (Running p dead c) -> p_main p = Starting (j :: js) -> (forall path, te_path (new_tester g j) = Some path -> g_creates g path = true) -> live fs (Running (also j js p) dead c).
Proof.
  intros (H & SA & V1 & V2 & V3 & V4 & T) M Cr. split; [eapply go_step; [exact H|now apply also_step]|]. split; [eapply stopped_step; [|exact SA]; intros t I _; apply in_or_app; now left|].
  split; auto. split; auto. split; auto. split; auto. intros N. destruct (T N) as (_ & _ & J & _). congruence.
Qed.
(** the part of a thread in the log *)
Lemma told_log x l text : x <> Collector -> events_of x (l ++ [(Collector, Printed text)]) = events_of x l.
Proof. intros N. rewrite events_app, events_other by congruence. apply app_nil_r. Qed.
Lemma running_log p dead c id : events_of (Tester id) (log_of (Running p dead c)) = events_of (Tester id) (p_log p).
Proof. destruct c; cbn; auto. apply told_log. discriminate. Qed.
(** every moment is one of those before the end *)
Lemma moment fs k : proper fs k -> exists k0 fs0, live fs0 k0 /\ log_of k = log_of k0 /\ disk_of k = disk_of k0.
Proof.
  intros [V|(e & k0 & -> & C)]; [exists k, fs; auto|]. destruct C as [| | | | |fs p dead c j js V M Cr|]; try (do 2 eexists; (split; [eassumption|split; reflexivity])).
  exists (Running (also j js p) dead c), fs. split; [now apply live_also|split; reflexivity].
Qed.
End Over.
