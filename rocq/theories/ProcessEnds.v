(** The process comes to its end; when the end is a failure *)
From Verif Require Import SpecProcess TestProofs TextProofs ValueProofs EvaluatorTop RunProofs RunTop RunMore SendProofs ProcessProofs ProcessRun ProcessTop.
From Coq Require Import Permutation Lia Arith.Wf_nat.
Open Scope N_scope.

Section Ends.
Variables (g : setting) (js0 : list job) (l0 : list event) (d0 : amap bytes).
Local Notation start := (begin js0 l0 d0).

(** ** what holds of every thread *)
Definition orderly (t : tester) : Prop :=
  (te_phase t = InBody -> te_todo t = [] /\ match j_limit (te_job t) with Some m => te_number t < m | None => True end) /\
  (te_phase t = AtHead -> j_limit (te_job t) <> None).
Lemma iteration_phase stat t : te_phase (iteration stat t) <> InBody /\ (te_phase (iteration stat t) = AtHead -> j_limit (te_job t) <> None /\ te_number (iteration stat t) = te_number t + 1).
Proof. unfold iteration. destruct (eval_block _ _ _) as [[?|?| |] ?], (j_limit (te_job t)); cbn; split; try discriminate; intros _; split; auto; discriminate. Qed.
Lemma orderly_move stat flag t a t' : orderly t -> tester_move stat flag t = Some (a, t') -> orderly t'.
Proof.
  intros [O1 O2] M. unfold tester_move in M. destruct (te_todo t) as [|x r] eqn:T.
  - destruct (te_phase t) eqn:P; try discriminate.
    + destruct (j_limit (te_job t)) as [m|] eqn:J; [|discriminate]. injection M as _ <-. split; cbn [te_phase te_todo te_job te_number].
      * rewrite J. destruct (flag && (te_number t <? m)) eqn:F; [|discriminate]. intros _. split; auto. apply andb_prop in F. lia.
      * intros _. congruence.
    + injection M as _ <-. destruct (iteration_phase stat t) as [I1 I2]. destruct (iteration_ends stat t) as [(E1 & _) _]. split; [contradiction|]. intros H. rewrite E1. now apply I2.
  - injection M as _ <-. split; cbn [te_phase te_todo te_job te_number].
    + intros H. destruct (O1 H). discriminate.
    + exact O2.
Qed.
Record settled_ok (p : process) : Prop := {
  sk_threads : Forall orderly (p_testers p);
  sk_stat : p_reported p = true -> g_stat g = true /\ (p_main p = Joining \/ p_main p = Gone true);
  sk_stuck : p_main p <> Stuck
}.
Lemma settled_ok_goes p : goes g start p -> settled_ok p.
Proof.
  remember start as b eqn:B. intros H. induction H as [|p p1 p2 H IH S]; subst; [split; cbn; [constructor|discriminate|discriminate]|]. destruct (IH eq_refl) as [F R K].
  destruct S as [j js ts flag q mm r l d C|j js ts flag q mm r l d pa E C|ts flag q mm r l d|mp ts1 t ts2 flag q mm r l d a t' RU MV|ts flag q mm r l d|ts flag rs q mm l d G|ts flag mm l d G A|ts flag q mm r l d A RE|ts flag q mm r l d];
    split; cbn [p_main p_testers p_reported] in *; auto; try discriminate; try (intros Q; destruct (R Q) as [_ [Z|Z]]; discriminate).
  - apply Forall_app. split; auto. constructor; [|constructor]. unfold new_tester, orderly. cbn. destruct (j_limit j); split; try discriminate; auto.
  - apply Forall_app in F. destruct F as [F1 F2]. inversion F2; subst. apply Forall_app. split; auto. constructor; auto. eapply orderly_move; eauto.
  - intros Q. split; [now destruct (R Q)|auto].
Qed.

(** ** the steps left *)
Definition rank (m : main_phase) : nat :=
  match m with Starting js => 3 + length js | Joining => 2 | Aborting => 1 | _ => 0 end.
Definition rounds (t : tester) : nat :=
  match j_limit (te_job t), te_phase t with
  | Some m, AtHead => 2 * N.to_nat (m - te_number t) + 2
  | Some m, InBody => 2 * N.to_nat (m - te_number t) + 1
  | None, InBody => 1
  | _, _ => 0
  end.
Definition pieces (todo : list action) : nat := list_sum (map (fun a => match a with Sends _ => 2 | _ => 1 end) todo)%nat.
Definition sum (f : tester -> nat) (ts : list tester) : nat := list_sum (map f ts).
Definition rest (p : process) : nat :=
  (sum (fun t => pieces (te_todo t)) (p_testers p) + length (p_queue p) + (if p_reported p then 0 else 1) + (if p_flag p then 1 else 0))%nat.
Lemma sum_mid f a x b : sum f (a ++ x :: b) = (sum f a + f x + sum f b)%nat.
Proof. unfold sum. rewrite map_app, list_sum_app. cbn [map]. change (list_sum (f x :: map f b)) with (f x + list_sum (map f b))%nat. lia. Qed.
Lemma move_less stat flag t a t' : orderly t -> tester_move stat flag t = Some (a, t') ->
  (rounds t' < rounds t)%nat \/ (rounds t' = rounds t /\ (pieces (te_todo t') + (match a with Some (Sends _) => 1 | _ => 0 end) < pieces (te_todo t))%nat).
Proof.
  intros [O1 O2] M. unfold tester_move in M. destruct (te_todo t) as [|x r] eqn:T.
  - left. destruct (te_phase t) eqn:P; try discriminate.
    + destruct (j_limit (te_job t)) as [m|] eqn:J; [|discriminate]. injection M as _ <-. unfold rounds. cbn [te_job te_phase te_number]. rewrite J, P. destruct (flag && _); lia.
    + injection M as _ <-. destruct (iteration_phase stat t) as [I1 I2]. destruct (iteration_ends stat t) as [(E1 & _) _]. unfold rounds at 2. rewrite P. destruct (O1 eq_refl) as [_ O].
      unfold rounds. rewrite E1. destruct (j_limit (te_job t)) as [m|] eqn:J.
      * destruct (te_phase (iteration stat t)) eqn:Q; try lia. contradiction.
      * destruct (te_phase (iteration stat t)) eqn:Q; try lia. contradiction.
  - right. injection M as <- <-. split; [reflexivity|]. unfold pieces. cbn [te_todo map list_sum fold_right]. change (list_sum (?a :: ?b)) with (a + list_sum b)%nat. destruct x; lia.
Qed.
Definition less (p' p : process) : Prop :=
  (rank (p_main p') < rank (p_main p))%nat \/
  rank (p_main p') = rank (p_main p) /\
    ((sum rounds (p_testers p') < sum rounds (p_testers p))%nat \/ sum rounds (p_testers p') = sum rounds (p_testers p) /\ (rest p' < rest p)%nat).
Lemma less_irrefl p : ~ less p p.
Proof. unfold less. lia. Qed.
Lemma step_less p p' : settled_ok p -> process_step g p p' -> p' = p \/ less p' p.
Proof.
  intros [F R K] S.
  destruct S as [j js ts flag q mm r l d C|j js ts flag q mm r l d pa E C|ts flag q mm r l d|mp ts1 t ts2 flag q mm r l d a t' RU MV|ts flag q mm r l d|ts flag rs q mm l d G|ts flag mm l d G A|ts flag q mm r l d A RE|ts flag q mm r l d];
    unfold less, rest; cbn [p_main p_testers p_reported p_queue p_flag] in *; try (right; left; cbn; lia).
  - right. right. split; auto. apply Forall_elt in F. rewrite !sum_mid. destruct (move_less _ _ _ _ _ F MV) as [L|[L1 L2]]; [left; lia|]. right. split; [lia|].
    destruct a as [[e|b|rs]|]; rewrite ?app_length; cbn [length]; lia.
  - destruct flag; [right|now left]. right. split; auto. right. split; auto. lia.
  - right. right. split; auto. right. split; auto. cbn [length]. lia.
  - right. right. split; auto. right. split; auto. cbn [length]. lia.
Qed.
Theorem process_finite p : goes g start p -> Acc (fun p' p => process_step g p p' /\ p' <> p) p.
Proof.
  assert (X : forall a b c p, goes g start p -> rank (p_main p) = a -> sum rounds (p_testers p) = b -> rest p = c -> Acc (fun p' p => process_step g p p' /\ p' <> p) p); [|intros H; eapply X; eauto].
  intros a. induction a as [a IHa] using lt_wf_ind. intros b. induction b as [b IHb] using lt_wf_ind. intros c. induction c as [c IHc] using lt_wf_ind.
  intros q H A B C. constructor. intros p' [S N]. assert (H' : goes g start p') by (eapply go_step; eauto).
  destruct (step_less _ _ (settled_ok_goes _ H) S) as [->|[L|[E1 [L|[E2 L]]]]]; [congruence|..].
  - eapply IHa; eauto. lia.
  - eapply IHb; eauto; lia.
  - eapply IHc; eauto; lia.
Qed.
Theorem process_onward p : goes g start p -> (forall b, p_main p <> Gone b) -> (forall t, In t (p_testers p) -> te_phase t <> Hung) ->
  exists p', process_step g p p' /\ p' <> p /\ p_flag p' = p_flag p.
Proof.
  intros H NG NH. pose proof (settled_ok_goes _ H) as K. destruct K as [F R NS] eqn:EK. clear EK.
  assert (Enough : forall p', process_step g p p' -> less p' p -> p_flag p' = p_flag p -> exists p', process_step g p p' /\ p' <> p /\ p_flag p' = p_flag p).
  { intros p' S L E. exists p'. split; auto. split; auto. intros ->. exact (less_irrefl _ L). }
  destruct p as [mp ts flag q mm r l d]. cbn [p_main p_testers p_reported p_flag] in *. destruct mp as [[|j js]| | |b|]; try congruence.
  - eapply Enough; [apply ps_started| |reflexivity]. left. cbn. lia.
  - destruct (te_path (new_tester g j)) as [path|] eqn:E; [destruct (g_creates g path) eqn:C|].
    + eapply Enough; [apply ps_start; intros p' Q; rewrite E in Q; injection Q as <-; exact C| |reflexivity]. left. cbn. lia.
    + eapply Enough; [eapply ps_no_file; eauto| |reflexivity]. left. cbn. lia.
    + eapply Enough; [apply ps_start; intros p' Q; rewrite E in Q; discriminate| |reflexivity]. left. cbn. lia.
  - destruct (Forall_dec (fun t => gone t = true) (fun t => Bool.bool_dec (gone t) true) ts) as [A|A].
    + destruct (Bool.bool_dec r (g_stat g)) as [Q|Q].
      * eapply Enough; [apply ps_exit; auto| |reflexivity]. left. cbn. lia.
      * assert (r = false /\ g_stat g = true) as [-> G]. { destruct r; [destruct (R eq_refl); congruence|]. split; auto. now destruct (g_stat g). }
        destruct q as [|rs q].
        -- eapply Enough; [apply ps_report; auto| |reflexivity]; [eapply Forall_impl; [|exact A]; auto|]. right. split; auto. right. split; auto. unfold rest. cbn. lia.
        -- eapply Enough; [apply ps_receive; auto| |reflexivity]. right. split; auto. right. split; auto. unfold rest. cbn. lia.
    + apply neg_Forall_Exists_neg in A; [|intros t; apply Bool.bool_dec]. apply Exists_exists in A. destruct A as (t & I & NGo). apply in_split in I. destruct I as (ts1 & ts2 & ->).
      assert (O : orderly t) by (apply Forall_elt in F; auto). assert (exists a t', tester_move (g_stat g) flag t = Some (a, t')) as (a & t' & MV).
      { unfold tester_move, gone in *. destruct (te_todo t); [|eauto]. destruct O as [_ O2]. assert (In t (ts1 ++ t :: ts2)) as I by (apply in_or_app; cbn; auto). specialize (NH _ I).
        destruct (te_phase t); try congruence; [|eauto]. destruct (j_limit (te_job t)); [eauto|]. exfalso. now apply O2. }
      pose proof (ps_tester g Joining ts1 t ts2 flag q mm r l d a t' eq_refl MV) as S. destruct (step_less _ _ (settled_ok_goes _ H) S) as [E|L]; [|eapply Enough; [exact S|exact L|reflexivity]].
      exfalso. injection E as E _. apply app_inv_head in E. injection E as E. rewrite E in MV. destruct (move_less _ _ _ _ _ O MV); lia.
  - eapply Enough; [apply ps_die| |reflexivity]. left. cbn. lia.
Qed.
Theorem process_ends p : goes g start p -> (forall p', goes g p p' -> forall t, In t (p_testers p') -> te_phase t <> Hung) ->
  exists p' b, goes g p p' /\ p_main p' = Gone b /\ p_flag p' = p_flag p.
Proof.
  intros H. pose proof (process_finite _ H) as A. revert H. induction A as [p _ IH]. intros H NH.
  assert (D : (exists b, p_main p = Gone b) \/ forall b, p_main p <> Gone b) by (destruct (p_main p); eauto; right; discriminate).
  destruct D as [(b & D)|D]; [exists p, b; repeat split; auto; constructor|].
  destruct (process_onward _ H D (NH _ (go_refl _ _))) as (p1 & S & N & E). destruct (IH p1 (conj S N)) as (p' & b & G & M & E'); [eapply go_step; eauto| |].
  - intros p' G. apply NH. eapply goes_trans; [|exact G]. eapply go_step; [apply go_refl|exact S].
  - exists p', b. split; [eapply goes_trans; [eapply go_step; [apply go_refl|exact S]|exact G]|]. split; congruence.
Qed.
End Ends.
