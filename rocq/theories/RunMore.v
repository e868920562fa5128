(** Stopping, files, statistics, run-all mode, the read-eval-print loop *)
From Verif Require Import SpecRun StatProofs EvaluatorProofs TextProofs TextMore RunProofs RunTop WriterProofs AvroProofs RecordProofs ContainerProofs ParserTop.
From Coq Require Import Permutation Lia ZifyBool ZifyNat ZifyN.
Open Scope N_scope.

Lemma Forall2_refl {A} (P : A -> A -> Prop) : (forall x, P x x) -> forall l, Forall2 P l l.
Proof. intros H l. induction l; constructor; auto. Qed.

Section More.
Variables (order : list str -> list str) (name : str) (body : list expr) (c : ctx) (worlds : N -> env) (files : N -> option file).
Variables (threads maximun : N) (stat : bool).
Notation reach r := (executes order name body maximun stat (run_start c worlds files threads) r).
Notation runs := (executes order name body maximun stat).
Notation move flag t := (fst (thread_move name body maximun stat flag t)).

(** ** C57 *)
Lemma move_dead flag t : live (th_phase t) = false -> move flag t = t.
Proof. unfold thread_move. destruct (th_phase t); try discriminate; auto. Qed.
Lemma move_same flag t : th_id (move flag t) = th_id t /\ th_env (move flag t) = th_env t.
Proof. unfold thread_move. destruct (th_phase t); cbn; auto. destruct (eval_block _ _ _) as [[| | |] ?]; cbn; auto. Qed.
Lemma move_head_stopped t : th_phase t = AtHead -> move false t = Thread (th_id t) (th_env t) Finished (th_number t) (th_state t) (th_file t) (th_writes t).
Proof. unfold thread_move. now intros ->. Qed.
Lemma move_body_phase flag t : th_phase t = InBody -> th_phase (move flag t) = AtHead \/ live (th_phase (move flag t)) = false.
Proof. unfold thread_move. intros ->. destruct (eval_block _ _ _) as [[| | |] ?]; cbn; auto. Qed.
Definition stopped (t t' : thread) : Prop := t' = t \/ t' = move false t \/ t' = move false (move false t).
Lemma stopped_move t t' : stopped t t' -> live (th_phase t') = true -> stopped t (move false t').
Proof.
  intros [->|[->| ->]] L; unfold stopped; auto. exfalso. destruct (th_phase t) eqn:P.
  - rewrite (move_head_stopped t P) in L. discriminate.
  - destruct (move_body_phase false t P) as [H|D]; [rewrite (move_head_stopped _ H) in L; discriminate|rewrite (move_dead _ _ D) in L; congruence].
  - rewrite !(move_dead _ t) in L by now rewrite P. rewrite P in L. discriminate.
  - rewrite !(move_dead _ t) in L by now rewrite P. rewrite P in L. discriminate.
  - rewrite !(move_dead _ t) in L by now rewrite P. rewrite P in L. discriminate.
Qed.
Lemma stopped_run r r' : runs r r' -> run_flag r = false -> run_flag r' = false /\ Forall2 stopped (run_threads r) (run_threads r').
Proof.
  induction 1 as [r|r r1 r2 E IH S]; intros F; [split; auto; apply Forall2_refl; intros; now left|]. destruct (IH F) as [F1 T]. clear IH.
  destruct S as [ts1 t ts2 flag q m p t' sent L M|ts flag q m p|ts flag rs q m ST|ts flag m ST D]; cbn [run_threads run_flag] in *; auto.
  subst flag. split; auto. apply Forall2_app_inv_r in T. destruct T as (l1 & l2' & T1 & T2 & ->). inversion T2 as [|y ? l2 ? X T2']; subst.
  apply Forall2_app; auto. constructor; auto. apply stopped_move in X; auto. now rewrite M in X.
Qed.
Theorem run_stopped r r' : reach r -> run_flag r = false -> runs r r' -> run_flag r' = false /\
  Forall2 (fun t t' => exists bs bs' a, stands name body c files t bs a /\ stands name body c files t' bs' a /\ th_id t' = th_id t /\ th_env t' = th_env t /\
    (th_phase t <> InBody -> bs' = bs /\ th_state t' = th_state t /\ th_file t' = th_file t /\ th_phase t' <> InBody) /\
    (live (th_phase t') = false -> th_phase t = InBody -> forall v s1, eval_block (th_env t) body (th_state t) = (Ok v, s1) ->
       bs' = bs ++ [c_recs (s_ctx s1)] /\ th_number t' = th_number t + 1)) (run_threads r) (run_threads r').
Proof.
  intros R F E. destruct (stopped_run _ _ E F) as [F' T]. split; auto. apply inv_reach in R. destruct R as (C & bss & rc & G & _). rewrite F in G.
  clear -G T. revert bss G. induction T as [|t t' ts ts' S T IH]; intros bss G; [constructor|]. inversion G as [|? bs ? bss' Gt G']; subst. constructor; eauto. clear IH G G' T.
  pose proof Gt as (a & St & A & _). exists bs.
  assert (Dead : live (th_phase t) = false -> t' = t). { intros D. destruct S as [->|[->| ->]]; auto; rewrite ?move_dead; auto; now rewrite move_dead. }
  destruct (th_phase t) eqn:P; try (rewrite (Dead eq_refl); exists bs, a; rewrite ?P; repeat split; auto; discriminate).
  - (* at the head *)
    exists bs, a. assert (X : t' = t \/ t' = Thread (th_id t) (th_env t) Finished (th_number t) (th_state t) (th_file t) (th_writes t)).
    { destruct S as [->|[->| ->]]; auto; right; rewrite (move_head_stopped t P); auto. }
    destruct X as [->| ->]; [rewrite P; repeat split; auto; discriminate|]. cbn [th_id th_env th_state th_file th_phase]. split; auto. split; [|repeat split; auto; discriminate].
    destruct St as (s & I & FF & St). rewrite P in St. exists s. cbn. split; auto.
  - (* in the body *)
    destruct (thread_move name body maximun stat false t) as [t1 sent] eqn:M. unfold stopped in S. rewrite M in S. cbn [fst] in S.
    destruct (move_body_stands _ _ _ _ _ _ _ _ _ _ _ _ P M St) as (Id & En & Na & [(St1 & -> & Nu & Lv & NOk)|(rs & St1 & -> & Nu & Hd & v & s1 & Ev & ->)]).
    + (* the iteration does not complete *)
      assert (X : t' = t \/ t' = t1). { destruct S as [->|[->| ->]]; auto. right. now apply move_dead. }
      exists bs, a. destruct X as [->| ->]; [rewrite P; repeat split; auto; try discriminate; congruence|].
      repeat split; auto; try congruence; intros; exfalso; eauto.
    + assert (X : t' = t \/ t' = t1 \/ t' = Thread (th_id t1) (th_env t1) Finished (th_number t1) (th_state t1) (th_file t1) (th_writes t1)).
      { destruct S as [->|[->| ->]]; auto. right. right. now apply move_head_stopped. }
      destruct X as [->|X]; [exists bs, a; rewrite P; repeat split; auto; try discriminate; congruence|]. exists (bs ++ [c_recs (s_ctx s1)]), a.
      split; auto. split; [destruct X as [->| ->]; auto; destruct St1 as (s & I & FF & St1); rewrite Hd in St1; exists s; cbn; auto|].
      split; [destruct X as [->| ->]; auto|]. split; [destruct X as [->| ->]; auto|]. split; [congruence|].
      intros _ _ v' s1' Ev'. rewrite Ev in Ev'. injection Ev' as _ <-. split; auto. destruct X as [->| ->]; auto.
Qed.

(** ** C59 *)
Lemma numbered_nth id bs k b : nth_error (numbered name id bs) k = Some b -> exists rs, nth_error bs k = Some rs /\ b = Batch name id (N.of_nat k) rs.
Proof.
  unfold numbered. rewrite nth_error_map. intros H. destruct (nth_error (combine _ _) k) as [[i rs]|] eqn:E; [|discriminate]. injection H as <-.
  assert (G : forall n k (l : list (list record)), nth_error (combine (seq n (length l)) l) k = Some (i, rs) -> i = (n + k)%nat /\ nth_error l k = Some rs).
  { clear. intros n k l. revert n k. induction l as [|x l IH]; intros n [|k]; cbn; try discriminate; [intros [= <- <-]; split; auto; lia|]. intros H. apply IH in H. destruct H. split; auto. lia. }
  apply G in E. destruct E as [-> E]. exists rs. split; auto.
Qed.
Lemma numbered_length id bs : length (numbered name id bs) = length bs.
Proof. unfold numbered. rewrite map_length, combine_length, seq_length. lia. Qed.
Theorem thread_file r t : reach r -> In t (run_threads r) -> files (th_id t) = Some (writer_new []) -> threads <= 2 ^ 32 -> maximun < 2 ^ 32 ->
  exists f bs s, th_file t = Some f /\ iterated (worlds (th_id t)) body c (th_number t) s bs /\
    (Forall (Forall fits) bs -> small (f_data f) -> exists kvs sync blks, container (f_data f) kvs sync blks /\ N.of_nat (length blks) = th_number t /\
      forall k blk, nth_error blks k = Some blk -> exists rs, nth_error bs k = Some rs /\ fst blk = Z.of_nat (length rs) /\
        items Counted record_ty (snd blk) (d_batch name (th_id t) (N.of_nat k) rs)).
Proof.
  intros R T FI TB MB. apply inv_reach in R. destruct R as (C & bss & rc & G & _). destruct (Forall2_in_l _ _ _ _ G T) as (bs & _ & a & (s & I & FF & _) & A & _).
  destruct (crew_in _ _ _ _ C T) as [L W]. rewrite W in I. rewrite FI in FF. cbn [option_map] in FF. eexists. exists bs, s. split; [exact FF|]. split; auto. intros Fi Sm.
  pose proof (iterated_length _ _ _ _ _ _ I) as Len.
  assert (Fb : Forall fits_batch (numbered name (th_id t) bs)).
  { apply Forall_forall. intros b B. apply In_nth_error in B. destruct B as (k & B). pose proof (nth_error_Some (numbered name (th_id t) bs) k) as K. rewrite B in K. rewrite numbered_length in K.
    assert (k < length bs)%nat by (apply K; discriminate). destruct (numbered_nth _ _ _ _ B) as (rs & E & ->). unfold fits_batch. cbn [b_thread b_number b_records].
    destruct (Forall2_in_l _ _ _ _ G T) as (bs' & _ & a' & St' & A' & _). destruct (stands_number _ _ _ _ _ _ _ St') as [E' L'].
    split; [lia|]. split; [lia|]. rewrite Forall_forall in Fi. apply Fi. eapply nth_error_In; eauto. }
  change (write_batches (writer_new []) (numbered name (th_id t) bs)) with (written [] (numbered name (th_id t) bs)) in *.
  destruct (file_holds _ Fb Sm) as (kvs & sync & blks & Ct & _ & H). exists kvs, sync, blks. split; auto.
  assert (LB : length blks = length bs). { rewrite <- (numbered_length (th_id t) bs). clear -H. induction H; cbn; auto. }
  split; [lia|]. intros k blk K.
  assert (X : exists b, nth_error (numbered name (th_id t) bs) k = Some b /\ holds Counted b blk).
  { clear -H K. revert k K. induction H as [|b blk' l l' Hb H IH]; intros [|k] K; try discriminate; [injection K as <-; exists b; auto|]. apply IH in K. exact K. }
  destruct X as (b & B & HB). destruct (numbered_nth _ _ _ _ B) as (rs & E & ->). exists rs. split; auto.
Qed.
(** a thread that ended stays as it is *)
Lemma dead_stays r r' : runs r r' -> forall i t, nth_error (run_threads r) i = Some t -> live (th_phase t) = false -> nth_error (run_threads r') i = Some t.
Proof.
  induction 1 as [r|r r1 r2 E IH S]; intros i t T L; auto. specialize (IH _ _ T L). clear E T.
  destruct S as [ts1 t0 ts2 flag q m p t' sent L0 M|ts flag q m p|ts flag rs q m ST|ts flag m ST D]; cbn [run_threads] in *; auto.
  destruct (Nat.lt_trichotomy i (length ts1)) as [H|[->|H]].
  - rewrite nth_error_app1 in * by auto. auto.
  - rewrite nth_error_app2, Nat.sub_diag in * by auto. cbn in IH. injection IH as <-. congruence.
  - rewrite nth_error_app2 in * by lia. destruct (i - length ts1)%nat eqn:X; [lia|]. exact IH.
Qed.
Theorem failed_iteration r r' i t : reach r -> nth_error (run_threads r) i = Some t -> th_phase t = InBody ->
  forall e s1, eval_block (th_env t) body (th_state t) = (Err e, s1) -> runs r r' ->
  exists t', nth_error (run_threads r') i = Some t' /\
    (t' = t \/ th_phase t' = Finished /\ th_number t' = th_number t /\ th_file t' = th_file t /\
      th_state t' = St (s_ctx s1) (s_trace s1 ++ [Printed (everr_text (e_host (th_env t)) e ++ [10])])).
Proof.
  intros _ T P e s1 Ev X. assert (M : forall flag, thread_move name body maximun stat flag t =
    (Thread (th_id t) (th_env t) Finished (th_number t) (St (s_ctx s1) (s_trace s1 ++ [Printed (everr_text (e_host (th_env t)) e ++ [10])])) (th_file t) (th_writes t), None)).
  { intros flag. unfold thread_move. rewrite P, Ev. reflexivity. }
  set (t1 := Thread (th_id t) _ _ _ _ _ _) in M.
  assert (G : nth_error (run_threads r') i = Some t \/ nth_error (run_threads r') i = Some t1); [|destruct G as [G|G]; [exists t; auto|exists t1; repeat split; auto]].
  induction X as [r|r r1 r2 E IH S]; [auto|]. specialize (IH T). destruct IH as [IH|IH].
  - destruct S as [ts1 t0 ts2 flag q m p t' sent L0 M'|ts flag q m p|ts flag rs q m ST|ts flag m ST D]; cbn [run_threads] in *; auto.
    destruct (Nat.lt_trichotomy i (length ts1)) as [H|[->|H]].
    + rewrite nth_error_app1 in * by auto. auto.
    + rewrite nth_error_app2, Nat.sub_diag in * by auto. cbn in *. injection IH as ->. rewrite M in M'. injection M' as <- _. auto.
    + rewrite nth_error_app2 in * by lia. destruct (i - length ts1)%nat eqn:Y; [lia|]. auto.
  - right. eapply dead_stays; [eapply ex_step; [apply ex_refl|exact S]|exact IH|reflexivity].
Qed.
End More.

(** ** C60 *)
Lemma show_gather order l : (forall ks, Permutation (order ks) ks) -> stat_report l (show_stats order (gather l)).
Proof.
  intros O. unfold show_stats. set (ks := order (map fst (gather l))). assert (P : Permutation ks (map fst (gather l))) by apply O. clearbody ks.
  assert (ND : NoDup ks) by (eapply Permutation_NoDup; [apply Permutation_sym, P|apply gather_keys_nodup]).
  assert (K : forall n, In n ks <-> In n (map fst l)). { intros n. rewrite <- gather_keys. split; apply Permutation_in; auto using Permutation_sym. }
  exists (map (fun k => (k, match mget k (gather l) with Some s => s | None => stat_new 0 end)) ks).
  assert (E : map fst (map (fun k => (k, match mget k (gather l) with Some s => s | None => stat_new 0 end)) ks) = ks) by (rewrite map_map; cbn [fst]; apply map_id).
  rewrite E. split; auto. split; auto.
  assert (S : forall k, In k ks -> exists s, mget k (gather l) = Some s /\ summary (samples_of k l) s).
  { intros k Ik. pose proof (stats_exact l k) as X. apply K in Ik. rewrite <- gather_keys in Ik. destruct (samples_of k l) as [|x xs] eqn:Y; [|exact X].
    exfalso. apply mget_none in X. contradiction. }
  split.
  - apply Forall_forall. intros p Ip. apply in_map_iff in Ip. destruct Ip as (k & <- & Ik). cbn [fst snd]. destruct (S k Ik) as (s & -> & H). exact H.
  - clear -S. induction ks as [|k ks IH]; cbn [flat_map map List.concat]; auto. rewrite <- IH by (intros; apply S; now right). destruct (S k (or_introl eq_refl)) as (s & -> & _). cbn [fst snd]. unfold show_stat, stat_line. rewrite <- !app_assoc. reflexivity.
Qed.
Lemma report_perm l l' text : Permutation l l' -> stat_report l text -> stat_report l' text.
Proof.
  intros P (lines & ND & K & F & E). exists lines. split; auto. split; [|split; auto].
  - intros n. rewrite K. split; apply Permutation_in, Permutation_map; auto using Permutation_sym.
  - eapply Forall_impl; [|exact F]. intros p (A & B & C & D & G & H & I). pose proof (samples_perm (fst p) _ _ P) as Q.
    repeat split; try tauto.
    + rewrite A. now rewrite (Permutation_length Q).
    + rewrite B. now apply total_perm.
    + now apply (Permutation_in _ Q).
    + rewrite <- Q. exact D.
    + now apply (Permutation_in _ Q).
    + rewrite <- Q. exact H.
Qed.
Section Stats.
Variables (name : str) (body : list expr) (c : ctx) (worlds : N -> env) (files : N -> option file) (threads maximun : N) (stat : bool).
Notation reach order r := (executes order name body maximun stat (run_start c worlds files threads) r).
Theorem printed_stats order r text : (forall ks, Permutation (order ks) ks) -> reach order r -> run_stat_phase r = Printed_ text ->
  ended r /\ exists bss, Forall2 (fun t bs => exists a, stands name body c files t bs a) (run_threads r) bss /\ stat_report (flat_map samples (List.concat bss)) text.
Proof.
  intros O R P. apply inv_reach in R. destruct R as (C & bss & rc & G & Q & Gs & Pr). destruct (Pr _ P) as (-> & E & Qe & ->). split; auto. exists bss. split.
  - clear -G. induction G as [|t bs ts bss (a & S & _) G IH]; constructor; eauto.
  - rewrite Qe, app_nil_r in Q. rewrite Gs. eapply report_perm; [|apply show_gather; auto]. apply Permutation_flat_map. now apply Permutation_sym.
Qed.
(** the batches of a thread that was not stopped *)
Lemma final_batches t t' bs bs' : good name body c files maximun true t bs -> good name body c files maximun true t' bs' ->
  live (th_phase t) = false -> live (th_phase t') = false -> th_env t = th_env t' -> bs = bs'.
Proof.
  assert (X : forall t bs, good name body c files maximun true t bs -> live (th_phase t) = false ->
    exists s, iterated (th_env t) body c (th_number t) s bs /\ th_number t <= maximun /\ (th_number t = maximun \/ ~ exists v s1, eval_block (th_env t) body s = (Ok v, s1))).
  { clear. intros t bs (a & (s & I & _ & S) & A & Z) L. exists s. split; auto. destruct (th_phase t) eqn:P; try discriminate.
    - destruct S as [[_ ->]|(e & s1 & E & -> & _)]; [split; auto; left; destruct (Z eq_refl eq_refl); lia|]. split; [lia|]. right. intros (v & s2 & H). congruence.
    - destruct S as [E ->]. split; [lia|]. right. intros (v & s2 & H). congruence.
    - destruct S as [E ->]. split; [lia|]. right. intros (v & s2 & H). congruence. }
  intros G G' L L' W. destruct (X _ _ G L) as (s & I & B & D). destruct (X _ _ G' L') as (s' & I' & B' & D'). rewrite <- W in *.
  destruct (N.lt_trichotomy (th_number t) (th_number t')) as [H|[H|H]].
  - exfalso. destruct D as [D|D]; [lia|]. apply D. exact (iterated_before _ _ _ _ _ _ I' _ _ _ I H).
  - rewrite <- H in I'. now destruct (iterated_fun _ _ _ _ _ _ I _ _ I').
  - exfalso. destruct D' as [D'|D']; [lia|]. apply D'. exact (iterated_before _ _ _ _ _ _ I _ _ _ I' H).
Qed.
Theorem stats_schedule order order' r r' text text' : (forall ks, Permutation (order ks) ks) -> (forall ks, Permutation (order' ks) ks) ->
  reach order r -> reach order' r' -> run_stat_phase r = Printed_ text -> run_stat_phase r' = Printed_ text' -> run_flag r = true -> run_flag r' = true ->
  exists l, stat_report l text /\ stat_report l text'.
Proof.
  intros O O' R R' P P' FL FL'. apply inv_reach in R, R'. destruct R as ((C1 & C2) & bss & rc & G & Q & Gs & Pr). destruct R' as ((C1' & C2') & bss' & rc' & G' & Q' & Gs' & Pr').
  destruct (Pr _ P) as (-> & E & Qe & ->). destruct (Pr' _ P') as (_ & E' & Qe' & ->). rewrite FL in G. rewrite FL' in G'. unfold ended in *.
  assert (X : bss = bss').
  { rewrite <- C1' in C1. clear -C1 C2 C2' G G' E E'. revert bss' G' C1 C2' E' C2 E. generalize (run_threads r') as ts'. induction G as [|t bs ts bss Gt G IH]; intros ts' bss' G' C1 C2' E' C2 E; destruct G' as [|t' bs' ts' bss' Gt' G']; try discriminate; auto.
    injection C1 as I C1. inversion C2; subst. inversion C2'; subst. inversion E; subst. inversion E'; subst. f_equal; [|eapply IH; eauto]. eapply final_batches; eauto. congruence. }
  subst bss'. exists (flat_map samples (List.concat bss)). rewrite Qe, app_nil_r in Q. rewrite Qe', app_nil_r in Q'.
  split; [rewrite Gs|rewrite Gs']; (eapply report_perm; [|apply show_gather; auto]); apply Permutation_flat_map; now apply Permutation_sym.
Qed.
End Stats.

(** ** C58: what a thread does depends on nothing but its own world *)
Theorem threads_isolated order order' name body c worlds worlds' files files' threads threads' maximun maximun' stat stat' r r' t t' :
  executes order name body maximun stat (run_start c worlds files threads) r -> executes order' name body maximun' stat' (run_start c worlds' files' threads') r' ->
  In t (run_threads r) -> In t' (run_threads r') -> th_id t = th_id t' -> worlds (th_id t) = worlds' (th_id t) -> files (th_id t) = files' (th_id t) ->
  th_number t = th_number t' -> live (th_phase t) = true -> live (th_phase t') = true ->
  th_state t = th_state t' /\ th_file t = th_file t'.
Proof.
  intros R R' T T' Id W Fi Nu L L'. apply inv_reach in R, R'. destruct R as (C & bss & rc & G & _). destruct R' as (C' & bss' & rc' & G' & _).
  destruct (Forall2_in_l _ _ _ _ G T) as (bs & _ & a & (s & I & FF & S) & _). destruct (Forall2_in_l _ _ _ _ G' T') as (bs' & _ & a' & (s' & I' & FF' & S') & _).
  destruct (crew_in _ _ _ _ C T) as [_ X]. destruct (crew_in _ _ _ _ C' T') as [_ X']. rewrite <- Id in *. rewrite <- W in X'. rewrite X' in I'. rewrite X, Nu in I. destruct (iterated_fun _ _ _ _ _ _ I _ _ I') as [<- <-].
  split; [|rewrite FF, FF', Fi; reflexivity]. destruct (th_phase t); try discriminate; destruct (th_phase t'); try discriminate; destruct S, S'; congruence.
Qed.

(** ** C61 *)
Lemma once_spec w c f name id body : ran_once w c f name id body (run_once w c f name id body).
Proof.
  unfold run_once, ctx_clone. destruct (eval_block w body _) as [[v|e| |] s1] eqn:E.
  - unfold ctx_records. rewrite print_records. cbn [s_ctx s_trace]. change (map _ (c_recs (s_ctx s1))) with ([] ++ map (fun r => Printed (show_record r ++ [10])) (c_recs (s_ctx s1))).
    eapply ro_result; [exact E|]. left. eauto.
  - unfold ctx_records. rewrite print_records. unfold println_, emit. cbn [s_ctx s_trace]. rewrite <- app_assoc. eapply ro_result; [exact E|]. right. eauto.
  - eapply ro_none; eauto.
  - eapply ro_none; eauto.
Qed.
Lemma once_unique w c f name id body x y : ran_once w c f name id body x -> ran_once w c f name id body y -> x = y.
Proof.
  intros [r s1 p E H|r s1 E H] [r' s1' p' E' H'|r' s1' E' H']; rewrite E in E'; injection E' as <- <-; auto.
  - assert (p = p'). { destruct H as [(v & -> & ->)|(e & -> & ->)], H' as [(v' & X & ->)|(e' & X & ->)]; auto; try discriminate. now injection X as <-. } now subst.
  - destruct H as [(v & -> & _)|(e & -> & _)], H'; discriminate.
  - destruct H' as [(v & -> & _)|(e & -> & _)], H; discriminate.
Qed.
Theorem run_all_tests worlds files c tests : map fst (run_all_from worlds files c 0 tests) = map fst tests /\
  forall i n x, nth_error (run_all_from worlds files c 0 tests) i = Some (n, x) <->
    exists body, nth_error tests i = Some (n, body) /\ ran_once (worlds (N.of_nat i)) c (files (N.of_nat i)) n (N.of_nat i) body x.
Proof.
  split.
  - generalize 0. induction tests as [|[n b] ts IH]; intros k; cbn [run_all_from map fst]; auto. now rewrite IH.
  - assert (G : forall k i n x, nth_error (run_all_from worlds files c k tests) i = Some (n, x) <->
      exists body, nth_error tests i = Some (n, body) /\ ran_once (worlds (k + N.of_nat i)) c (files (k + N.of_nat i)) n (k + N.of_nat i) body x).
    { induction tests as [|[n0 b] ts IH]; intros k i n x; [destruct i; cbn; split; try discriminate; intros (? & X & _); discriminate|]. destruct i as [|i]; cbn [run_all_from nth_error].
      - replace (k + N.of_nat 0) with k by lia. split; [intros [= <- <-]; exists b; split; auto; apply once_spec|]. intros (b' & [= <- <-] & H). f_equal. f_equal.
        eapply once_unique; [apply once_spec|exact H].
      - rewrite IH. now replace (k + 1 + N.of_nat i) with (k + N.of_nat (S i)) by lia. }
    intros i n x. exact (G 0 i n x).
Qed.
Theorem setup_tests w text tests c s : test_setup w text = (Ok (Some (tests, c)), s) -> exists src v s1, parse text = Ok src /\ tests = s_tests src /\ NoDup (map fst tests) /\
  eval_block w (s_exprs src) (St (Ctx [] (mextend [] (s_requests src)) []) []) = (Ok v, s1) /\ c = s_ctx s1 /\ s = s1.
Proof.
  unfold test_setup. destruct (parse text) as [src|e| |] eqn:P; try discriminate. unfold upd, ctx_extend. cbn [s_ctx s_trace c_vars c_reqs c_recs ctx_new].
  destruct (eval_block w (s_exprs src) _) as [[v|e| |] s1] eqn:E; try discriminate. intros [= <- <- <-]. exists src, v, s1. repeat split; auto.
  destruct (collected _ _ P) as (is & wd & _ & _ & _ & _ & _ & _ & ND). exact ND.
Qed.

(** ** C62 *)
Lemma line_spec w text s : line_done w text s (match command_eval w text s with (Ok _, s') => LPrinted s' | (Panic, s') => LPanic s' | (Diverge, s') => LHang s' | (Err _, s') => LHang s' end).
Proof.
  unfold command_eval, upd, ctx_extend. destruct (parse text) as [src|e| |] eqn:P; [|apply ld_syntax; auto|apply ld_parse_panic; auto|apply ld_parse_hang; auto].
  destruct (eval_block w (s_exprs src) _) as [[v|e| |] s1] eqn:E.
  - eapply ld_value; eauto.
  - eapply ld_error; eauto.
  - eapply ld_panic; eauto.
  - eapply ld_hang; eauto.
Qed.
Lemma line_unique w text s x y : line_done w text s x -> line_done w text s y -> x = y.
Proof. intros A B. destruct A; inversion B; congruence. Qed.
Lemma line_ok w text s s' : line_done w text s (LPrinted s') <-> command_eval w text s = (Ok tt, s').
Proof.
  split; intros H.
  - pose proof (line_unique _ _ _ _ _ H (line_spec w text s)) as E. destruct (command_eval w text s) as [[[]|e| |] s0]; try discriminate. now injection E as <-.
  - pose proof (line_spec w text s) as X. rewrite H in X. exact X.
Qed.
Lemma exit_not_blank : ~ blank (lit "exit").
Proof. rewrite <- trim_blank. discriminate. Qed.
Lemma session_repl w ls s s' rest : session w ls s s' -> repl w (ls ++ rest) s = repl w rest s'.
Proof.
  induction 1 as [|ls s s' S IH|l ls s s' B S IH|l ls s s1 s' NB NE L S IH]; cbn [app repl]; auto.
  - destruct (str_eqb l (lit "exit")) eqn:E; [apply str_eqb_eq in E; subst; now apply exit_not_blank in B|]. apply trim_blank in B. now rewrite B.
  - destruct (str_eqb l (lit "exit")) eqn:E; [apply str_eqb_eq in E; contradiction|]. destruct (trim l) eqn:T; [apply trim_blank in T; contradiction|].
    apply line_ok in L. now rewrite L.
Qed.
Theorem repl_result w input s : exists pre rest s0, input = pre ++ rest /\ session w pre s s0 /\
  ((rest = [] /\ repl w input s = (Diverge, s0)) \/
   (exists more, rest = Some (lit "exit") :: more /\ repl w input s = (Ok tt, s0)) \/
   (exists l more s1, rest = Some l :: more /\ ~ blank l /\ l <> lit "exit" /\
     ((line_done w l s0 (LPanic s1) /\ repl w input s = (Panic, s1)) \/ (line_done w l s0 (LHang s1) /\ repl w input s = (Diverge, s1))))).
Proof.
  revert s. induction input as [|[l|] ls IH]; intros s.
  - exists [], [], s. split; auto. split; [constructor|]. left. auto.
  - cbn [repl]. destruct (str_eqb l (lit "exit")) eqn:E.
    + apply str_eqb_eq in E. subst l. exists [], (Some (lit "exit") :: ls), s. split; auto. split; [constructor|]. right. left. eauto.
    + assert (NE : l <> lit "exit") by (intros ->; now rewrite str_eqb_refl in E). destruct (trim l) as [|x xs] eqn:T.
      * apply trim_blank in T. destruct (IH s) as (pre & rest & s0 & -> & S & H). exists (Some l :: pre), rest, s0. split; auto. split; [now apply se_blank|exact H].
      * assert (NB : ~ blank l) by (intros B; apply trim_blank in B; congruence). pose proof (line_spec w l s) as L. destruct (command_eval w l s) as [[[]|e| |] s1] eqn:CE.
        -- destruct (IH s1) as (pre & rest & s0 & -> & S & H). exists (Some l :: pre), rest, s0. split; auto. split; [eapply se_line; eauto|exact H].
        -- exfalso. clear -CE. unfold command_eval in CE. destruct (parse l); try discriminate. destruct (eval_block _ _ _) as [[| | |] ?]; discriminate.
        -- exists [], (Some l :: ls), s. split; auto. split; [constructor|]. right. right. exists l, ls, s1. repeat split; auto.
        -- exists [], (Some l :: ls), s. split; auto. split; [constructor|]. right. right. exists l, ls, s1. repeat split; auto.
  - destruct (IH s) as (pre & rest & s0 & -> & S & H). exists (None :: pre), rest, s0. split; auto. split; [now apply se_unreadable|exact H].
Qed.
Theorem repl_exit w pre more s s' : session w pre s s' -> repl w (pre ++ Some (lit "exit") :: more) s = (Ok tt, s').
Proof. intros S. rewrite (session_repl _ _ _ _ _ S). reflexivity. Qed.
Theorem repl_parts w a b s s' : session w (a ++ b) s s' <-> exists s1, session w a s s1 /\ session w b s1 s'.
Proof.
  split.
  - revert s. induction a as [|[l|] a IH]; intros s H; cbn [app] in H.
    + exists s. split; [constructor|auto].
    + inversion H; subst.
      * destruct (IH s) as (s1 & A & B); auto. exists s1. split; auto. now apply se_blank.
      * match goal with X : session w (a ++ b) ?s2 s' |- _ => destruct (IH s2 X) as (s1' & A & B) end. exists s1'. split; auto. eapply se_line; eauto.
    + inversion H; subst. destruct (IH s) as (s1 & A & B); auto. exists s1. split; auto. now apply se_unreadable.
  - intros (s1 & A & B). induction A; cbn [app]; auto; [now apply se_unreadable; auto|now apply se_blank; auto|eapply se_line; eauto].
Qed.
Theorem repl_line w l s e : parse l = Err e -> forall s', line_done w l s (LPrinted s') -> s_ctx s' = s_ctx s.
Proof. intros P s' L. inversion L; subst; try congruence. reflexivity. Qed.
