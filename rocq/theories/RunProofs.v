(** Threads of a run *)
From Verif Require Import SpecRun StatProofs EvaluatorProofs TextProofs.
From Coq Require Import Permutation Lia ZifyBool ZifyNat ZifyN.
Open Scope N_scope.

(** ** lists *)
Lemma Forall2_split {A B} (P : A -> B -> Prop) l1 x l2 m : Forall2 P (l1 ++ x :: l2) m ->
  exists m1 y m2, m = m1 ++ y :: m2 /\ Forall2 P l1 m1 /\ P x y /\ Forall2 P l2 m2.
Proof.
  intros F. apply Forall2_app_inv_l in F. destruct F as (m1 & m2' & F1 & F2 & ->). inversion F2 as [|? y ? m2 X F2']; subst. eauto 10.
Qed.
Lemma combine_app' {A B} (a a' : list A) (b b' : list B) : length a = length b -> combine (a ++ a') (b ++ b') = combine a b ++ combine a' b'.
Proof. revert b. induction a as [|x a IH]; intros [|y b] E; try discriminate; auto. cbn. f_equal. apply IH. now injection E. Qed.
Lemma numbered_snoc name id bs b : numbered name id (bs ++ [b]) = numbered name id bs ++ [Batch name id (N.of_nat (length bs)) b].
Proof.
  unfold numbered. rewrite app_length, Nat.add_comm. cbn [length Nat.add]. rewrite seq_S, Nat.add_0_l.
  rewrite combine_app' by now rewrite seq_length. rewrite map_app. reflexivity.
Qed.
Lemma iterated_length w body c k s bs : iterated w body c k s bs -> k = N.of_nat (length bs).
Proof. induction 1; auto. rewrite app_length, Nat2N.inj_add, <- IHiterated. reflexivity. Qed.
Lemma iterated_fun w body c k s bs : iterated w body c k s bs -> forall s' bs', iterated w body c k s' bs' -> s = s' /\ bs = bs'.
Proof.
  induction 1 as [|k s bs v s1 I IH E]; intros s' bs' H; inversion H as [|k' s'' bs'' v' s1' I' E' K]; subst; auto; try lia.
  assert (k' = k) by lia. subst k'. destruct (IH _ _ I') as [<- <-]. rewrite E in E'. injection E' as _ <-. auto.
Qed.
Lemma iterated_before w body c k s bs : iterated w body c k s bs -> forall j sj bj, iterated w body c j sj bj -> j < k -> exists v s1, eval_block w body sj = (Ok v, s1).
Proof.
  induction 1 as [|k s bs v s1 I IH E]; intros j sj bj J L; [lia|]. destruct (N.eq_dec j k) as [->|NE].
  - destruct (iterated_fun _ _ _ _ _ _ I _ _ J) as [<- _]. eauto.
  - apply (IH j sj bj J). lia.
Qed.
Lemma print_records rs : forall s, fold_left (fun s r => println_ (show_record r) s) rs s =
  St (s_ctx s) (s_trace s ++ map (fun r => Printed (show_record r ++ [10])) rs).
Proof.
  induction rs as [|r rs IH]; intros s; cbn [fold_left map]; [rewrite app_nil_r; now destruct s|]. rewrite IH. unfold println_, emit. cbn [s_ctx s_trace].
  now rewrite <- app_assoc.
Qed.

(** ** one thread *)
Lemma stands_number name body c files t bs a : stands name body c files t bs a -> th_number t = N.of_nat (length bs) /\ (a = th_number t \/ a = th_number t + 1).
Proof.
  intros (s & I & _ & P). split; [eapply iterated_length; eauto|]. destruct (th_phase t); try (destruct P; tauto).
  destruct P as [[_ ->]|(e & s1 & _ & -> & _)]; auto.
Qed.

Section Thread.
Variables (name : str) (body : list expr) (c : ctx) (files : N -> option file) (maximun : N) (stat : bool).
(** the invariant of a thread *)
Definition good (flag : bool) (t : thread) (bs : list (list record)) : Prop :=
  exists a, stands name body c files t bs a /\ a <= maximun /\
    (flag = true -> th_phase t = Finished -> a = maximun \/ a = th_number t + 1).
Lemma move_head flag t t' sent bs : th_phase t = AtHead -> thread_move name body maximun stat flag t = (t', sent) -> good flag t bs ->
  good flag t' bs /\ sent = None /\ th_id t' = th_id t /\ th_env t' = th_env t /\ th_number t' = th_number t /\
  ((th_phase t' = InBody /\ flag = true /\ th_number t < maximun) \/ (th_phase t' = Finished /\ (flag = false \/ maximun <= th_number t))).
Proof.
  intros P M (a & (s & I & F & S) & A & Z). unfold thread_move in M. rewrite P in *. destruct S as [S ->]. injection M as <- <-. cbn [th_id th_env th_number th_phase].
  destruct (flag && (th_number t <? maximun)) eqn:G.
  - apply andb_prop in G. destruct G as [-> G]. split; [|split; [|split; [|split; [|split]]]]; auto; [|left; repeat split; auto; lia].
    exists (th_number t + 1). split; [|split; [lia|discriminate]]. exists s. repeat split; auto.
  - split; [|split; [|split; [|split; [|split]]]]; auto; [|right; split; auto; destruct flag; [right; cbn in G; lia|now left]].
    exists (th_number t). split; [|split; [lia|]]; [exists s; split; [exact I|split; [exact F|left; split; [exact S|reflexivity]]]|]. intros -> _. cbn in G. cbn [th_number]. lia.
Qed.
Lemma move_body_stands flag t t' sent bs a : th_phase t = InBody -> thread_move name body maximun stat flag t = (t', sent) -> stands name body c files t bs a ->
  th_id t' = th_id t /\ th_env t' = th_env t /\ a = th_number t + 1 /\
  ((stands name body c files t' bs a /\ sent = None /\ th_number t' = th_number t /\ live (th_phase t') = false /\ ~ exists v s1, eval_block (th_env t) body (th_state t) = (Ok v, s1)) \/
   exists rs, stands name body c files t' (bs ++ [rs]) a /\ sent = (if stat then Some rs else None) /\ th_number t' = th_number t + 1 /\ th_phase t' = AtHead /\
     exists v s1, eval_block (th_env t) body (th_state t) = (Ok v, s1) /\ rs = c_recs (s_ctx s1)).
Proof.
  intros P M (s & I & F & S). unfold thread_move in M. rewrite P in *. destruct S as [S ->]. subst s.
  destruct (eval_block (th_env t) body (th_state t)) as [[v|e| |] s1] eqn:E.
  - unfold ctx_records in M. rewrite print_records in M. injection M as <- <-. cbn [th_id th_env th_number th_phase s_ctx s_trace]. split; auto. split; auto. split; auto. right.
    exists (c_recs (s_ctx s1)). split; [|split; [|split; [|split; [|eauto]]]]; auto.
    eexists. split; [cbn [th_env th_number]; eapply it_next; eauto|]. cbn [th_file th_id th_phase th_state th_number]. split; auto.
    rewrite F, numbered_snoc, <- (iterated_length _ _ _ _ _ _ I). destruct (files (th_id t)); cbn [option_map]; auto.
    unfold write_batches. rewrite fold_left_app. cbn [fold_left b_records b_name b_thread b_number]. reflexivity.
  - injection M as <- <-. cbn [th_id th_env th_number th_phase live]. split; auto. split; auto. split; auto. left. split; [|split; [|split; [|split]]]; auto; [|intros (v & s2 & X); discriminate].
    exists (th_state t). cbn [th_env th_number th_file th_id th_phase th_state]. split; auto. split; auto.
    right. exists e, s1. auto.
  - injection M as <- <-. cbn [th_id th_env th_number th_phase live]. split; auto. split; auto. split; auto. left. split; [|split; [|split; [|split]]]; auto; [|intros (v & s2 & X); discriminate].
    exists (th_state t). cbn [th_env th_number th_file th_id th_phase th_state]. auto.
  - injection M as <- <-. cbn [th_id th_env th_number th_phase live]. split; auto. split; auto. split; auto. left. split; [|split; [|split; [|split]]]; auto; [|intros (v & s2 & X); discriminate].
    exists (th_state t). cbn [th_env th_number th_file th_id th_phase th_state]. auto.
Qed.
Lemma move_body flag t t' sent bs : th_phase t = InBody -> thread_move name body maximun stat flag t = (t', sent) -> good flag t bs ->
  th_id t' = th_id t /\ th_env t' = th_env t /\
  ((good flag t' bs /\ sent = None /\ th_number t' = th_number t /\ live (th_phase t') = false /\ ~ exists v s1, eval_block (th_env t) body (th_state t) = (Ok v, s1)) \/
   exists rs, good flag t' (bs ++ [rs]) /\ sent = (if stat then Some rs else None) /\ th_number t' = th_number t + 1 /\ th_phase t' = AtHead /\
     exists v s1, eval_block (th_env t) body (th_state t) = (Ok v, s1) /\ rs = c_recs (s_ctx s1)).
Proof.
  intros P M (a & S & A & Z). destruct (move_body_stands _ _ _ _ _ _ P M S) as (Id & En & Na & [(S' & Se & Nu & L & X)|(rs & S' & Se & Nu & H & X)]).
  - split; auto. split; auto. left. split; auto. exists a. split; auto. split; auto. intros _ _. right. lia.
  - split; auto. split; auto. right. exists rs. split; auto. exists a. split; auto. split; auto. rewrite H. discriminate.
Qed.
Lemma good_stop flag t bs : good flag t bs -> good false t bs.
Proof. intros (a & S & A & _). exists a. split; auto. split; auto. discriminate. Qed.
End Thread.

(** ** statistics of batches *)
Lemma gather_records m rs : stats_add_records m rs = fold_left (fun m p => stats_add m (fst p) (snd p)) (samples rs) m.
Proof. unfold stats_add_records, samples. revert m. induction rs as [|r rs IH]; intros m; cbn [fold_left map fst snd]; auto. Qed.
Lemma gather_more l rs : stats_add_records (gather l) rs = gather (l ++ samples rs).
Proof. rewrite gather_records. unfold gather. now rewrite fold_left_app. Qed.
Lemma gather_keys l n : In n (map fst (gather l)) <-> In n (map fst l).
Proof.
  pose proof (stats_exact l n) as E. assert (K : In n (map fst (gather l)) <-> mget n (gather l) <> None).
  { rewrite mget_none. destruct (in_dec (list_eq_dec N.eq_dec) n (map fst (gather l))); tauto. }
  rewrite K. assert (S : In n (map fst l) <-> samples_of n l <> []).
  { clear. unfold samples_of. induction l as [|p l IH]; cbn [map flat_map In]; [tauto|]. match goal with |- context [if ?d then _ else _] => destruct d as [Q|NE] end.
    - cbn [app]. split; [intros _; discriminate|intros _; left; symmetry; exact Q].
    - cbn [app]. rewrite <- IH. split; [|intros; right; auto]. intros [X|X]; auto. exfalso. apply NE. symmetry. exact X. }
  rewrite S. destruct (samples_of n l); [rewrite E; tauto|]. destruct E as (s & -> & _). split; discriminate.
Qed.

(** ** the run *)
Section Run.
Variables (order : list str -> list str) (name : str) (body : list expr) (c : ctx) (worlds : N -> env) (files : N -> option file).
Variables (threads maximun : N) (stat : bool).
Definition inv (r : run) : Prop :=
  crew worlds threads (run_threads r) /\
  exists bss received,
    Forall2 (good name body c files maximun (run_flag r)) (run_threads r) bss /\
    Permutation (if stat then List.concat bss else []) (received ++ run_queue r) /\
    run_stats r = gather (flat_map samples received) /\
    (forall text, run_stat_phase r = Printed_ text -> stat = true /\ ended r /\ run_queue r = [] /\ text = show_stats order (run_stats r)).
Lemma start_stands n : forall id, Forall2 (good name body c files maximun true) (start_threads c worlds files id n) (repeat [] n).
Proof.
  induction n as [|n IH]; intros id; cbn [start_threads repeat]; constructor; auto. exists 0. split; [|split; [lia|discriminate]].
  eexists. split; [apply it_start|]. cbn. split; auto. now destruct (files id).
Qed.
Lemma inv_start : inv (run_start c worlds files threads).
Proof.
  unfold run_start. split; cbn [run_threads].
  - unfold crew. generalize (N.to_nat threads) as n. intros n. split.
    + assert (G : forall id k, id = N.of_nat k -> map th_id (start_threads c worlds files id n) = map N.of_nat (seq k n)); [|now apply G].
      induction n as [|n IH]; intros id k ->; cbn [start_threads map seq start_thread th_id]; auto. f_equal. apply IH. lia.
    + generalize 0 as id. induction n as [|n IH]; intros id; cbn [start_threads]; constructor; auto.
  - exists (repeat [] (N.to_nat threads)), []. cbn [run_flag run_queue run_stats run_stat_phase app flat_map]. split; [apply start_stands|]. split; [|split; [reflexivity|discriminate]].
    assert (E : List.concat (repeat (@nil (list record)) (N.to_nat threads)) = []) by (generalize (N.to_nat threads) as n; induction n; cbn; auto).
    rewrite E. destruct stat; constructor.
Qed.
Lemma inv_step r r' : inv r -> run_step order name body maximun stat r r' -> inv r'.
Proof.
  intros (C & bss & rc & F & Q & G & P) S. destruct S as [ts1 t ts2 flag q m p t' sent L M|ts flag q m p|ts flag rs q m ST|ts flag m ST D];
    unfold inv; cbn [run_threads run_flag run_queue run_stats run_stat_phase] in *.
  - apply Forall2_split in F. destruct F as (b1 & bs & b2 & -> & F1 & Gt & F2).
    assert (N : forall text, p <> Printed_ text).
    { intros text ->. destruct (P text eq_refl) as (_ & E & _). unfold ended in E. cbn [run_threads] in E. apply Forall_elt in E. congruence. }
    assert (X : th_id t' = th_id t /\ th_env t' = th_env t /\ exists bs', good name body c files maximun flag t' bs' /\
      ((sent = None /\ (bs' = bs \/ stat = false)) \/ exists rs, sent = Some rs /\ stat = true /\ bs' = bs ++ [rs])).
    { destruct (th_phase t) eqn:PH; try discriminate.
      - destruct (move_head _ _ _ _ _ _ _ _ _ _ _ PH M Gt) as (Gt' & -> & I & E & _). split; auto. split; auto. exists bs. auto.
      - destruct (move_body _ _ _ _ _ _ _ _ _ _ _ PH M Gt) as (I & E & [(Gt' & -> & _)|(rs & Gt' & -> & _)]); split; auto; split; auto; [exists bs; auto|].
        exists (bs ++ [rs]). split; auto. destruct stat; [right; eauto|left; auto]. }
    destruct X as (I & E & bs' & Gt' & X). split.
    + destruct C as [C1 C2]. rewrite map_app in C1. split; [rewrite map_app; cbn [map]; rewrite I; exact C1|].
      apply Forall_app in C2. destruct C2 as [C2 C3]. inversion C3; subst. apply Forall_app. split; auto. constructor; auto. congruence.
    + exists (b1 ++ bs' :: b2), rc. split; [apply Forall2_app; auto|]. split; [|split; [exact G|intros text T; now apply N in T]].
      destruct X as [(-> & [->|SF])|(rs & -> & ST & ->)].
      * exact Q.
      * rewrite SF in *. exact Q.
      * rewrite ST in *. rewrite concat_app in *. cbn [List.concat] in *. rewrite <- !app_assoc. rewrite app_assoc. rewrite app_assoc in Q.
        etransitivity; [|rewrite app_assoc; apply Permutation_app_tail, Q].
        rewrite <- (app_assoc _ (List.concat b2)). apply Permutation_app_head, Permutation_app_comm.
  - split; auto. exists bss, rc. split; [|split; [|split]]; auto. clear -F. induction F; constructor; eauto using good_stop.
  - split; auto. exists bss, (rc ++ [rs]). split; [|split; [|split]]; auto.
    + rewrite <- app_assoc. exact Q.
    + rewrite G, flat_map_app. cbn [flat_map]. rewrite app_nil_r. apply gather_more.
    + discriminate.
  - split; auto. exists bss, rc. split; [|split; [|split]]; auto. intros text [= <-]. split; [|split; [|split]]; auto. unfold ended. cbn [run_threads]. apply Forall_forall. intros t T. now apply D.
Qed.
Lemma inv_reach r : executes order name body maximun stat (run_start c worlds files threads) r -> inv r.
Proof. remember (run_start c worlds files threads) as r0 eqn:R. induction 1; subst; [apply inv_start|]. eapply inv_step; eauto. Qed.
End Run.
