(** More assertions change nothing but the reports *)
From Coq Require Import Lia.
From Verif Require Import TextProofs SyntaxProofs EvaluatorProofs EvaluatorTop RunProofs ProcessProofs LockstepProofs SpecProcess SpecPace SpecAdded.
Open Scope N_scope.

(** ** the evaluator *)
Definition more_record (r r' : record) : Prop :=
  r_name r = r_name r' /\ r_time r = r_time r' /\ among (r_asserts r) (r_asserts r').
Definition more_request (a b : str * (str * list expr)) : Prop := fst a = fst b /\ fst (snd a) = fst (snd b) /\ more_checks (snd (snd a)) (snd (snd b)).
Record more_ctx (c c' : ctx) : Prop := {
  mo_vars : c_vars c = c_vars c';
  mo_reqs : Forall2 more_request (c_reqs c) (c_reqs c');
  mo_recs : Forall2 more_record (c_recs c) (c_recs c')
}.
Record more_st (s s' : st) : Prop := {
  mo_ctx : more_ctx (s_ctx s) (s_ctx s');
  mo_trace : Forall2 same_event_or_more (s_trace s) (s_trace s')
}.
Lemma among_refl {A} (l : list A) : among l l.
Proof. induction l; now constructor. Qed.
Lemma event_more e : same_event_or_more e e.
Proof. destruct e; cbn; auto. now left. Qed.
Lemma events_more l : Forall2 same_event_or_more l l.
Proof. induction l; constructor; auto using event_more. Qed.
Lemma messages_more l l' : Forall2 same_event_or_more l l' -> messages l = messages l'.
Proof. induction 1 as [|e e' l l' E _ IH]; [reflexivity|]. destruct e, e'; cbn in *; try contradiction; subst; unfold messages in *; cbn [flat_map]; now rewrite IH. Qed.
Lemma request_get m m' n : Forall2 more_request m m' ->
  match mget n m, mget n m' with Some a, Some b => fst a = fst b /\ more_checks (snd a) (snd b) | None, None => True | _, _ => False end.
Proof. induction 1 as [|[k a] [k' b] m m' (A & B & C) _ IH]; cbn in *; auto. subst k'. destruct (str_eqb n k); auto. Qed.
Lemma request_set m m' n a b : Forall2 more_request m m' -> fst a = fst b -> more_checks (snd a) (snd b) -> Forall2 more_request (mset n a m) (mset n b m').
Proof.
  intros H E C. induction H as [|[k x] [k' y] m m' (A & B & D) H IH]; cbn in *; [repeat constructor; auto|]. subst k'. destruct (str_eqb n k); constructor; auto; split; auto.
Qed.
Lemma request_extend r r' : Forall2 more_request r r' -> forall m m', Forall2 more_request m m' -> Forall2 more_request (mextend m r) (mextend m' r').
Proof.
  unfold mextend. induction 1 as [|[k x] [k' y] r r' (A & B & D) _ IH]; intros m m' H; cbn [fold_left fst snd] in *; auto. subst k'. apply IH. now apply request_set.
Qed.

Definition rel_out {A} (RA : A -> A -> Prop) (o o' : out everr A) : Prop :=
  match o, o' with Ok a, Ok a' => RA a a' | Err e, Err e' => e = e' | Panic, Panic => True | Diverge, Diverge => True | _, _ => False end.
Definition grown {A} (RA : A -> A -> Prop) (m m' : evm A) : Prop :=
  forall s s', more_st s s' -> rel_out RA (fst (m s)) (fst (m' s')) /\ more_st (snd (m s)) (snd (m' s')).
Lemma rel_eq {A} (o o' : out everr A) : rel_out eq o o' -> o = o'.
Proof. destruct o, o'; cbn; try contradiction; congruence. Qed.
Lemma rel_refl {A} (o : out everr A) : rel_out eq o o.
Proof. destruct o; cbn; auto. Qed.
Lemma grown_ret {A} (RA : A -> A -> Prop) a a' : RA a a' -> grown RA (ret a) (ret a').
Proof. intros H s s' R. split; auto. Qed.
Lemma grown_lift {A} (a : out everr A) : grown eq (lift a) (lift a).
Proof. intros s s' R. split; auto. apply rel_refl. Qed.
Lemma grown_bind {A B} (RA : A -> A -> Prop) (RB : B -> B -> Prop) (m1 m2 : evm A) (k1 k2 : A -> evm B) :
  grown RA m1 m2 -> (forall a a', RA a a' -> grown RB (k1 a) (k2 a')) -> grown RB (bind m1 k1) (bind m2 k2).
Proof.
  intros M K s s' R. destruct (M s s' R) as [E R1]. unfold bind. destruct (m1 s) as [o s1], (m2 s') as [o' s1']. cbn [fst snd] in *.
  destruct o as [a|e| |], o' as [a'|e'| |]; cbn in E; try contradiction; [now apply K|split; cbn; auto..].
Qed.
Lemma grown_same {A B} (RB : B -> B -> Prop) (m1 m2 : evm A) (k1 k2 : A -> evm B) : grown eq m1 m2 -> (forall a, grown RB (k1 a) (k2 a)) -> grown RB (bind m1 k1) (bind m2 k2).
Proof. intros M K. eapply grown_bind; [exact M|]. intros a a' <-. apply K. Qed.
Lemma grown_null m1 m2 : grown eq m1 m2 -> grown eq (or_null m1) (or_null m2).
Proof.
  intros M s s' R. destruct (M s s' R) as [E R1]. unfold or_null. destruct (m1 s) as [o s1], (m2 s') as [o' s1']. cbn [fst snd] in *.
  destruct o as [a|e| |], o' as [a'|e'| |]; cbn in E; try contradiction; split; cbn; auto.
Qed.
Lemma grown_emit e s s' : more_st s s' -> more_st (emit e s) (emit e s').
Proof. intros [C D]. split; cbn; auto. apply Forall2_app; auto. constructor; [apply event_more|constructor]. Qed.
Section Grows.
Variable w : env.
Notation h := (e_host w).
Hypothesis sees : sees_messages w.
Lemma grown_native n vs : grown eq (native_call h n vs) (native_call h n vs).
Proof.
  intros s s' R. unfold native_call. repeat match goal with |- context [if ?b then _ else _] => destruct b end; try (now apply grown_lift).
  - destruct (native_println h vs) as [[v|e| |] t]; split; cbn; auto; now apply grown_emit.
  - destruct (native_print h vs) as [[v|e| |] t]; split; cbn; auto; now apply grown_emit.
Qed.
Section Calls.
Variables c1 c2 : str -> list value -> evm value.
Hypothesis HC : forall n vs, grown eq (c1 n vs) (c2 n vs).
Lemma eval_grown e : grown eq (eval h c1 e) (eval h c2 e).
Proof.
  induction e using expr_ind2; cbn [eval]; try now apply grown_ret.
  - apply grown_same; [|intros; now apply grown_ret]. induction H as [|e es He Hes IH]; [now apply grown_ret|].
    apply grown_same; [exact He|]. intros v. apply grown_same; [exact IH|]. intros; now apply grown_ret.
  - apply grown_same; [|intros; now apply grown_ret]. generalize (@nil (str * value)) as m. induction H as [|[k v] ps [Hk Hv] Hps IH]; intros m; [now apply grown_ret|].
    apply grown_same; [exact Hk|]. intros kv. apply grown_same; [exact Hv|]. intros vv. apply IH.
  - apply grown_same; [assumption|]. intros v. apply grown_same; [assumption|]. intros i. apply grown_lift.
  - apply grown_same; [assumption|]. intros v. apply grown_lift.
  - intros s s' R. unfold ctx_get. rewrite <- (mo_vars _ _ (mo_ctx _ _ R)). destruct (mget n (c_vars (s_ctx s))); split; cbn; auto.
  - apply grown_same; [assumption|]. intros v s s' [[A B C] D]. split; [reflexivity|]. split; cbn; auto. split; cbn; auto. now rewrite A.
  - apply grown_same; [assumption|]. intros v. apply grown_lift.
  - destruct (strict_op h (tkind t)) as [f|].
    + apply grown_same; [assumption|]. intros l. apply grown_same; [assumption|]. intros r. apply grown_lift.
    + destruct (tkind t); try apply grown_lift.
      all: apply grown_same; [assumption|]; intros l; destruct (falsy l); first [assumption|now apply grown_ret].
  - exact IHe.
  - apply grown_same; [assumption|]. intros v.
    destruct (falsy v).
    + clear H. generalize VNull as last. induction H0 as [|x es Hx Hes IH]; intros last; [now apply grown_ret|]. apply grown_same; [exact Hx|]. intros; apply IH.
    + clear H0. generalize VNull as last. induction H as [|x es Hx Hes IH]; intros last; [now apply grown_ret|]. apply grown_same; [exact Hx|]. intros; apply IH.
  - apply grown_same; [|intros; apply HC]. induction H as [|e es He Hes IH]; [now apply grown_ret|].
    apply grown_same; [exact He|]. intros v. apply grown_same; [exact IH|]. intros; now apply grown_ret.
Qed.
Lemma exprs_grown es : forall last, grown eq (eval_exprs h c1 last es) (eval_exprs h c2 last es).
Proof. induction es as [|e es IH]; intros last; [now apply grown_ret|]. apply grown_same; [apply eval_grown|]. intros; apply IH. Qed.
Hypothesis HL : forall n vs, local (c2 n vs).
Hypothesis HN : forall vs s, c_reqs (s_ctx s) = [] -> c2 (lit "length") vs s = (native_length vs, s).
Lemma looks_harmless e s : looks e -> c_reqs (s_ctx s) = [] -> exists o, eval h c2 e s = (o, s) /\ o <> Panic /\ o <> Diverge.
Proof.
  intros H Rq. assert (P : forall v i, index_value h v i <> Panic /\ index_value h v i <> Diverge).
  { intros v i. unfold index_value. destruct v; try (split; discriminate); repeat (match goal with |- context [match ?x with _ => _ end] => destruct x end); split; discriminate. }
  assert (F : forall v f, field_value v f <> Panic /\ field_value v f <> Diverge).
  { intros v f. unfold field_value. destruct v; try (split; discriminate); repeat (match goal with |- context [match ?x with _ => _ end] => destruct x end); split; discriminate. }
  induction H as [| | | |n|e f H (o & E & O)|e i H (o & E & O) H' (o' & E' & O')|e H IH|t e K H (o & E & O)|t a b K H (o & E & O) H' (o' & E' & O')|e H (o & E & O)]; cbn [eval]; try (eexists; split; [reflexivity|split; discriminate]).
  - destruct (ctx_get (s_ctx s) n); eexists; (split; [reflexivity|split; discriminate]).
  - unfold bind. rewrite E. destruct o as [v|x| |]; try tauto; [exists (field_value v f); split; [reflexivity|apply F]|eexists; split; [reflexivity|split; discriminate]].
  - unfold bind. rewrite E. destruct o as [v|x| |]; try tauto; [|eexists; split; [reflexivity|split; discriminate]].
    rewrite E'. destruct o' as [v'|x| |]; try tauto; [exists (index_value h v v'); split; [reflexivity|apply P]|eexists; split; [reflexivity|split; discriminate]].
  - exact IH.
  - unfold bind. rewrite E. destruct o as [v|x| |]; try tauto; [|eexists; split; [reflexivity|split; discriminate]].
    exists (unary_value h t v). split; [reflexivity|]. unfold unary_value. rewrite K. destruct v; try (match goal with |- context [if ?b then _ else _] => destruct b end); split; discriminate.
  - destruct K as [K|[K|[K|[K|[K|[K|[K|[K|[]]]]]]]]]; rewrite <- K; cbn [strict_op]; unfold bind; rewrite E; (destruct o as [v|x| |]; try tauto; [|eexists; split; [reflexivity|split; discriminate]]).
    7, 8: destruct (falsy v); [|]; first [exists o'; split; [exact E'|exact O']|eexists; split; [reflexivity|split; discriminate]].
    all: rewrite E'; (destruct o' as [v'|x| |]; try tauto; eexists; (split; [reflexivity|split; discriminate])).
  - unfold bind. rewrite E. destruct o as [v|x| |]; try tauto; [|eexists; split; [reflexivity|split; discriminate]].
    cbn [ret]. rewrite HN by auto. exists (native_length [v]). split; [reflexivity|]. unfold native_length. destruct v; split; discriminate.
Qed.
(** in a context without requests *)
Definition grown_in {A} (RA : A -> A -> Prop) (m m' : evm A) : Prop :=
  forall s s', more_st s s' -> c_reqs (s_ctx s') = [] -> rel_out RA (fst (m s)) (fst (m' s')) /\ more_st (snd (m s)) (snd (m' s')) /\ c_reqs (s_ctx (snd (m' s'))) = [].
Lemma in_bind {A B} (RA : A -> A -> Prop) (RB : B -> B -> Prop) (m1 m2 : evm A) (k1 k2 : A -> evm B) :
  grown_in RA m1 m2 -> (forall a a', RA a a' -> grown_in RB (k1 a) (k2 a')) -> grown_in RB (bind m1 k1) (bind m2 k2).
Proof.
  intros M K s s' R Rq. destruct (M s s' R Rq) as (E & R1 & Rq1). unfold bind. destruct (m1 s) as [o s1], (m2 s') as [o' s1']. cbn [fst snd] in *.
  destruct o as [a|e| |], o' as [a'|e'| |]; cbn in E; try contradiction; [now apply K|split; cbn; auto..].
Qed.
Lemma in_ret {A} (RA : A -> A -> Prop) a a' : RA a a' -> grown_in RA (ret a) (ret a').
Proof. intros H s s' R Rq. split; auto. Qed.
Lemma in_null e : grown_in eq (or_null (eval h c1 e)) (or_null (eval h c2 e)).
Proof.
  intros s s' R Rq. destruct (grown_null _ _ (eval_grown e) s s' R) as [A B]. split; auto. split; auto.
  unfold or_null. destruct (eval h c2 e s') as [o s1] eqn:E. pose proof (local_reqs _ _ _ _ (eval_local h c2 HL e) Rq E). destruct o; auto.
Qed.
Lemma asserts_grown l l' : more_checks l l' -> grown_in among (eval_asserts h (eval h c1) l) (eval_asserts h (eval h c2) l').
Proof.
  induction 1 as [|e l l' H IH|t a b l l' Ha Hb H IH].
  - apply in_ret. constructor.
  - destruct e; cbn [eval_asserts]; try exact IH.
    eapply in_bind; [apply in_null|]. intros x x' <-. eapply in_bind; [apply in_null|]. intros y y' <-. eapply in_bind; [exact IH|].
    intros as1 as2 A. apply in_ret. destruct (compare_op (tkind t)); auto. now constructor.
  - intros s s' R Rq. cbn [eval_asserts].
    assert (Nul : forall e, looks e -> exists v, or_null (eval h c2 e) s' = (Ok v, s')).
    { intros e Le. destruct (looks_harmless e s' Le Rq) as (o & E & O1 & O2). unfold or_null. rewrite E. destruct o as [v|x| |]; try congruence; eauto. }
    destruct (Nul a Ha) as [v1 N1], (Nul b Hb) as [v2 N2]. destruct (IH s s' R Rq) as (F & G & Rq1). unfold bind. rewrite N1, N2. destruct (eval_asserts h (eval h c1) l s) as [p s1], (eval_asserts h (eval h c2) l' s') as [p' s1']. cbn [fst snd] in F, G, Rq1.
    destruct p as [a1|x| |], p' as [a2|x'| |]; cbn in F; try contradiction; cbn [fst snd ret]; (split; [|split; [exact G|exact Rq1]]); cbn; auto.
    destruct (compare_op (tkind t)); auto. now constructor.
Qed.
End Calls.
Lemma request_grown c1 c2 n message l l' : (forall n vs, grown eq (c1 n vs) (c2 n vs)) -> (forall n vs, local (c2 n vs)) -> (forall vs s, c_reqs (s_ctx s) = [] -> c2 (lit "length") vs s = (native_length vs, s)) -> more_checks l l' ->
  grown eq (request_call w (eval h c1) n message l) (request_call w (eval h c2) n message l').
Proof.
  intros H HL HN MC s s' R. unfold request_call. pose proof (mo_ctx _ _ R) as Rc. pose proof R as [[A B C] D].
  assert (V : substitute (var_text h (s_ctx s')) message = substitute (var_text h (s_ctx s)) message). { f_equal. unfold var_text, ctx_get. now rewrite A. }
  rewrite V. set (msg := substitute _ message). cbv zeta. rewrite <- (sees (s_trace s) (s_trace s') msg (messages_more _ _ D)).
  pose proof (grown_emit (Sent msg) s s' R) as R1. destruct (client_send _ _ msg) as [[[[rq rs] t] er]|e| |]; try (split; [apply rel_refl|exact R1]).
  destruct (to_map h rs) as [m|e| |]; try (split; [apply rel_refl|exact R1]).
  assert (R2 : more_st (St (ctx_from m) (s_trace (emit (Sent msg) s))) (St (ctx_from m) (s_trace (emit (Sent msg) s')))) by (split; cbn [s_ctx s_trace]; [split; cbn; auto|apply R1]).
  destruct (asserts_grown c1 c2 H HL HN l l' MC _ _ R2 eq_refl) as (F & R3 & _). destruct (eval_asserts h (eval h c1) l _) as [o sl], (eval_asserts h (eval h c2) l' _) as [o' sl']. cbn [fst snd] in F, R3.
  destruct R3 as [[A3 B3 C3] D3]. destruct o as [a|e| |], o' as [a'|e'| |]; cbn in F; try contradiction; cbn [fst snd]; (split; [cbn; auto|split; cbn [s_ctx s_trace]; auto]).
  - unfold ctx_into_map. now rewrite A3.
  - split; cbn [ctx_push c_vars c_reqs c_recs]; auto. apply Forall2_app; auto. constructor; [|constructor]. split; [reflexivity|]. split; [reflexivity|exact F].
Qed.
Lemma none_requested d n vs s : c_reqs (s_ctx s) = [] -> call_at w d n vs s = native_call h n vs s.
Proof. intros E. destruct d; cbn [call_at]; unfold ctx_request; now rewrite E. Qed.
Lemma call_local_at d n vs : local (call_at w d n vs).
Proof. intros c E. destruct (native_local h n vs c E) as (o & c' & pr & A & B & C & D). exists o, c', pr. repeat split; auto. intros tr. now rewrite none_requested. Qed.
Lemma call_grown d : forall n vs, grown eq (call_at w d n vs) (call_at w d n vs).
Proof.
  induction d as [|d IH]; intros n vs s s' R; pose proof (grown_native n vs s s' R) as Nt; cbn [call_at]; unfold ctx_request in *; pose proof (request_get _ _ n (mo_reqs _ _ (mo_ctx _ _ R))) as G; destruct (mget n (c_reqs (s_ctx s))) as [[m a]|], (mget n (c_reqs (s_ctx s'))) as [[m' a']|]; try contradiction; auto.
  - split; [apply rel_refl|exact R].
  - destruct G as [E MC]. cbn [fst snd] in E, MC. subst m'. apply request_grown; auto; [apply call_local_at|]. intros vs0 s0 E. now rewrite none_requested.
Qed.
Lemma block_grown es : grown eq (eval_block w es) (eval_block w es).
Proof. apply exprs_grown. apply call_grown. Qed.
End Grows.

(** ** test threads *)
Definition more_action := alike_action same_event_or_more more_record.
Record more_job (j j' : job) : Prop := {
  mj_thread : j_thread j = j_thread j';
  mj_file : j_file j = j_file j';
  mj_name : j_name j = j_name j';
  mj_body : j_body j = j_body j';
  mj_limit : j_limit j = j_limit j';
  mj_ctx : more_ctx (j_ctx j) (j_ctx j')
}.
Record more_tester (t t' : tester) : Prop := {
  mt_job : more_job (te_job t) (te_job t');
  mt_env : te_env t = te_env t' /\ sees_messages (te_env t);
  mt_path : te_path t = te_path t';
  mt_number : te_number t = te_number t';
  mt_phase : te_phase t = te_phase t';
  mt_state : more_st (te_state t) (te_state t');
  mt_todo : Forall2 more_action (te_todo t) (te_todo t')
}.
Definition told (a : assertion) : str * bool := (a_expr a ++ lit " => " ++ a_left a ++ lit " " ++ a_compare a ++ lit " " ++ a_right a, a_result a).
Lemma among_map {A B} (f : A -> B) l l' : among l l' -> among (map f l) (map f l').
Proof. induction 1; cbn; now constructor. Qed.
Lemma fold_all l : forall b, fold_left (fun f a => f && a_result a) l b = b && forallb a_result l.
Proof. induction l as [|a l IH]; intros b; cbn; [now rewrite andb_true_r|]. rewrite IH. now rewrite andb_assoc. Qed.
Lemma told_all l : forallb snd (map told l) = forallb a_result l.
Proof. induction l as [|a l IH]; cbn; [reflexivity|now rewrite IH]. Qed.
Lemma told_lines l : flat_map (fun x : str * bool => fst x ++ lit " => " ++ (if snd x then lit "true" else lit "false") ++ [10]) (map told l) = flat_map show_assert_line l.
Proof.
  induction l as [|a l IH]; [reflexivity|]. cbn [map flat_map]. rewrite IH. f_equal. unfold told, show_assert_line, show_bool. cbn [fst snd]. rewrite <- !app_assoc. reflexivity.
Qed.
Lemma record_told r : show_record r ++ [10] = report_with (r_name r) (show_duration (t_total (r_time r))) (map told (r_asserts r)).
Proof.
  unfold report_with, show_record, passed. rewrite told_lines, told_all, fold_all. cbn [andb]. rewrite <- !app_assoc. reflexivity.
Qed.
Lemma lines_more rs rs' : Forall2 more_record rs rs' -> Forall2 same_event_or_more (record_lines rs) (record_lines rs').
Proof.
  unfold record_lines. induction 1 as [|r r' rs rs' (N & T & A) _ IH]; constructor; auto. change (more_told (show_record r ++ [10]) (show_record r' ++ [10])). right.
  exists (r_name r), (show_duration (t_total (r_time r))), (map told (r_asserts r)), (map told (r_asserts r')). split; [now apply among_map|]. split; [apply record_told|]. rewrite N, T. apply record_told.
Qed.
Lemma does_more l l' : Forall2 same_event_or_more l l' -> Forall2 more_action (map Does l) (map Does l').
Proof. induction 1; constructor; auto. Qed.
Lemma skipn_more {A} (R : A -> A -> Prop) l l' n : Forall2 R l l' -> Forall2 R (skipn n l) (skipn n l').
Proof. intros H. revert n. induction H; intros [|n]; cbn; auto. Qed.
Lemma length_more {A B} (R : A -> B -> Prop) l l' : Forall2 R l l' -> length l = length l'.
Proof. induction 1; cbn; auto. Qed.
Lemma iteration_more stat t t' : more_tester t t' -> more_tester (iteration stat t) (iteration stat t').
Proof.
  intros [J (E & S) Pa Nu Ph St Td]. destruct (block_grown _ S (j_body (te_job t)) _ _ St) as [F R]. apply rel_eq in F. unfold iteration. pose proof J as [J1 J2 J3 J4 J5 J6]. rewrite <- E, <- J4, <- J5.
  destruct (eval_block (te_env t) _ (te_state t)) as [o s1], (eval_block (te_env t) _ (te_state t')) as [o' s1']. cbn [fst snd] in F, R. subst o'.
  assert (Sn : Forall2 more_action (since (te_state t) s1) (since (te_state t') s1')).
  { unfold since. rewrite (length_more _ _ _ (mo_trace _ _ St)). apply does_more, skipn_more, R. }
  pose proof R as [[Rv Rq Rr] Rt]. pose proof (lines_more _ _ Rr) as Rl.
  assert (Pu : forall rs rs' n, Forall2 more_action (puts t rs n) (puts t' rs' n)). { intros. unfold puts. rewrite <- Pa. destruct (te_path t); repeat constructor. }
  assert (X : forall x, Forall2 more_action [Does (Printed x)] [Does (Printed x)]) by (intros; constructor; [apply event_more|constructor]).
  assert (X' : forall x, Forall2 same_event_or_more [Printed x] [Printed x]) by (intros; constructor; [apply event_more|constructor]).
  assert (Se : Forall2 more_action (if stat then [Sends (c_recs (s_ctx s1))] else []) (if stat then [Sends (c_recs (s_ctx s1'))] else [])) by (destruct stat; repeat constructor; auto).
  assert (Cl : more_ctx (Ctx (c_vars (s_ctx s1)) (c_reqs (s_ctx s1)) []) (Ctx (c_vars (s_ctx s1')) (c_reqs (s_ctx s1')) [])) by (split; cbn; auto).
  pose proof (does_more _ _ Rl) as Dl. pose proof (mo_ctx _ _ R) as Rc.
  unfold ctx_records. rewrite <- Nu.
  destruct o as [v|e| |], (j_limit (te_job t)) as [m|]; cbn [fst snd]; (split; cbn [te_job te_env te_path te_number te_phase te_state te_todo s_ctx s_trace]; auto).
  all: try (split; cbn [s_ctx s_trace]; auto). all: repeat (apply Forall2_app; auto).
Qed.
Lemma move_more stat flag t t' : more_tester t t' ->
  match tester_move stat flag t, tester_move stat flag t' with
  | Some (a, t1), Some (a', t1') => alike_did same_event_or_more more_record a a' /\ more_tester t1 t1'
  | None, None => True
  | _, _ => False
  end.
Proof.
  intros P. pose proof (iteration_more stat _ _ P) as It. destruct P as [J E Pa Nu Ph St Td]. pose proof J as [J1 J2 J3 J4 J5 J6]. unfold tester_move in *. rewrite <- Ph, <- J5, <- Nu.
  destruct Td as [|x x' l l' X L].
  - destruct (te_phase t); auto.
    + destruct (j_limit (te_job t)) as [m|]; [|exact I]. split; [exact I|]. split; cbn; auto.
    + split; [exact I|exact It].
  - split; [exact X|]. split; cbn; auto.
Qed.
Lemma gone_more t t' : more_tester t t' -> gone t' = gone t.
Proof. intros [J E Pa Nu Ph St Td]. unfold gone. rewrite Ph. destruct Td; reflexivity. Qed.
Lemma new_more g j j' : (forall id, sees_messages (g_world g id)) -> more_job j j' -> more_tester (new_tester g j) (new_tester g j').
Proof. intros S J. pose proof J as [J1 J2 J3 J4 J5 J6]. unfold new_tester. rewrite <- J1, <- J2, <- J5. split; cbn; auto. split; cbn; auto. Qed.
Lemma adds_more rs rs' m : Forall2 more_record rs rs' -> stats_add_records m rs = stats_add_records m rs'.
Proof. intros H. unfold stats_add_records. revert m. induction H as [|r r' rs rs' (A & B & _) _ IH]; intros m; cbn [fold_left]; auto. rewrite A, B. apply IH. Qed.
Definition more_process := alike_process more_job more_tester same_event_or_more eq more_record eq.
Lemma goes_more g p p1 p' : (forall id, sees_messages (g_world g id)) -> more_process p p' -> goes g p p1 -> exists p1', goes g p' p1' /\ more_process p1 p1'.
Proof.
  intros S P G. refine (goes_alike g g more_job more_tester same_event_or_more eq more_record eq eq_refl eq_refl _ _ _ _ _ _ _ p p1 G p' P).
  - intros; now apply new_more.
  - intros t t' H. apply H.
  - intros t t' H. split; apply H.
  - apply gone_more.
  - intros stat flag t t' a t1 H M. pose proof (move_more stat flag _ _ H) as Mv. rewrite M in Mv. destruct (tester_move stat flag t') as [[a' t1']|]; [|contradiction]. exists a', t1'. split; auto.
  - intros rs rs' m m' H <-. now apply adds_more.
  - intros m m' <-. reflexivity.
Qed.
Lemma goes_back g p p1 p' : (forall id, sees_messages (g_world g id)) -> more_process p' p -> goes g p p1 -> exists p1', goes g p' p1' /\ more_process p1' p1.
Proof.
  intros S P G. apply alike_other in P.
  refine (match goes_alike g g (other_way more_job) (other_way more_tester) (other_way same_event_or_more) (other_way eq) (other_way more_record) (other_way eq) eq_refl eq_refl _ _ _ _ _ _ _ p p1 G p' P with ex_intro _ p1' (conj G' P') => _ end).
  - intros j j' H. unfold other_way in *. now apply new_more.
  - intros t t' H. symmetry. apply H.
  - intros t t' H. split; symmetry; apply H.
  - intros t t' H. symmetry. now apply gone_more.
  - intros stat flag t t' a t1 H M. pose proof (move_more stat flag _ _ H) as Mv. rewrite M in Mv. destruct (tester_move stat flag t') as [[a' t1']|]; [|contradiction]. exists a', t1'. destruct Mv. split; auto. split; auto. now apply action_other.
  - intros rs rs' m m' H E. unfold other_way in *. subst. apply adds_more. apply forall_other in H. exact H.
  - intros m m' E. unfold other_way in *. now subst.
  - exists p1'. split; auto. apply alike_other in P'. exact P'.
Qed.

(** ** before the threads *)
Lemma clone_more c c' : more_ctx c c' -> more_ctx (ctx_clone c) (ctx_clone c').
Proof. intros [A B C]. split; cbn; auto. Qed.
Lemma named_more pod c c' name body m n : more_ctx c c' -> forall id, Forall2 more_job (named_jobs pod c name body m id n) (named_jobs pod c' name body m id n).
Proof. intros E. induction n as [|n IH]; intros id; cbn [named_jobs]; constructor; auto. split; cbn; auto. now apply clone_more. Qed.
Lemma all_more pod c c' ts : more_ctx c c' -> forall id, Forall2 more_job (all_jobs pod c id ts) (all_jobs pod c' id ts).
Proof. intros E. induction ts as [|[n b] ts IH]; intros id; cbn [all_jobs]; constructor; auto. split; cbn; auto. now apply clone_more. Qed.
Lemma log_more l l' : Forall2 same_event_or_more l l' -> alike_log same_event_or_more eq (map (pair Main) l) (map (pair Main) l').
Proof. unfold alike_log. induction 1; constructor; auto. Qed.
Lemma launch_more iter w root root' text text' src src' name threads duration number record pod d : sees_messages w ->
  read_node (fst root) (snd root) = Some text -> parse text = Ok src -> read_node (fst root') (snd root') = Some text' -> parse text' = Ok src' -> more_asserted src src' ->
  more_process (launch iter w root name threads duration number record pod d) (launch iter w root' name threads duration number record pod d).
Proof.
  intros S Rd Ps Rd' Ps' (Xe & Xt & Xr). unfold launch. rewrite Rd, Rd'. unfold main_test, test_command, test_setup. rewrite Ps, Ps', Xe, Xt.
  set (s0 := upd _ _). set (s0' := upd (fun c => ctx_extend c (s_requests src')) _).
  assert (R0 : more_st s0 s0'). { split; cbn; [|constructor]. split; cbn; auto. apply request_extend; auto. }
  destruct (block_grown w S (s_exprs src) s0 s0' R0) as [F R]. apply rel_eq in F. destruct (eval_block w _ s0) as [o s1], (eval_block w _ s0') as [o' s1']. cbn [fst snd] in F, R. subst o'.
  assert (P : forall m m' l l', alike_main more_job m m' -> Forall2 same_event_or_more l l' -> more_process (Process m [] true [] [] false (map (pair Main) l) d) (Process m' [] true [] [] false (map (pair Main) l') d)).
  { intros m m' l l' H L. split; cbn; auto; [now apply log_more|intros q; tauto]. }
  pose proof (mo_trace _ _ R) as Tr. pose proof (mo_ctx _ _ R) as Rc.
  assert (Pr : forall x, Forall2 same_event_or_more (s_trace (println_ x s1)) (s_trace (println_ x s1'))) by (intros x; apply (grown_emit (Printed (x ++ [10])) _ _ R)).
  destruct o as [v|e| |].
  - destruct name as [name|]; [|apply P; [apply (all_more _ _ _ _ Rc)|exact Tr]].
    destruct (mget name (s_tests src)) as [body|]; [|apply P; [constructor|apply Pr]].
    destruct (maximun_of _ threads) as [m|e| |]; apply P; cbn; auto. apply (named_more _ _ _ _ _ _ _ Rc).
  - apply P; [reflexivity|apply Pr].
  - apply P; [reflexivity|exact Tr].
  - apply P; [reflexivity|exact Tr].
Qed.
Lemma process_told p p' : more_process p p' -> same_stage (p_main p) (p_main p') /\ p_flag p' = p_flag p /\ same_log_or_more (p_log p) (p_log p') /\ same_files (p_disk p) (p_disk p').
Proof.
  intros [M T F Q Q2 R L D]. split; [|auto]. destruct (p_main p), (p_main p'); cbn in *; try contradiction; auto. eapply length_more; eassumption.
Qed.

(** C143 *)
Theorem added_run g iter w root root' text text' src src' name threads duration number record pod d p : sees_messages w -> (forall id, sees_messages (g_world g id)) ->
  read_node (fst root) (snd root) = Some text -> parse text = Ok src -> read_node (fst root') (snd root') = Some text' -> parse text' = Ok src' -> more_asserted src src' ->
  goes g (launch iter w root name threads duration number record pod d) p ->
  exists p', goes g (launch iter w root' name threads duration number record pod d) p' /\
    same_stage (p_main p) (p_main p') /\ p_flag p' = p_flag p /\ same_log_or_more (p_log p) (p_log p') /\ same_files (p_disk p) (p_disk p').
Proof.
  intros Sw S A B A' B' M G. destruct (goes_more g _ _ _ S (launch_more iter w root root' text text' src src' name threads duration number record pod d Sw A B A' B' M) G) as (p' & G' & P).
  exists p'. split; [exact G'|]. now apply process_told.
Qed.
Theorem added_back g iter w root root' text text' src src' name threads duration number record pod d p' : sees_messages w -> (forall id, sees_messages (g_world g id)) ->
  read_node (fst root) (snd root) = Some text -> parse text = Ok src -> read_node (fst root') (snd root') = Some text' -> parse text' = Ok src' -> more_asserted src src' ->
  goes g (launch iter w root' name threads duration number record pod d) p' ->
  exists p, goes g (launch iter w root name threads duration number record pod d) p /\
    same_stage (p_main p) (p_main p') /\ p_flag p' = p_flag p /\ same_log_or_more (p_log p) (p_log p') /\ same_files (p_disk p) (p_disk p').
Proof.
  intros Sw S A B A' B' M G. destruct (goes_back g _ _ _ S (launch_more iter w root root' text text' src src' name threads duration number record pod d Sw A B A' B' M) G) as (p & G' & P).
  exists p. split; [exact G'|]. now apply process_told.
Qed.
