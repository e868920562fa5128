(** Nothing depends on answers that have not been given *)
From Coq Require Import Lia.
From Verif Require Import TextProofs SyntaxProofs EvaluatorTop RunProofs ProcessProofs ProcessRun ProcessTop ProcessOnce AsideProofs ShuffleProofs SpecProcess SpecCausal.
Open Scope N_scope.

(** ** the evaluator *)
Definition grow {A} (m : evm A) : Prop := forall s, starts_with (s_trace s) (s_trace (snd (m s))).
Lemma sw_refl {A} (l : list A) : starts_with l l.
Proof. exists []. now rewrite app_nil_r. Qed.
Lemma sw_trans {A} (a b c : list A) : starts_with a b -> starts_with b c -> starts_with a c.
Proof. intros [x ->] [y ->]. exists (x ++ y). now rewrite app_assoc. Qed.
Section Nets.
Variables (h : host) (prepare : list part -> bool) (net1 net2 : list event -> str -> exchange) (D : list event -> str -> Prop).
Hypothesis differ : forall t msg, D t msg \/ net1 t msg = net2 t msg.
Notation w1 := (Env h prepare net1).
Notation w2 := (Env h prepare net2).
(** the doings are the same up to a request that is answered differently *)
Definition parted (t1 t2 : list event) : Prop := exists t msg, D t msg /\ starts_with (t ++ [Sent msg]) t1 /\ starts_with (t ++ [Sent msg]) t2.
Definition causal {A} (m1 m2 : evm A) : Prop :=
  grow m1 /\ grow m2 /\ forall s, m1 s = m2 s \/ parted (s_trace (snd (m1 s))) (s_trace (snd (m2 s))).
Lemma parted_on a b a' b' : parted a b -> starts_with a a' -> starts_with b b' -> parted a' b'.
Proof. intros (t & msg & d & A & B) X Y. exists t, msg. split; [exact d|]. split; [exact (sw_trans _ _ _ A X)|exact (sw_trans _ _ _ B Y)]. Qed.
Lemma causal_same {A} (m : evm A) : grow m -> causal m m.
Proof. intros G. split; auto. Qed.
Lemma causal_ret {A} (a : A) : causal (ret a) (ret a).
Proof. apply causal_same. intros s. apply sw_refl. Qed.
Lemma causal_lift {A} (a : out everr A) : causal (lift a) (lift a).
Proof. apply causal_same. intros s. apply sw_refl. Qed.
Lemma bind_grow {A B} (m : evm A) (k : A -> evm B) : (forall a, grow (k a)) -> forall s, starts_with (s_trace (snd (m s))) (s_trace (snd (bind m k s))).
Proof. intros K s. unfold bind. destruct (m s) as [[a|e| |] s1]; try apply sw_refl. apply K. Qed.
Lemma causal_bind {A B} (m1 m2 : evm A) (k1 k2 : A -> evm B) : causal m1 m2 -> (forall a, causal (k1 a) (k2 a)) -> causal (bind m1 k1) (bind m2 k2).
Proof.
  intros (G1 & G2 & E) K. pose proof (bind_grow m1 k1 (fun a => proj1 (K a))) as L1. pose proof (bind_grow m2 k2 (fun a => proj1 (proj2 (K a)))) as L2.
  split; [intros s; eapply sw_trans; [apply G1|apply L1]|]. split; [intros s; eapply sw_trans; [apply G2|apply L2]|]. intros s. destruct (E s) as [E1|P].
  - unfold bind. rewrite E1. destruct (m2 s) as [[a|e| |] s1]; [apply (K a)|left; reflexivity..].
  - right. eapply parted_on; [exact P|apply L1|apply L2].
Qed.
Lemma causal_null m1 m2 : causal m1 m2 -> causal (or_null m1) (or_null m2).
Proof.
  intros (G1 & G2 & E). assert (L : forall m s, snd (or_null m s) = snd (m s)) by (intros m s; unfold or_null; destruct (m s) as [[] ?]; reflexivity).
  split; [intros s; rewrite L; apply G1|]. split; [intros s; rewrite L; apply G2|]. intros s. rewrite !L. destruct (E s) as [X|P]; auto. left. unfold or_null. now rewrite X.
Qed.
Lemma causal_native n vs : causal (native_call h n vs) (native_call h n vs).
Proof.
  apply causal_same. intros s. unfold native_call. repeat match goal with |- context [if ?b then _ else _] => destruct b end; try apply sw_refl.
  - destruct (native_println h vs) as [[v|e| |] t]; try apply sw_refl. eexists; reflexivity.
  - destruct (native_print h vs) as [[v|e| |] t]; try apply sw_refl. eexists; reflexivity.
Qed.
Section Calls.
Variables c1 c2 : str -> list value -> evm value.
Hypothesis HC : forall n vs, causal (c1 n vs) (c2 n vs).
Lemma eval_causal e : causal (eval h c1 e) (eval h c2 e).
Proof.
  induction e using expr_ind2; cbn [eval]; try apply causal_ret.
  - apply causal_bind; [|intros; apply causal_ret]. induction H as [|e es He Hes IH]; [apply causal_ret|].
    apply causal_bind; [exact He|]. intros v. apply causal_bind; [exact IH|]. intros; apply causal_ret.
  - apply causal_bind; [|intros; apply causal_ret]. generalize (@nil (str * value)) as m. induction H as [|[k v] ps [Hk Hv] Hps IH]; intros m; [apply causal_ret|].
    apply causal_bind; [exact Hk|]. intros kv. apply causal_bind; [exact Hv|]. intros vv. apply IH.
  - apply causal_bind; [assumption|]. intros v. apply causal_bind; [assumption|]. intros i. apply causal_lift.
  - apply causal_bind; [assumption|]. intros v. apply causal_lift.
  - apply causal_same. intros s. destruct (ctx_get (s_ctx s) n); apply sw_refl.
  - apply causal_bind; [assumption|]. intros v. apply causal_same. intros s. apply sw_refl.
  - apply causal_bind; [assumption|]. intros v. apply causal_lift.
  - destruct (strict_op h (tkind t)) as [f|].
    + apply causal_bind; [assumption|]. intros l. apply causal_bind; [assumption|]. intros r. apply causal_lift.
    + destruct (tkind t); try apply causal_lift.
      all: apply causal_bind; [assumption|]; intros l; destruct (falsy l); first [assumption|apply causal_ret].
  - exact IHe.
  - apply causal_bind; [assumption|]. intros v.
    destruct (falsy v).
    + clear H. generalize VNull as last. induction H0 as [|x es Hx Hes IH]; intros last; [apply causal_ret|]. apply causal_bind; [exact Hx|]. intros; apply IH.
    + clear H0. generalize VNull as last. induction H as [|x es Hx Hes IH]; intros last; [apply causal_ret|]. apply causal_bind; [exact Hx|]. intros; apply IH.
  - apply causal_bind; [|intros; apply HC]. induction H as [|e es He Hes IH]; [apply causal_ret|].
    apply causal_bind; [exact He|]. intros v. apply causal_bind; [exact IH|]. intros; apply causal_ret.
Qed.
Lemma exprs_causal es : forall last, causal (eval_exprs h c1 last es) (eval_exprs h c2 last es).
Proof. induction es as [|e es IH]; intros last; [apply causal_ret|]. apply causal_bind; [apply eval_causal|]. intros; apply IH. Qed.
End Calls.
Lemma asserts_causal ev1 ev2 l : (forall e, causal (ev1 e) (ev2 e)) -> causal (eval_asserts h ev1 l) (eval_asserts h ev2 l).
Proof.
  intros H. induction l as [|e l IH]; [apply causal_ret|]. destruct e; cbn [eval_asserts]; try exact IH.
  apply causal_bind; [apply causal_null, H|]. intros a. apply causal_bind; [apply causal_null, H|]. intros b. apply causal_bind; [exact IH|]. intros as_. apply causal_ret.
Qed.
Lemma request_sends w ev n message asserts : (forall e, grow (ev e)) -> (forall l, grow (eval_asserts (e_host w) ev l)) ->
  forall s, starts_with (s_trace s ++ [Sent (substitute (var_text (e_host w) (s_ctx s)) message)]) (s_trace (snd (request_call w ev n message asserts s))).
Proof.
  intros H Ha s. unfold request_call. cbv zeta. set (msg := substitute _ message).
  destruct (client_send _ _ msg) as [[[[rq rs] t] error]|e| |]; try apply sw_refl. destruct (to_map (e_host w) rs) as [m|e| |]; try apply sw_refl.
  pose proof (Ha asserts (St (ctx_from m) (s_trace (emit (Sent msg) s)))) as G. destruct (eval_asserts _ ev asserts _) as [[a|e| |] sl]; exact G.
Qed.
Lemma request_causal ev1 ev2 n message asserts : (forall e, causal (ev1 e) (ev2 e)) -> causal (request_call w1 ev1 n message asserts) (request_call w2 ev2 n message asserts).
Proof.
  intros H. pose proof (fun l => asserts_causal ev1 ev2 l H) as Ha.
  pose proof (request_sends w1 ev1 n message asserts (fun e => proj1 (H e)) (fun l => proj1 (Ha l))) as S1. pose proof (request_sends w2 ev2 n message asserts (fun e => proj1 (proj2 (H e))) (fun l => proj1 (proj2 (Ha l)))) as S2.
  split; [intros s; eapply sw_trans; [|apply S1]; eexists; reflexivity|]. split; [intros s; eapply sw_trans; [|apply S2]; eexists; reflexivity|].
  intros s. specialize (S1 s). specialize (S2 s). cbn [e_host] in S1, S2. destruct (differ (s_trace s) (substitute (var_text h (s_ctx s)) message)) as [d|E]; [right; eexists _, _; eauto|].
  clear S1 S2. unfold request_call. cbn [e_host e_net e_prepare]. rewrite E. set (msg := substitute _ message).
  destruct (client_send _ _ msg) as [[[[rq rs] t] error]|e| |]; try (left; reflexivity). destruct (to_map h rs) as [m|e| |]; try (left; reflexivity).
  destruct (proj2 (proj2 (Ha asserts)) (St (ctx_from m) (s_trace (emit (Sent msg) s)))) as [-> |P]; [left; reflexivity|]. right.
  destruct (eval_asserts h ev1 asserts _) as [[a|e| |] sl], (eval_asserts h ev2 asserts _) as [[a'|e'| |] sl']; exact P.
Qed.
Lemma call_causal d : forall n vs, causal (call_at w1 d n vs) (call_at w2 d n vs).
Proof.
  induction d as [|d IH]; intros n vs; pose proof (causal_native n vs) as (N1 & N2 & N3).
  - split; [|split]; intros s; cbn [call_at]; destruct (ctx_request (s_ctx s) n) as [[]|]; try apply sw_refl; auto.
  - assert (R : forall m a, causal (request_call w1 (eval h (call_at w1 d)) n m a) (request_call w2 (eval h (call_at w2 d)) n m a)) by (intros; apply request_causal; intros; now apply eval_causal).
    split; [|split]; intros s; cbn [call_at]; destruct (ctx_request (s_ctx s) n) as [[m a]|]; auto; apply (R m a).
Qed.
Lemma block_causal es : causal (eval_block w1 es) (eval_block w2 es).
Proof. apply exprs_causal. apply call_causal. Qed.
End Nets.
Lemma event_dec (a b : event) : {a = b} + {a <> b}.
Proof. decide equality; apply (list_eq_dec N.eq_dec). Qed.
Lemma sw_dec (a b : list event) : starts_with a b \/ ~ starts_with a b.
Proof.
  destruct (list_eq_dec event_dec (firstn (length a) b) a) as [E|E].
  - left. exists (skipn (length a) b). rewrite <- E at 1. symmetry. apply firstn_skipn.
  - right. intros [x ->]. apply E. rewrite firstn_app, Nat.sub_diag, firstn_all. cbn. apply app_nil_r.
Qed.
Lemma sw_compare {A} (a b c : list A) : starts_with a c -> starts_with b c -> starts_with a b \/ starts_with b a.
Proof.
  intros [x ->] [y E]. revert b E. induction a as [|z a IH]; intros b E; [left; now exists b|]. destruct b as [|z' b]; [right; now exists (z :: a)|].
  cbn in E. injection E as <- E. destruct (IH b E) as [[u ->]|[u ->]]; [left|right]; exists u; reflexivity.
Qed.
Lemma sw_both {A} (a b : list A) : starts_with a b -> starts_with b a -> a = b.
Proof. intros [x ->] [y E]. rewrite <- app_assoc in E. rewrite <- (app_nil_r a) in E at 1. apply app_inv_head in E. symmetry in E. apply app_eq_nil in E. destruct E as [-> _]. now rewrite app_nil_r. Qed.
(** the same answers before the end of [T]: both come as far as [T], or they are the same *)
Lemma block_before w w' T es s : same_machine w w' -> same_answers_before w w' T ->
  eval_block w es s = eval_block w' es s \/
  exists t msg, starts_with (t ++ [Sent msg]) (s_trace (snd (eval_block w es s))) /\ starts_with (t ++ [Sent msg]) (s_trace (snd (eval_block w' es s))) /\ ~ (starts_with (t ++ [Sent msg]) T /\ t ++ [Sent msg] <> T).
Proof.
  destruct w as [h pr net], w' as [h' pr' net']. intros [E1 E2] S. cbn in E1, E2. subst h' pr'.
  destruct (block_causal h pr net net' (fun t msg => ~ (starts_with (t ++ [Sent msg]) T /\ t ++ [Sent msg] <> T))) with (es := es) as (_ & _ & K).
  - intros t msg. destruct (sw_dec (t ++ [Sent msg]) T) as [A|A]; [|left; tauto]. destruct (list_eq_dec event_dec (t ++ [Sent msg]) T) as [B|B]; [left; tauto|]. right. symmetry. apply (S t msg A B).
  - destruct (K s) as [X|(t & msg & d & A & B)]; [now left|]. right. exists t, msg. auto.
Qed.
Lemma block_answers w w' T es s : same_machine w w' -> same_answers w w' T ->
  eval_block w es s = eval_block w' es s \/
  exists t msg, starts_with (t ++ [Sent msg]) (s_trace (snd (eval_block w es s))) /\ starts_with (t ++ [Sent msg]) (s_trace (snd (eval_block w' es s))) /\ ~ starts_with (t ++ [Sent msg]) T.
Proof.
  destruct w as [h pr net], w' as [h' pr' net']. intros [E1 E2] S. cbn in E1, E2. subst h' pr'.
  destruct (block_causal h pr net net' (fun t msg => ~ starts_with (t ++ [Sent msg]) T)) with (es := es) as (_ & _ & K).
  - intros t msg. destruct (sw_dec (t ++ [Sent msg]) T) as [A|A]; [|left; tauto]. right. symmetry. apply (S t msg A).
  - destruct (K s) as [X|(t & msg & d & A & B)]; [now left|]. right. exists t, msg. auto.
Qed.
Theorem causal_program w w' T es s : same_machine w w' -> same_answers_before w w' T ->
  starts_with T (s_trace (snd (eval_block w es s))) -> starts_with T (s_trace (snd (eval_block w' es s))).
Proof.
  intros M S P. destruct (block_before w w' T es s M S) as [<-|(t & msg & A & B & N)]; auto. destruct (sw_compare _ _ _ P A) as [X|X]; [eapply sw_trans; eauto|].
  destruct (list_eq_dec event_dec (t ++ [Sent msg]) T) as [E|E]; [now rewrite <- E|]. exfalso. auto.
Qed.
Theorem answered_program w w' es s : same_machine w w' -> same_answers w w' (s_trace (snd (eval_block w es s))) -> eval_block w' es s = eval_block w es s.
Proof. intros M S. destruct (block_answers w w' _ es s M S) as [->|(t & msg & A & B & N)]; auto. contradiction. Qed.

(** ** a thread on its own *)
Definition relocate (w : env) (t : tester) : tester := Test (te_job t) w (te_path t) (te_accept t) (te_number t) (te_state t) (te_phase t) (te_todo t).
Definition pending (t : tester) : list event := flat_map (fun a => said (Some a)) (te_todo t).
Lemma pending_does l : flat_map (fun a => said (Some a)) (map Does l) = l.
Proof. induction l as [|e l IH]; [reflexivity|]. cbn [map]. change (flat_map ?f (?a :: ?b)) with (f a ++ flat_map f b). rewrite IH. reflexivity. Qed.
Lemma pending_puts t rs k : flat_map (fun a => said (Some a)) (puts t rs k) = [].
Proof. unfold puts. now destruct (te_path t). Qed.
Lemma block_grows w es s : starts_with (s_trace s) (s_trace (snd (eval_block w es s))).
Proof. destruct (eval_block w es s) as [o s1] eqn:E. destruct (block_frame _ _ _ _ _ E) as (_ & _ & _ & tr & T). exists tr. exact T. Qed.
Lemma since_is s s1 x : s_trace s1 = s_trace s ++ x -> since s s1 = map Does x.
Proof. intros E. unfold since. rewrite E, skipn_app, skipn_all, Nat.sub_diag. reflexivity. Qed.
Lemma iteration_does stat t : exists x rest, s_trace (snd (eval_block (te_env t) (j_body (te_job t)) (te_state t))) = s_trace (te_state t) ++ x /\ te_todo (iteration stat t) = map Does x ++ rest /\
  s_trace (te_state (iteration stat t)) = s_trace (te_state t) ++ pending (iteration stat t) /\ te_env (iteration stat t) = te_env t.
Proof.
  destruct (block_grows (te_env t) (j_body (te_job t)) (te_state t)) as [x X]. exists x. unfold iteration, pending. destruct (eval_block _ _ _) as [o s1]. cbn [snd] in X. pose proof (since_is _ _ _ X) as Sn.
  destruct o as [v|e| |]; destruct (j_limit (te_job t)); cbn [ctx_records te_todo te_state s_trace te_env]; rewrite Sn; eexists; (split; [exact X|]);
    (split; [first [reflexivity|symmetry; apply app_nil_r]|]); split; auto; rewrite ?X, ?flat_map_app, ?pending_does, ?pending_puts, <- ?app_assoc; try reflexivity.
  all: try (destruct stat; cbn [flat_map said app]; rewrite ?app_nil_r; reflexivity).
Qed.
Lemma iteration_relocate stat w' t : same_machine (te_env t) w' -> eval_block (te_env t) (j_body (te_job t)) (te_state t) = eval_block w' (j_body (te_job t)) (te_state t) ->
  iteration stat (relocate w' t) = relocate w' (iteration stat t).
Proof.
  intros [Eh _] E. unfold iteration, relocate. cbn [te_job te_env te_path te_accept te_number te_state te_phase te_todo]. rewrite <- E, Eh.
  destruct (eval_block (te_env t) _ _) as [[v|e| |] s1]; destruct (j_limit (te_job t)); reflexivity.
Qed.
Lemma emitted stat l rest : forall x t, te_todo t = map Does x ++ rest -> starts_with l x -> exists v, walks stat t l v.
Proof.
  induction l as [|e l IH]; intros x t T [y ->]; [exists t; constructor|]. cbn [app map] in T.
  assert (M : exists u, tester_move stat true t = Some (Some (Does e), u) /\ te_todo u = map Does (l ++ y) ++ rest) by (unfold tester_move; rewrite T; eexists; split; reflexivity).
  destruct M as (u & M & Tu). destruct (IH (l ++ y) u Tu) as (v & W); [eexists; reflexivity|]. exists v. change (e :: l) with (said (Some (Does e)) ++ l). econstructor; eauto.
Qed.
Lemma all_emitted stat t l v : walks stat t l v -> te_todo v = [] -> starts_with (pending t) l.
Proof.
  induction 1 as [t|t a u l v M W IH]; intros E; [unfold pending; rewrite E; exists []; reflexivity|]. specialize (IH E). unfold pending, tester_move in *. destruct (te_todo t) as [|x rest] eqn:T; [eexists; reflexivity|].
  injection M as <- <-. cbn [te_todo flat_map] in *. destruct IH as [y ->]. exists y. now rewrite app_assoc.
Qed.
Lemma walks_pending stat t l v : walks stat t l v -> starts_with l (pending t) \/ starts_with (pending t) l.
Proof.
  induction 1 as [t|t a u l v M W IH]; [left; eexists; reflexivity|]. unfold pending, tester_move in *. destruct (te_todo t) as [|x rest] eqn:T; [right; eexists; reflexivity|].
  injection M as <- <-. cbn [te_todo flat_map] in *. destruct IH as [[y ->]|[y ->]]; [left|right]; exists y; now rewrite app_assoc.
Qed.
Lemma sw_front {A} (o a b : list A) : starts_with a b -> starts_with (o ++ a) (o ++ b).
Proof. intros [x ->]. exists x. apply app_assoc. Qed.
Lemma sw_cancel {A} (o a b : list A) : starts_with (o ++ a) (o ++ b) -> starts_with a b.
Proof. intros [x E]. exists x. rewrite <- app_assoc in E. now apply app_inv_head in E. Qed.
(** a move before the body is evaluated does not depend on the network *)
Lemma move_cases stat t a u : tester_move stat true t = Some (a, u) ->
  (te_todo t = [] /\ te_phase t = InBody /\ a = None /\ u = iteration stat t) \/
  (forall w, tester_move stat true (relocate w t) = Some (a, relocate w u)) /\ pending t = said a ++ pending u /\ te_state u = te_state t /\ te_env u = te_env t.
Proof.
  unfold tester_move, pending. destruct (te_todo t) as [|x rest] eqn:T.
  - destruct (te_phase t) eqn:P; try discriminate.
    + destruct (j_limit (te_job t)) as [m|] eqn:L; [|discriminate]. intros H. injection H as <- <-. right. repeat split. intros w. unfold relocate. cbn [te_job te_env te_path te_accept te_number te_state te_phase te_todo]. rewrite T, P, L. reflexivity.
    + intros H. injection H as <- <-. left. auto.
  - intros H. injection H as <- <-. right. repeat split. intros w. unfold relocate. cbn [te_job te_env te_path te_accept te_number te_state te_phase te_todo]. rewrite T. reflexivity.
Qed.
Lemma body_move stat w t : te_todo t = [] -> te_phase t = InBody -> tester_move stat true (relocate w t) = Some (None, iteration stat (relocate w t)).
Proof. intros T P. unfold tester_move. cbn [relocate te_todo te_phase]. now rewrite T, P. Qed.
Lemma walks_causal stat w' T u l v : walks stat u l v -> forall own, same_machine (te_env u) w' -> s_trace (te_state u) = own ++ pending u -> T = own ++ l -> same_answers_before (te_env u) w' T ->
  exists v', walks stat (relocate w' u) l v'.
Proof.
  induction 1 as [u|u a u1 l v M W IH]; intros own Sm Tr ET Sa; [eexists; constructor|]. destruct (move_cases _ _ _ _ M) as [(Td & Ph & -> & ->)|(Mw & Pn & Es & Ee)].
  - cbn [said app] in ET |- *. assert (Pe : pending u = []) by (unfold pending; now rewrite Td). rewrite Pe, app_nil_r in Tr.
    destruct (iteration_does stat u) as (x & rest & X & Tx & Ts & En). pose proof (body_move stat w' u Td Ph) as M'.
    destruct (block_before (te_env u) w' T (j_body (te_job u)) (te_state u) Sm Sa) as [E|(t & msg & A & B & N)].
    + destruct (IH own) as (v' & W'); rewrite ?En; auto; [now rewrite Ts, Tr|]. exists v'. change l with (said None ++ l). econstructor; [exact M'|]. rewrite (iteration_relocate stat w' u Sm E). exact W'.
    + destruct (iteration_does stat (relocate w' u)) as (x' & rest' & X' & Tx' & _ & _). cbn [relocate te_env te_job te_state] in X'.
      assert (P : starts_with T (t ++ [Sent msg])).
      { assert (Ap : starts_with (t ++ [Sent msg]) (own ++ pending (iteration stat u))).
        { eapply sw_trans; [exact A|]. rewrite X, Tr. unfold pending. rewrite Tx, flat_map_app, pending_does. eexists. rewrite <- app_assoc. reflexivity. }
        assert (Up : starts_with (t ++ [Sent msg]) T -> starts_with T (t ++ [Sent msg])).
        { intros U. destruct (list_eq_dec event_dec (t ++ [Sent msg]) T) as [E|E]; [rewrite <- E; apply sw_refl|exfalso; auto]. }
        destruct (walks_pending _ _ _ _ W) as [Q|Q]; apply (sw_front own) in Q; rewrite <- ET in Q.
        - destruct (sw_compare _ _ _ Q Ap) as [Z|Z]; auto.
        - apply Up. eapply sw_trans; eauto. }
      assert (Px : starts_with l x').
      { apply (sw_cancel own). rewrite <- ET, <- Tr, <- X'. eapply sw_trans; eauto. }
      destruct (emitted stat l rest' x' _ Tx' Px) as (v' & W'). exists v'. change l with (said None ++ l). econstructor; [exact M'|exact W'].
  - destruct (IH (own ++ said a)) as (v' & W'); rewrite ?Ee, ?Es; auto; [now rewrite Tr, Pn, app_assoc|now rewrite <- app_assoc|]. exists v'. econstructor; [apply Mw|exact W'].
Qed.
Lemma walks_answered stat w' T u l v : walks stat u l v -> te_todo v = [] -> forall own, same_machine (te_env u) w' -> s_trace (te_state u) = own ++ pending u -> T = own ++ l -> same_answers (te_env u) w' T ->
  walks stat (relocate w' u) l (relocate w' v).
Proof.
  intros W0 Tv. induction W0 as [u|u a u1 l v M W IH]; intros own Sm Tr ET Sa; [constructor|]. specialize (IH Tv). destruct (move_cases _ _ _ _ M) as [(Td & Ph & -> & ->)|(Mw & Pn & Es & Ee)].
  - cbn [said app] in ET |- *. assert (Pe : pending u = []) by (unfold pending; now rewrite Td). rewrite Pe, app_nil_r in Tr.
    destruct (iteration_does stat u) as (x & rest & X & Tx & Ts & En). pose proof (body_move stat w' u Td Ph) as M'.
    destruct (block_answers (te_env u) w' T (j_body (te_job u)) (te_state u) Sm Sa) as [E|(t & msg & A & B & N)].
    + change l with (said None ++ l). econstructor; [exact M'|]. rewrite (iteration_relocate stat w' u Sm E). apply (IH own); rewrite ?En; auto. now rewrite Ts, Tr.
    + exfalso. apply N. rewrite ET. eapply sw_trans; [exact A|]. rewrite X, Tr. apply sw_front. eapply sw_trans; [|exact (all_emitted _ _ _ _ W Tv)]. unfold pending. rewrite Tx, flat_map_app, pending_does. eexists. reflexivity.
  - econstructor; [apply Mw|]. apply (IH (own ++ said a)); rewrite ?Ee, ?Es; auto; [now rewrite Tr, Pn, app_assoc|now rewrite <- app_assoc].
Qed.


(** ** runs *)
Lemma split_seen g g' flag lg : forall js ts, Forall2 (traced g flag lg) js ts -> (forall j, In j js -> new_tester g' j = relocate (g_world g' (j_thread j)) (new_tester g j)) ->
  (forall id, same_machine (g_world g id) (g_world g' id) /\ same_answers_before (g_world g id) (g_world g' id) (events_of (Tester id) lg)) ->
  exists us, Forall2 (fun j u => walks false (new_tester g' j) (events_of (Tester (j_thread j)) lg) u) js us.
Proof.
  induction 1 as [|j t js ts (u & W & _) _ IH]; intros N S; [exists []; constructor|]. destruct IH as (us & A); auto. { intros; apply N; now right. }
  destruct (S (j_thread j)) as [Sm Sa]. destruct (walks_causal false (g_world g' (j_thread j)) _ _ _ _ W [] Sm eq_refl eq_refl Sa) as (v & V).
  exists (v :: us). constructor; auto. rewrite (N j) by now left. exact V.
Qed.
Lemma split_done g g' flag lg : forall js ts, Forall2 (traced g flag lg) js ts -> Forall (fun t => gone t = true) ts -> (forall j, In j js -> new_tester g' j = relocate (g_world g' (j_thread j)) (new_tester g j)) ->
  (forall id, same_machine (g_world g id) (g_world g' id) /\ same_answers (g_world g id) (g_world g' id) (events_of (Tester id) lg)) ->
  exists us vs, Forall2 (fun j u => walks false (new_tester g' j) (events_of (Tester (j_thread j)) lg) u) js us /\ Forall2 (stopped_at false flag) us vs /\ Forall (fun t => gone t = true) vs.
Proof.
  induction 1 as [|j t js ts (u & W & Sp) _ IH]; intros Go N S; [exists [], []; auto|]. inversion Go as [|? ? Gt Gts]; subst. destruct IH as (us & vs & A & B & C); auto. { intros; apply N; now right. }
  destruct (S (j_thread j)) as [Sm Sa]. assert (Tu : te_todo u = []). { destruct Sp as [->|(_ & _ & _ & _ & Tu & _)]; auto. unfold gone in Gt. destruct (te_todo u); auto. destruct (te_phase u); discriminate Gt. }
  pose proof (walks_answered false (g_world g' (j_thread j)) _ _ _ _ W Tu [] Sm eq_refl eq_refl Sa) as V.
  exists (relocate (g_world g' (j_thread j)) u :: us), (relocate (g_world g' (j_thread j)) t :: vs). split; [constructor; auto; rewrite (N j) by (now left); exact V|]. split; constructor; auto.
  destruct Sp as [->|(F & T & P & M & Tu' & Pu)]; [now left|]. right. cbn [relocate te_todo te_phase]. repeat split; auto.
  unfold tester_move in *. cbn [relocate te_todo te_phase te_job]. rewrite Tu', Pu in *. destruct (j_limit (te_job u)); [|discriminate M]. injection M as <-. reflexivity.
Qed.
Lemma replayed g js first js1 js2 lg us d : g_stat g = false -> (forall path, g_creates g path = true) -> js = js1 ++ js2 -> NoDup (map j_thread js) ->
  Forall (fun x => exists j, In j js1 /\ fst x = Tester (j_thread j)) lg -> Forall2 (fun j u => walks false (new_tester g j) (events_of (Tester (j_thread j)) lg) u) js1 us ->
  (exists q1 d1, goes g (begin js first d) (Process (Starting js2) us true q1 [] false (map (pair Main) first ++ lg) d1)) /\
  (js2 = [] -> exists q1 d1, goes g (begin js first d) (Process Joining us true q1 [] false (map (pair Main) first ++ lg) d1)).
Proof.
  intros St Cr Jo ND By Wk. assert (ND1 : NoDup (map j_thread js1)) by (subst js; rewrite map_app in ND; eapply nodup_front; exact ND).
  assert (Wk' : Forall2 (fun t v => walks false t (events_of (own t) lg) v) (map (new_tester g) js1) us) by (clear -Wk; induction Wk as [|j u js us W _ IH]; cbn [map]; constructor; auto).
  assert (ND2 : NoDup (map (fun t => j_thread (te_job t)) (map (new_tester g) js1))) by (rewrite map_map; exact ND1).
  assert (By2 : Forall (fun x => exists t, In t (map (new_tester g) js1) /\ fst x = own t) lg).
  { eapply Forall_impl; [|exact By]. intros x (k & Ik & F). exists (new_tester g k). split; [now apply in_map|exact F]. }
  destruct (all_started g first Cr js1 js2 [] d) as (d1 & G1). rewrite <- Jo in G1. cbn [app] in G1. change (Process (Starting js) [] true [] [] false (map (pair Main) first) d) with (begin js first d) in G1. split.
  - destruct (replay g (Starting js2) [] false eq_refl St lg _ _ Wk' ND2 By2 [] (map (pair Main) first) d1) as (q2 & d2 & G2). exists q2, d2. eapply goes_trans; [exact G1|exact G2].
  - intros ->. destruct (replay g Joining [] false eq_refl St lg _ _ Wk' ND2 By2 [] (map (pair Main) first) d1) as (q2 & d2 & G2). exists q2, d2. eapply goes_trans; [|exact G2]. eapply go_step; [exact G1|apply ps_started].
Qed.
Lemma causal_jobs g g' js first d d' p : g_stat g = false -> g_stat g' = false -> (forall path, g_creates g' path = true) -> (forall j, In j js -> j_file j = None) -> NoDup (map j_thread js) ->
  goes g (begin js first d) p -> (forall id, same_machine (g_world g id) (g_world g' id) /\ same_answers_before (g_world g id) (g_world g' id) (events_of (Tester id) (p_log p))) ->
  exists p', goes g' (begin js first d') p' /\ p_log p' = p_log p /\ p_flag p' = p_flag p.
Proof.
  intros St St' Cr Nf ND G Sa. destruct (made g js first d p St Nf ND G) as (js1 & js2 & lg & Mo). destruct (made_events _ _ _ _ _ _ _ Mo) as (_ & Et). destruct Mo as [Jo Ma Lg By Ea Re].
  assert (Nt : forall j, In j js1 -> new_tester g' j = relocate (g_world g' (j_thread j)) (new_tester g j)).
  { intros j I. assert (N : j_file j = None) by (apply Nf; subst js; apply in_or_app; auto). unfold new_tester, relocate. rewrite N. reflexivity. }
  destruct (split_seen g g' _ _ _ _ Ea Nt) as (us & Wk). { intros id. rewrite <- Et. apply Sa. }
  destruct (replayed g' js first js1 js2 lg us d' St' Cr Jo ND By Wk) as ((q1 & d1 & G1) & J). destruct Ma as [[_ F]|(Z & _)].
  - eexists. split; [exact G1|]. split; auto.
  - destruct (J Z) as (q2 & d2 & G2). destruct (p_flag p) eqn:F.
    + eexists. split; [exact G2|]. split; auto.
    + eexists. split; [eapply go_step; [exact G2|apply ps_stop]|]. split; auto.
Qed.
Lemma answered_jobs g g' js first d d' p : g_stat g = false -> g_stat g' = false -> (forall path, g_creates g' path = true) -> (forall j, In j js -> j_file j = None) -> NoDup (map j_thread js) ->
  goes g (begin js first d) p -> (forall id, same_machine (g_world g id) (g_world g' id) /\ same_answers (g_world g id) (g_world g' id) (events_of (Tester id) (p_log p))) -> (exists b, p_main p = Gone b) ->
  exists p', goes g' (begin js first d') p' /\ p_log p' = p_log p /\ p_flag p' = p_flag p /\ p_main p' = p_main p.
Proof.
  intros St St' Cr Nf ND G Sa (b & Mg). destruct (made g js first d p St Nf ND G) as (js1 & js2 & lg & Mo). destruct (made_events _ _ _ _ _ _ _ Mo) as (_ & Et). destruct Mo as [Jo Ma Lg By Ea Re].
  assert (Nt : forall j, In j js1 -> new_tester g' j = relocate (g_world g' (j_thread j)) (new_tester g j)).
  { intros j I. assert (N : j_file j = None) by (apply Nf; subst js; apply in_or_app; auto). unfold new_tester, relocate. rewrite N. reflexivity. }
  destruct Ma as [[X _]|(Z & [X|[X Go]])]; try (rewrite Mg in X; discriminate X).
  destruct (split_done g g' _ _ _ _ Ea Go Nt) as (us & vs & Wk & Sp & Gv). { intros id. rewrite <- Et. apply Sa. }
  destruct (replayed g' js first js1 js2 lg us d' St' Cr Jo ND By Wk) as (_ & J). destruct (J Z) as (q2 & d2 & G2). rewrite X. destruct (p_flag p) eqn:F.
  - apply unstopped in Sp. subst vs. eexists. split; [eapply go_step; [exact G2|apply ps_exit; auto]|]. split; auto.
  - destruct (all_stopped g' Joining [] false eq_refl St' (map (pair Main) first ++ lg) us vs Sp [] q2 d2) as (q4 & d4 & G4). cbn [app] in G4.
    eexists. split; [eapply go_step; [eapply goes_trans; [eapply go_step; [exact G2|apply ps_stop]|exact G4]|apply ps_exit; auto]|]. split; auto.
Qed.
Definition bare (g : setting) : setting := Setting false (g_dir g) (g_creates g) (g_accepts g) (g_world g) (g_order g) (g_heeds g).
(** what has been done depends on the answers to earlier requests only *)
Theorem causal_run g g' iter w root name threads duration number record record' pod pod' d d' p : (forall path, g_creates g' path = true) -> numbered_apart iter w root name ->
  goes g (launch iter w root name threads duration number record pod d) p ->
  (forall id, same_machine (g_world g id) (g_world g' id) /\ same_answers_before (g_world g id) (g_world g' id) (events_of (Tester id) (p_log p))) ->
  exists p', goes g' (launch iter w root name threads duration number record' pod' d') p' /\ tests_part (p_log p') = tests_part (p_log p) /\ p_flag p' = p_flag p.
Proof.
  intros Cr Ap G Sa. assert (W : same_worlds g (bare g)) by (intros id; reflexivity). assert (W' : same_worlds g' (bare g')) by (intros id; reflexivity).
  destruct (aside_off g (bare g) _ _ _ _ _ _ _ _ _ pod _ d _ W eq_refl G) as (p0 & G0 & L0 & F0 & _).
  assert (K : exists p1, goes (bare g') (launch iter w root name threads duration number false pod d) p1 /\ p_log p1 = p_log p0 /\ p_flag p1 = p_flag p0).
  { destruct (launch_begins iter w root name threads duration number pod d Ap) as [(js & first & B & Nf & ND)|[B _]].
    - rewrite B in *. apply (causal_jobs (bare g) (bare g') js first d d p0); auto. intros id. rewrite L0, tests_events by discriminate. apply Sa.
    - rewrite (B _ p0 G0). eexists. split; [constructor|auto]. }
  destruct K as (p1 & G1 & L1 & F1). destruct (aside_on g' (bare g') _ _ _ _ _ _ _ record' pod' pod d' _ _ W' eq_refl Cr G1) as (p2 & G2 & L2 & F2 & _). exists p2. split; auto. split; congruence.
Qed.
(** and a run that has ended on nothing but the answers it got *)
Theorem answered_run g g' iter w root name threads duration number record record' pod pod' d d' p b : (forall path, g_creates g path = true) -> (forall path, g_creates g' path = true) -> numbered_apart iter w root name ->
  goes g (launch iter w root name threads duration number record pod d) p -> p_main p = Gone b ->
  (forall id, same_machine (g_world g id) (g_world g' id) /\ same_answers (g_world g id) (g_world g' id) (events_of (Tester id) (p_log p))) ->
  exists p', goes g' (launch iter w root name threads duration number record' pod' d') p' /\ tests_part (p_log p') = tests_part (p_log p) /\ p_flag p' = p_flag p /\ p_main p' = Gone b.
Proof.
  intros Cr Cr' Ap G Mg Sa. assert (W : same_worlds g (bare g)) by (intros id; reflexivity). assert (W' : same_worlds g' (bare g')) by (intros id; reflexivity).
  destruct (aside_off g (bare g) _ _ _ _ _ _ _ _ _ pod _ d _ W eq_refl G) as (p0 & G0 & L0 & F0 & _ & M0). specialize (M0 Cr b Mg).
  assert (K : exists p1, goes (bare g') (launch iter w root name threads duration number false pod d) p1 /\ p_log p1 = p_log p0 /\ p_flag p1 = p_flag p0 /\ p_main p1 = p_main p0).
  { destruct (launch_begins iter w root name threads duration number pod d Ap) as [(js & first & B & Nf & ND)|[B _]].
    - rewrite B in *. apply (answered_jobs (bare g) (bare g') js first d d p0); auto; [|eauto]. intros id. rewrite L0, tests_events by discriminate. apply Sa.
    - rewrite (B _ p0 G0). eexists. split; [constructor|auto]. }
  destruct K as (p1 & G1 & L1 & F1 & M1). destruct (aside_on g' (bare g') _ _ _ _ _ _ _ record' pod' pod d' _ _ W' eq_refl Cr' G1) as (p2 & G2 & L2 & F2 & M2). exists p2. split; auto. split; [congruence|]. split; [congruence|]. apply M2. congruence.
Qed.
