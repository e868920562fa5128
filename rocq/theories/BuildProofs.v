(** Builds with and without overflow checks agree *)
From Verif Require Import SyntaxProofs EqualityProofs EvaluatorTop SpecBuild.
Open Scope N_scope.

Section Hosts.
Variables (plain : char -> bool) (order : list str -> list str).
Notation h1 := (Host plain order true).
Notation h2 := (Host plain order false).

Lemma debug_same v : debug_value h1 v = debug_value h2 v.
Proof.
  induction v as [|z|f|b|s|l H|l H] using value_ind2; cbn [debug_value h_plain h_order]; try reflexivity.
  - do 3 f_equal. apply map_ext_in. intros v I. rewrite Forall_forall in H. auto.
  - assert (E : map (fun kv => (fst kv, debug_str plain (fst kv) ++ lit ": " ++ debug_value h1 (snd kv))) l =
                map (fun kv => (fst kv, debug_str plain (fst kv) ++ lit ": " ++ debug_value h2 (snd kv))) l).
    { apply map_ext_in. intros kv I. rewrite Forall_forall in H. now rewrite H. }
    now rewrite E.
Qed.
Lemma show_same v : show_value h1 v = show_value h2 v.
Proof.
  destruct v as [|z|f|b|s|l|l]; cbn [show_value h_plain h_order]; try reflexivity.
  - do 3 f_equal. apply map_ext. apply debug_same.
  - assert (E : map (fun kv => (fst kv, debug_str plain (fst kv) ++ lit ": " ++ debug_value h1 (snd kv))) l =
                map (fun kv => (fst kv, debug_str plain (fst kv) ++ lit ": " ++ debug_value h2 (snd kv))) l).
    { apply map_ext. intros kv. now rewrite debug_same. }
    now rewrite E.
Qed.
Lemma text_same e : everr_text h1 e = everr_text h2 e.
Proof. destruct e; cbn [everr_text]; now rewrite ?show_same, ?debug_same. Qed.
Lemma json_same e : expr_eval h1 e = expr_eval h2 e.
Proof.
  induction e using expr_ind2; cbn [expr_eval]; try reflexivity.
  - f_equal. apply map_ext_in. intros e I. rewrite Forall_forall in H. auto.
  - do 2 f_equal. apply map_ext_in. intros kv I. rewrite Forall_forall in H. destruct (H _ I) as [-> ->]. now rewrite show_same.
Qed.
Lemma map_same r : to_map h1 r = to_map h2 r.
Proof. unfold to_map. destruct (parse (rs_body r)) as [src| | |]; try reflexivity. destruct (s_exprs src); [reflexivity|]. now rewrite json_same. Qed.
Lemma format_same vs : native_format h1 vs = native_format h2 vs.
Proof.
  unfold native_format. destruct (pop (rev vs)) as [[[]|] rest]; try reflexivity. destruct (Nat.eqb _ _); [|reflexivity]. do 2 f_equal.
  generalize s at 2 4 as x. induction (combine (rev (find_iter s)) rest) as [|p l IH]; intros x; [reflexivity|]. cbn [fold_left]. now rewrite show_same, IH.
Qed.

(** results *)
Definition near {A} (a b : out everr A) : Prop := a = b \/ a = Panic.
Lemma arith_near z : near (arith h1 z) (arith h2 z).
Proof. unfold arith, near. destruct (in_i64 z); cbn; auto. Qed.
Lemma unary_near t v : near (unary_value h1 t v) (unary_value h2 t v).
Proof. unfold unary_value. destruct (tkind t), v; try (left; reflexivity); try apply arith_near. Qed.
Lemma index_same v i : index_value h1 v i = index_value h2 v i.
Proof. unfold index_value. destruct v; try reflexivity. now rewrite show_same. Qed.
Lemma strict_near k : match strict_op h1 k, strict_op h2 k with Some f, Some g => forall l r, near (f l r) (g l r) | None, None => True | _, _ => False end.
Proof.
  destruct k; cbn [strict_op]; trivial; intros l r; try (left; reflexivity).
  all: destruct l, r; try (left; reflexivity); try apply arith_near.
  all: unfold value_shl, value_shr, int_shl, int_shr; destruct (_ && _)%bool; [left; reflexivity|right; reflexivity].
Qed.

(** steps *)
Definition grows {A} (m : evm A) : Prop := forall s, exists tr, s_trace (snd (m s)) = s_trace s ++ tr.
Definition agrees {A} (m1 m2 : evm A) : Prop :=
  grows m2 /\ forall s, m1 s = m2 s \/ exists s1, m1 s = (Panic, s1) /\ starts_with (s_trace s1) (s_trace (snd (m2 s))).

Lemma agrees_same {A} (m : evm A) : grows m -> agrees m m.
Proof. intros G. split; auto. Qed.
Lemma agrees_ext {A} (m1 m2 : evm A) : grows m2 -> (forall s, m1 s = m2 s) -> agrees m1 m2.
Proof. intros G E. split; auto. Qed.
Lemma grows_ret {A} (a : A) : grows (ret a).
Proof. intros s. exists []. now rewrite app_nil_r. Qed.
Lemma agrees_ret {A} (a : A) : agrees (ret a) (ret a).
Proof. apply agrees_same, grows_ret. Qed.
Lemma agrees_lift {A} (a b : out everr A) : near a b -> agrees (lift a) (lift b).
Proof.
  intros N. split; [intros s; exists []; now rewrite app_nil_r|]. intros s. destruct N as [-> | ->]; [left; reflexivity|].
  right. exists s. split; [reflexivity|]. exists []. now rewrite app_nil_r.
Qed.
Lemma agrees_bind {A B} (m1 m2 : evm A) (k1 k2 : A -> evm B) : agrees m1 m2 -> (forall a, agrees (k1 a) (k2 a)) -> agrees (bind m1 k1) (bind m2 k2).
Proof.
  intros [G E] K.
  assert (L : forall s, exists tr, s_trace (snd (bind m2 k2 s)) = s_trace (snd (m2 s)) ++ tr).
  { intros s. unfold bind. destruct (m2 s) as [[a|e| |] s1]; cbn [snd]; try (exists []; now rewrite app_nil_r). apply (proj1 (K a)). }
  split.
  - intros s. destruct (G s) as (tr & T), (L s) as (tr' & T'). exists (tr ++ tr'). now rewrite T', T, app_assoc.
  - intros s. destruct (E s) as [E1|(s1 & E1 & P)].
    + unfold bind. rewrite E1. destruct (m2 s) as [[a|e| |] s1]; [apply (proj2 (K a))|left; reflexivity..].
    + right. exists s1. unfold bind at 1. rewrite E1. split; [reflexivity|]. destruct P as (x & P), (L s) as (tr & T). exists (x ++ tr). now rewrite T, P, app_assoc.
Qed.
Lemma agrees_null m1 m2 : agrees m1 m2 -> agrees (or_null m1) (or_null m2).
Proof.
  intros [G E].
  assert (L : forall s, snd (or_null m2 s) = snd (m2 s)) by (intros s; unfold or_null; destruct (m2 s) as [[] ?]; reflexivity).
  split.
  - intros s. rewrite L. apply G.
  - intros s. rewrite L. unfold or_null. destruct (E s) as [-> |(s1 & -> & P)]; [left; reflexivity|]. right. exists s1. auto.
Qed.

Lemma native_agrees n vs : agrees (native_call h1 n vs) (native_call h2 n vs).
Proof.
  unfold native_call, native_println, native_print. rewrite (format_same vs).
  repeat match goal with |- context [if ?b then _ else _] => destruct b end; try (apply agrees_lift; left; reflexivity).
  all: apply agrees_ext; [intros s; destruct (native_format h2 vs); cbn; eexists; try reflexivity; symmetry; apply app_nil_r|intros s; destruct (native_format h2 vs); cbn; now rewrite ?show_same].
Qed.

Section Calls.
Variables c1 c2 : str -> list value -> evm value.
Hypothesis HC : forall n vs, agrees (c1 n vs) (c2 n vs).

Lemma eval_agrees e : agrees (eval h1 c1 e) (eval h2 c2 e).
Proof.
  induction e using expr_ind2; cbn [eval]; try apply agrees_ret.
  - apply agrees_bind; [|intros; apply agrees_ret]. induction H as [|e es He Hes IH]; [apply agrees_ret|].
    apply agrees_bind; [exact He|]. intros v. apply agrees_bind; [exact IH|]. intros; apply agrees_ret.
  - apply agrees_bind; [|intros; apply agrees_ret]. generalize (@nil (str * value)) as m. induction H as [|[k v] ps [Hk Hv] Hps IH]; intros m; [apply agrees_ret|].
    apply agrees_bind; [exact Hk|]. intros kv. apply agrees_bind; [exact Hv|]. intros vv. rewrite show_same. apply IH.
  - apply agrees_bind; [assumption|]. intros v. apply agrees_bind; [assumption|]. intros i. apply agrees_lift. left. apply index_same.
  - apply agrees_bind; [assumption|]. intros v. apply agrees_lift. left. reflexivity.
  - apply agrees_same. intros s. exists []. rewrite app_nil_r. now destruct (ctx_get (s_ctx s) n).
  - apply agrees_bind; [assumption|]. intros v. apply agrees_same. intros s. exists []. now rewrite app_nil_r.
  - apply agrees_bind; [assumption|]. intros v. apply agrees_lift, unary_near.
  - pose proof (strict_near (tkind t)) as S. destruct (strict_op h1 (tkind t)) as [f|], (strict_op h2 (tkind t)) as [g|]; try destruct S.
    + apply agrees_bind; [assumption|]. intros l. apply agrees_bind; [assumption|]. intros r. apply agrees_lift, S.
    + destruct (tkind t); try (apply agrees_lift; left; reflexivity).
      all: apply agrees_bind; [assumption|]; intros l; destruct (falsy l); first [assumption|apply agrees_ret].
  - exact IHe.
  - apply agrees_bind; [assumption|]. intros v.
    destruct (falsy v).
    + clear H. generalize VNull as last. induction H0 as [|x es Hx Hes IH]; intros last; [apply agrees_ret|]. apply agrees_bind; [exact Hx|]. intros; apply IH.
    + clear H0. generalize VNull as last. induction H as [|x es Hx Hes IH]; intros last; [apply agrees_ret|]. apply agrees_bind; [exact Hx|]. intros; apply IH.
  - apply agrees_bind; [|intros; apply HC]. induction H as [|e es He Hes IH]; [apply agrees_ret|].
    apply agrees_bind; [exact He|]. intros v. apply agrees_bind; [exact IH|]. intros; apply agrees_ret.
Qed.
Lemma exprs_agree es : forall last, agrees (eval_exprs h1 c1 last es) (eval_exprs h2 c2 last es).
Proof. induction es as [|e es IH]; intros last; [apply agrees_ret|]. apply agrees_bind; [apply eval_agrees|]. intros; apply IH. Qed.
End Calls.

Lemma asserts_agree ev1 ev2 l : (forall e, agrees (ev1 e) (ev2 e)) -> agrees (eval_asserts h1 ev1 l) (eval_asserts h2 ev2 l).
Proof.
  intros H. induction l as [|e l IH]; [apply agrees_ret|]. destruct e; cbn [eval_asserts]; try exact IH.
  apply agrees_bind; [apply agrees_null, H|]. intros a. apply agrees_bind; [apply agrees_null, H|]. intros b. apply agrees_bind; [exact IH|]. intros as_.
  rewrite !show_same. apply agrees_ret.
Qed.

Variables (prepare : list part -> bool) (net : list event -> str -> exchange).
Notation w1 := (Env h1 prepare net).
Notation w2 := (Env h2 prepare net).
Lemma request_agrees ev1 ev2 n message asserts : (forall e, agrees (ev1 e) (ev2 e)) -> agrees (request_call w1 ev1 n message asserts) (request_call w2 ev2 n message asserts).
Proof.
  intros H. assert (V : forall c, substitute (var_text h1 c) message = substitute (var_text h2 c) message).
  { intros c. unfold substitute. generalize (rev (map (fun r => (placeholder_name message r, r)) (find_iter message))) as l. intros l. generalize message as x.
    induction l as [|p l IH]; intros x; [reflexivity|]. cbn [fold_left].
    replace (var_text h1 c (fst p)) with (var_text h2 c (fst p)); [apply IH|]. unfold var_text. now destruct (ctx_get c (fst p)); rewrite show_same. }
  split.
  - intros s. unfold request_call. cbn [e_host]. set (msg := substitute _ message).
    assert (T : s_trace (emit (Sent msg) s) = s_trace s ++ [Sent msg]) by reflexivity.
    destruct (client_send _ _ msg) as [[[[rq rs] t] error]|e| |]; cbn [snd]; try (eexists; exact T).
    destruct (to_map h2 rs) as [m|e| |]; cbn [snd]; try (eexists; exact T).
    pose proof (proj1 (asserts_agree ev1 ev2 asserts H) (St (ctx_from m) (s_trace (emit (Sent msg) s)))) as (tr & G).
    destruct (eval_asserts h2 ev2 asserts _) as [[a|e| |] sl]; cbn [snd s_trace] in *; rewrite G, T; eexists; symmetry; apply app_assoc.
  - intros s. unfold request_call. cbn [e_host e_net e_prepare]. rewrite V. set (msg := substitute _ message).
    destruct (client_send _ _ msg) as [[[[rq rs] t] error]|e| |]; try (left; reflexivity).
    rewrite map_same. destruct (to_map h2 rs) as [m|e| |]; try (left; reflexivity).
    destruct (proj2 (asserts_agree ev1 ev2 asserts H) (St (ctx_from m) (s_trace (emit (Sent msg) s)))) as [-> |(s1 & -> & P)]; [left; reflexivity|].
    right. exists (St (s_ctx s) (s_trace s1)). split; [reflexivity|]. cbn [s_trace].
    destruct (eval_asserts h2 ev2 asserts _) as [[a|e| |] sl]; exact P.
Qed.
Lemma call_agrees d : forall n vs, agrees (call_at w1 d n vs) (call_at w2 d n vs).
Proof.
  induction d as [|d IH]; intros n vs.
  - split.
    + intros s. cbn [call_at]. destruct (ctx_request (s_ctx s) n) as [[]|]; [exists []; now rewrite app_nil_r|]. apply (proj1 (native_agrees n vs)).
    + intros s. cbn [call_at]. destruct (ctx_request (s_ctx s) n) as [[]|]; [left; reflexivity|]. apply (proj2 (native_agrees n vs)).
  - assert (R : forall m a, agrees (request_call w1 (eval h1 (call_at w1 d)) n m a) (request_call w2 (eval h2 (call_at w2 d)) n m a)) by (intros; apply request_agrees; intros; now apply eval_agrees).
    split.
    + intros s. cbn [call_at]. destruct (ctx_request (s_ctx s) n) as [[m a]|]; [apply (proj1 (R m a))|]. apply (proj1 (native_agrees n vs)).
    + intros s. cbn [call_at]. destruct (ctx_request (s_ctx s) n) as [[m a]|]; [apply (proj2 (R m a))|]. apply (proj2 (native_agrees n vs)).
Qed.
Lemma block_agrees es : agrees (eval_block w1 es) (eval_block w2 es).
Proof. apply exprs_agree. apply call_agrees. Qed.
End Hosts.

Theorem builds_agree : forall (w : env) (es : list expr) (s : st),
  eval_block (in_build true w) es s = eval_block (in_build false w) es s \/
  exists s1, eval_block (in_build true w) es s = (Panic, s1) /\ starts_with (s_trace s1) (s_trace (snd (eval_block (in_build false w) es s))).
Proof. intros w es. apply block_agrees. Qed.

Lemma command_agrees w text s : command_eval (in_build true w) text s = command_eval (in_build false w) text s \/
  exists s1, command_eval (in_build true w) text s = (Panic, s1) /\ starts_with (s_trace s1) (s_trace (snd (command_eval (in_build false w) text s))).
Proof.
  unfold command_eval. destruct (parse text) as [src|e| |]; try (left; reflexivity).
  destruct (builds_agree w (s_exprs src) (upd (fun c => ctx_extend c (s_requests src)) s)) as [-> |(s1 & -> & P)].
  - left. unfold in_build. cbn [e_host]. destruct (eval_block _ _ _) as [[v|e| |] s1]; try reflexivity; [now rewrite show_same|now rewrite text_same].
  - right. exists s1. split; [reflexivity|]. destruct P as (x & P). destruct (eval_block (in_build false w) _ _) as [[v|e| |] s2]; cbn [snd] in *; unfold println_, emit; cbn [s_trace]; rewrite P; try (eexists; reflexivity).
    all: rewrite <- app_assoc; eexists; reflexivity.
Qed.

Theorem eval_builds : forall (w : env) (text : str),
  eval_main (in_build true w) text = eval_main (in_build false w) text \/
  fst (eval_main (in_build true w) text) = Some false /\
  starts_with (snd (eval_main (in_build true w) text)) (snd (eval_main (in_build false w) text)).
Proof.
  intros w text. unfold eval_main. destruct (command_agrees w text (St ctx_new [])) as [-> |(s1 & -> & P)]; [left; reflexivity|].
  right. split; [reflexivity|]. cbn [snd]. destruct (command_eval _ _ _) as [[]]; exact P.
Qed.

Lemma command_grows w text s : starts_with (s_trace s) (s_trace (snd (command_eval w text s))).
Proof.
  unfold command_eval. destruct (parse text) as [src|e| |]; cbn [snd]; try (exists []; now rewrite app_nil_r); [|eexists; reflexivity].
  destruct (eval_block _ _ _) as [o s1] eqn:E. destruct (block_frame _ _ _ _ _ E) as (_ & _ & _ & tr & T). cbn [upd s_trace] in T.
  destruct o; cbn [snd]; unfold println_, emit; cbn [s_trace]; rewrite T, <- ?app_assoc; eexists; reflexivity.
Qed.
Lemma starts_trans3 {A} (a b c : list A) : starts_with a b -> starts_with b c -> starts_with a c.
Proof. intros [x ->] [y ->]. exists (x ++ y). now rewrite app_assoc. Qed.
Lemma interact_grows w cap : forall fuel b s, starts_with (s_trace s) (s_trace (snd (interact fuel w cap b s))).
Proof.
  induction fuel as [|f IH]; intros b s; cbn [interact]; [exists []; now rewrite app_nil_r|].
  destruct (next_line cap b) as [[| |t|] b']; cbn [snd]; try (exists []; now rewrite app_nil_r); [apply IH|].
  destruct (str_eqb t _); [exists []; now rewrite app_nil_r|]. destruct (trim t); [apply IH|].
  pose proof (command_grows w t s) as G. destruct (command_eval w t s) as [[] s1]; cbn [snd] in *; try exact G. eapply starts_trans3; eauto.
Qed.
Lemma interact_agrees w cap : forall fuel b s, interact fuel (in_build true w) cap b s = interact fuel (in_build false w) cap b s \/
  exists s1, interact fuel (in_build true w) cap b s = (Died, s1) /\ starts_with (s_trace s1) (s_trace (snd (interact fuel (in_build false w) cap b s))).
Proof.
  induction fuel as [|f IH]; intros b s; cbn [interact]; [left; reflexivity|].
  destruct (next_line cap b) as [[| |t|] b']; try (left; reflexivity); [apply IH|].
  destruct (str_eqb t _); [left; reflexivity|]. destruct (trim t); [apply IH|].
  destruct (command_agrees w t s) as [-> |(s1 & -> & P)].
  - destruct (command_eval _ t s) as [[] s1]; try (left; reflexivity). apply IH.
  - right. exists s1. split; [reflexivity|]. destruct (command_eval (in_build false w) t s) as [[] s2]; cbn [snd] in *; try exact P.
    eapply starts_trans3; [exact P|]. apply interact_grows.
Qed.
Theorem session_builds : forall (w : env) (input : incoming),
  repl_main (in_build true w) input = repl_main (in_build false w) input \/
  exists s1, repl_main (in_build true w) input = (Died, s1) /\ starts_with (s_trace s1) (s_trace (snd (repl_main (in_build false w) input))).
Proof. intros w input. apply interact_agrees. Qed.

Theorem test_builds : forall iter (w : env) (text : str) (name : option str) (threads number : N) (pod : option str),
  test_command iter (in_build true w) text name threads number pod = test_command iter (in_build false w) text name threads number pod \/
  exists s1, test_command iter (in_build true w) text name threads number pod = (Panic, s1) /\
    starts_with (s_trace s1) (s_trace (snd (test_command iter (in_build false w) text name threads number pod))).
Proof.
  intros iter w text name threads number pod.
  assert (S : test_setup (in_build true w) text = test_setup (in_build false w) text \/
    exists s1, test_setup (in_build true w) text = (Panic, s1) /\ starts_with (s_trace s1) (s_trace (snd (test_setup (in_build false w) text)))).
  { unfold test_setup. destruct (parse text) as [src|e| |]; try (left; reflexivity).
    destruct (builds_agree w (s_exprs src) (upd (fun c => ctx_extend c (s_requests src)) (St ctx_new []))) as [-> |(s1 & -> & P)].
    - left. unfold in_build. cbn [e_host]. destruct (eval_block _ _ _) as [[v|e| |] s1]; try reflexivity. now rewrite text_same.
    - right. exists s1. split; [reflexivity|]. destruct P as (x & P). destruct (eval_block (in_build false w) _ _) as [[v|e| |] s2]; cbn [snd] in *; unfold println_, emit; cbn [s_trace]; rewrite P; try (eexists; reflexivity).
      rewrite <- app_assoc; eexists; reflexivity. }
  unfold test_command. destruct S as [-> |(s1 & -> & P)]; [left; reflexivity|].
  right. exists s1. split; [reflexivity|]. destruct (test_setup (in_build false w) text) as [[[[tests c]|]|e| |] s2]; cbn [snd] in *; auto.
  destruct name as [n|]; cbn [snd]; auto. destruct (mget n tests) as [body|]; cbn [snd]; [destruct (maximun_of number threads); exact P|].
  unfold println_, emit. cbn [s_trace]. eapply starts_trans3; [exact P|]. eexists. reflexivity.
Qed.

Theorem durations_agree : forall s : str, parse_duration true s = parse_duration false s \/ parse_duration true s = Panic.
Proof.
  intros s. unfold parse_duration, mul64. repeat match goal with |- context [match ?x with _ => _ end] => destruct x; auto end.
Qed.

(** the threads of a run *)
Lemma move_same name body m stat flag t t' : same_thread t t' ->
  let x := thread_move name body m stat flag t in let y := thread_move name body m stat flag t' in
  th_phase (fst x) = Crashed \/ same_thread (fst x) (fst y) /\ snd x = snd y.
Proof.
  intros ((w & E1 & E2) & I & P & Nu & S & F & W). destruct t as [id e p nu s f ws], t' as [id' e' p' nu' s' f' ws']. cbn in *. subst.
  unfold thread_move. cbn [th_phase th_env th_id th_number th_state th_file th_writes].
  assert (K : forall p nu s f ws, same_thread (Thread id' (in_build true w) p nu s f ws) (Thread id' (in_build false w) p nu s f ws)) by (intros; split; [now exists w|cbn; tauto]).
  destruct p'; cbn [fst snd]; auto.
  destruct (builds_agree w body s') as [-> |(s1 & -> & Q)]; [|left; reflexivity].
  right. destruct (eval_block (in_build false w) body s') as [[v|er| |] s1]; cbn [fst snd]; auto.
  - destruct (ctx_records (s_ctx s1)) as [rs c]. cbn [fst snd]. auto.
  - unfold in_build at 2. cbn [e_host]. rewrite text_same. split; [apply K|reflexivity].
Qed.
Lemma crashed_stays order name body m stat r r' : run_step order name body m stat r r' -> no_crash r' -> no_crash r.
Proof.
  intros H N. destruct H; unfold no_crash in *; cbn [run_threads] in *; auto. rewrite Forall_app in *. destruct N as [N1 N2]. split; auto. inversion N2; subst. constructor; auto.
  intros E. rewrite E in H. discriminate H.
Qed.
Lemma same_live t t' : same_thread t t' -> live (th_phase t) = live (th_phase t') /\ th_phase t = th_phase t'.
Proof. intros (_ & _ & E & _). now rewrite E. Qed.
Lemma same_ended ts ts' : Forall2 same_thread ts ts' -> (forall t, In t ts -> live (th_phase t) = false /\ th_phase t <> Hung) <-> (forall t, In t ts' -> live (th_phase t) = false /\ th_phase t <> Hung).
Proof.
  intros F. induction F as [|t t' ts ts' S F IH]; [tauto|]. apply same_live in S. destruct S as [S1 S2]. split; intros H x [<-|I].
  - rewrite <- S1, <- S2. apply H. now left.
  - refine (proj1 IH _ x I). intros y J. apply H. now right.
  - rewrite S1, S2. apply H. now left.
  - refine (proj2 IH _ x I). intros y J. apply H. now right.
Qed.
Lemma step_forward order name body m stat x y x' : same_run x x' -> run_step order name body m stat x y -> no_crash y ->
  exists y', run_step order name body m stat x' y' /\ same_run y y'.
Proof.
  intros (F & A & B & C & D) H N. destruct x' as [ts' flag' q' st' p']. cbn [run_threads run_flag run_queue run_stats run_stat_phase] in *.
  destruct H as [ts1 t ts2 flag q mm p t1 sent L M|ts flag q mm p|ts flag rs q mm E|ts flag mm E L]; cbn [run_threads run_flag run_queue run_stats run_stat_phase] in *; subst.
  - apply Forall2_app_inv_l in F. destruct F as (us1 & us2 & F1 & F2 & ->). inversion F2 as [|? t' ? us3 S F3]; subst.
    pose proof (move_same name body m stat flag' t t' S) as MS. cbn zeta in MS. rewrite M in MS. cbn [fst snd] in MS.
    destruct (thread_move name body m stat flag' t') as [t1' sent'] eqn:M'. cbn [fst snd] in MS. destruct MS as [Cr|[S1 ->]].
    + exfalso. unfold no_crash in N. cbn [run_threads] in N. rewrite Forall_app in N. destruct N as [_ N]. inversion N; subst. auto.
    + eexists. split; [apply step_thread with (t' := t1') (sent := sent'); [rewrite <- (proj1 (same_live _ _ S)); exact L|exact M']|].
      split; [cbn [run_threads]; apply Forall2_app; auto|cbn; auto].
  - eexists. split; [apply step_stop|]. split; cbn; auto.
  - eexists. split; [apply step_receive; auto|]. split; cbn; auto.
  - eexists. split; [apply step_print; auto; apply (same_ended _ _ F); auto|]. split; cbn; auto.
Qed.
Lemma step_back order name body m stat x x' y' : same_run x x' -> run_step order name body m stat x' y' ->
  exists y, run_step order name body m stat x y /\ (~ no_crash y \/ same_run y y').
Proof.
  intros (F & A & B & C & D) H. destruct x as [ts' flag' q' st' p']. cbn [run_threads run_flag run_queue run_stats run_stat_phase] in *.
  destruct H as [ts1 t ts2 flag q mm p t1 sent L M|ts flag q mm p|ts flag rs q mm E|ts flag mm E L]; cbn [run_threads run_flag run_queue run_stats run_stat_phase] in *; subst.
  - apply Forall2_app_inv_r in F. destruct F as (us1 & us2 & F1 & F2 & ->). inversion F2 as [|t' ? us3 ? S F3]; subst.
    pose proof (move_same name body m stat flag t' t S) as MS. cbn zeta in MS. rewrite M in MS. cbn [fst snd] in MS.
    destruct (thread_move name body m stat flag t') as [t1' sent'] eqn:M'. cbn [fst snd] in MS.
    eexists. split; [apply step_thread with (t' := t1') (sent := sent'); [rewrite (proj1 (same_live _ _ S)); exact L|exact M']|].
    destruct MS as [Cr|[S1 ->]].
    + left. unfold no_crash. cbn [run_threads]. rewrite Forall_app. intros [_ N]. inversion N; subst. auto.
    + right. split; [cbn [run_threads]; apply Forall2_app; auto|cbn; auto].
  - eexists. split; [apply step_stop|]. right. split; cbn; auto.
  - eexists. split; [apply step_receive; auto|]. right. split; cbn; auto.
  - eexists. split; [apply step_print; auto; apply (same_ended _ _ F); auto|]. right. split; cbn; auto.
Qed.
Lemma start_same c worlds files threads :
  same_run (run_start c (fun i => in_build true (worlds i)) files threads) (run_start c (fun i => in_build false (worlds i)) files threads).
Proof.
  split; [|cbn; auto]. unfold run_start. cbn [run_threads]. generalize 0 as id. induction (N.to_nat threads) as [|n IH]; intros id; cbn [start_threads]; constructor; auto.
  split; [now exists (worlds id)|cbn; tauto].
Qed.
Theorem runs_forward : forall order name body c (worlds : N -> env) files (threads maximun : N) stat r,
  executes order name body maximun stat (run_start c (fun i => in_build true (worlds i)) files threads) r -> no_crash r ->
  exists r', executes order name body maximun stat (run_start c (fun i => in_build false (worlds i)) files threads) r' /\ same_run r r'.
Proof.
  intros order name body c worlds files threads maximun stat r H. remember (run_start c (fun i => in_build true (worlds i)) files threads) as r0 eqn:R0.
  induction H as [r|r r1 r2 H IH S]; intros N; subst.
  - eexists. split; [constructor|apply start_same].
  - destruct IH as (r' & X & Y); auto; [eapply crashed_stays; eauto|]. destruct (step_forward _ _ _ _ _ _ _ _ Y S N) as (y & Z & Y'). exists y. split; auto. econstructor; eauto.
Qed.
Theorem runs_back : forall order name body c (worlds : N -> env) files (threads maximun : N) stat,
  (forall r, executes order name body maximun stat (run_start c (fun i => in_build true (worlds i)) files threads) r -> no_crash r) ->
  forall r', executes order name body maximun stat (run_start c (fun i => in_build false (worlds i)) files threads) r' ->
  exists r, executes order name body maximun stat (run_start c (fun i => in_build true (worlds i)) files threads) r /\ same_run r r'.
Proof.
  intros order name body c worlds files threads maximun stat N r' H. remember (run_start c (fun i => in_build false (worlds i)) files threads) as r0 eqn:R0.
  induction H as [r|r r1 r2 H IH S]; subst.
  - eexists. split; [constructor|apply start_same].
  - destruct IH as (x & X & Y); auto. destruct (step_back _ _ _ _ _ _ _ _ Y S) as (y & Z & [B|Y']); [|exists y; split; auto; econstructor; eauto].
    exfalso. apply B. apply N. econstructor; eauto.
Qed.
