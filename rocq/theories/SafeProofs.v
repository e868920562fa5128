(** Evaluation returns: no endless loop, no abort *)
From Verif Require Import SpecSafe TextProofs SyntaxProofs ParserSound ParserTermination ValueProofs EvaluatorProofs JsonProofs ConnectProofs.

(** the outcome meant by [b] *)
Definition bad (b : bool) {A} (o : out everr A) : Prop :=
  match o with Panic => b = true | Diverge => b = false | _ => False end.

Section Safe.
  Variables (b : bool) (C : expr -> Prop) (R : amap (str * list expr) -> Prop).
  Definition safe {A} (m : evm A) : Prop := forall s o s', R (c_reqs (s_ctx s)) -> m s = (o, s') ->
    c_reqs (s_ctx s') = c_reqs (s_ctx s) /\ ~ bad b o.
  Lemma safe_lift {A} (r : out everr A) : ~ bad b r -> safe (lift r).
  Proof. intros H s o s' _ [= <- <-]. auto. Qed.
  Lemma safe_ret {A} (a : A) : safe (ret a).
  Proof. apply safe_lift. now cbn. Qed.
  Lemma safe_bind {A B} (m : evm A) (k : A -> evm B) : safe m -> (forall a, safe (k a)) -> safe (bind m k).
  Proof.
    intros M K s o s' G H. apply bind_inv in H. destruct H as [(a & s1 & E & H)|(o1 & E & N & ->)].
    - destruct (M _ _ _ G E) as [Q _]. destruct (K a s1 o s') as [Q2 N2]; [now rewrite Q|exact H|]. split; [congruence|auto].
    - destruct (M _ _ _ G E) as [Q N1]. split; auto. destruct o1; cbn in *; auto. exfalso. apply N. now exists a.
  Qed.

  Section Eval.
    Variables (h : host) (call : str -> list value -> evm value).
    Hypothesis call_safe : forall n vs, safe (call n vs).
    Hypothesis bin_safe : forall t l r, C (EBin t l r) -> forall f, strict_op h (tkind t) = Some f -> forall x y, ~ bad b (f x y).
    Hypothesis un_safe : forall t e, C (EUn t e) -> forall x, ~ bad b (unary_value h t x).
    Let ok (e : expr) := everywhere C e -> safe (eval h call e).
    Lemma evl_safe es : Forall ok es -> Forall (everywhere C) es -> safe (evl h call es).
    Proof.
      induction 1 as [|e es He _ IH]; intros W; [apply safe_ret|]. inversion W; subst. cbn [evl].
      apply safe_bind; [apply He; auto|]. intros v. apply safe_bind; [auto|]. intros vs. apply safe_ret.
    Qed.
    Lemma evp_safe ps : Forall (fun kv : expr * expr => ok (fst kv) /\ ok (snd kv)) ps ->
      Forall (fun kv => everywhere C (fst kv) /\ everywhere C (snd kv)) ps -> forall m, safe (evp h call m ps).
    Proof.
      induction 1 as [|[k v] ps [Hk Hv] _ IH]; intros W m; [apply safe_ret|]. inversion W as [|? ? [] W']; subst. cbn [evp fst snd] in *.
      apply safe_bind; [apply Hk; auto|]. intros kv. apply safe_bind; [apply Hv; auto|auto].
    Qed.
    Lemma block_safe es : Forall ok es -> Forall (everywhere C) es -> forall v, safe (eval_exprs h call v es).
    Proof.
      induction 1 as [|e es He _ IH]; intros W v; [apply safe_ret|]. inversion W; subst. cbn [eval_exprs]. apply safe_bind; [apply He; auto|auto].
    Qed.
    Lemma eval_safe e : everywhere C e -> safe (eval h call e).
    Proof.
      induction e as [z|f|x|x|es IH|ps IH|e i IHe IHi|e f IHe|n|n e IHe|t e IHe|t l r IHl IHr|e IHe|c p q IHc IHa IHb|n es IH] using expr_ind2;
        intros W; apply everywhere_eq in W; destruct W as [W0 W]; try (cbn [eval]; apply safe_ret).
      - rewrite eval_arr. apply safe_bind; [now apply evl_safe|]. intros; apply safe_ret.
      - rewrite eval_map. apply safe_bind; [now apply evp_safe|]. intros; apply safe_ret.
      - cbn [eval]. destruct W. apply safe_bind; auto. intros x. apply safe_bind; auto. intros y. apply safe_lift.
        unfold index_value. destruct x; try now cbn. destruct y; try now cbn. destruct (_ && _); now cbn. destruct (mget _ _); now cbn.
      - cbn [eval]. apply safe_bind; auto. intros x. apply safe_lift. unfold field_value. destruct x; try now cbn. destruct (mget _ _); now cbn.
      - cbn [eval]. intros s o s' _. destruct (ctx_get _ _); intros [= <- <-]; split; auto.
      - cbn [eval]. apply safe_bind; auto. intros v s o s' _ [= <- <-]. split; auto.
      - cbn [eval]. apply safe_bind; auto. intros x. apply safe_lift. eapply un_safe; eauto.
      - cbn [eval]. destruct W. destruct (strict_op h (tkind t)) as [f|] eqn:E.
        + apply safe_bind; auto. intros x. apply safe_bind; auto. intros y. apply safe_lift. eapply bin_safe; eauto.
        + destruct (tkind t); try (apply safe_lift; now cbn); apply safe_bind; auto; intros v; destruct (falsy v); auto; apply safe_ret.
      - cbn [eval]. auto.
      - destruct W as (? & ? & ?). rewrite eval_if. apply safe_bind; auto. intros v. destruct (falsy v); now apply block_safe.
      - rewrite eval_callx. apply safe_bind; [now apply evl_safe|]. auto.
    Qed.
  End Eval.

  Lemma native_safe h n vs : safe (native_call h n vs).
  Proof.
    assert (F : ~ bad b (native_format h vs)).
    { unfold native_format. destruct (pop (rev vs)) as [[[]|] ?]; try now cbn. destruct (Nat.eqb _ _); now cbn. }
    unfold native_call.
    destruct (str_eqb n (lit "println")).
    { unfold native_println. intros s o s' _. destruct (native_format h vs); intros [= <- <-]; split; auto. }
    destruct (str_eqb n (lit "print")).
    { unfold native_print. intros s o s' _. destruct (native_format h vs); intros [= <- <-]; split; auto. }
    destruct (str_eqb n (lit "format")); [now apply safe_lift|].
    destruct (str_eqb n (lit "length")).
    { apply safe_lift. unfold native_length. destruct vs as [|[] [|]]; now cbn. }
    destruct (str_eqb n (lit "append")); apply safe_lift; [|now cbn].
    unfold native_append. destruct (pop (rev vs)) as [[[]|] ?]; now cbn.
  Qed.
  Lemma or_null_safe m : safe m -> safe (or_null m).
  Proof.
    intros M s o s' G E. unfold or_null in E. destruct (m s) as [o1 s1] eqn:Q. destruct (M _ _ _ G Q) as [G1 N1].
    destruct o1; inversion E; subst; split; auto.
  Qed.
  Lemma asserts_safe h ev es : (forall e, everywhere C e -> safe (ev e)) -> Forall (everywhere C) es -> safe (eval_asserts h ev es).
  Proof.
    intros K F. induction F as [|e es L F IH]; cbn [eval_asserts]; [apply safe_ret|].
    destruct e; try exact IH. apply everywhere_eq in L. destruct L as [_ [L1 L2]].
    apply safe_bind; [auto using or_null_safe|]. intros v. apply safe_bind; [auto using or_null_safe|]. intros u.
    apply safe_bind; [exact IH|]. intros as_. apply safe_ret.
  Qed.
End Safe.

Section World.
  Variables (b : bool) (C : expr -> Prop) (w : env).
  Hypothesis send_safe : forall tr msg, ~ bad b (client_send (e_prepare w) (e_net w tr msg) msg).
  Hypothesis map_safe : forall tr msg rq rs t er, client_send (e_prepare w) (e_net w tr msg) msg = Ok (rq, rs, t, er) -> ~ bad b (to_map (e_host w) rs).
  Hypothesis bin_safe : forall t l r, C (EBin t l r) -> forall f, strict_op (e_host w) (tkind t) = Some f -> forall x y, ~ bad b (f x y).
  Hypothesis un_safe : forall t e, C (EUn t e) -> forall x, ~ bad b (unary_value (e_host w) t x).
  Definition quiet (reqs : amap (str * list expr)) : Prop := forall n m es, mget n reqs = Some (m, es) -> Forall (everywhere C) es.
  Lemma native_eval_safe e : everywhere C e -> safe b quiet (eval_native w e).
  Proof. apply eval_safe; auto. intros. apply native_safe. Qed.
  Lemma request_safe n m es : Forall (everywhere C) es -> safe b quiet (request_call w (eval_native w) n m es).
  Proof.
    intros F s o s' G E. unfold request_call in E. set (msg := substitute _ m) in E. cbv zeta in E.
    pose proof (send_safe (s_trace s) msg) as S.
    destruct (client_send (e_prepare w) (e_net w (s_trace s) msg) msg) as [[[[rq rs] t] er]|e| |] eqn:CS; try (inversion E; subst; split; auto; fail).
    pose proof (map_safe _ _ _ _ _ _ CS) as M.
    destruct (to_map (e_host w) rs) as [mp|e| |]; try (inversion E; subst; split; auto; fail).
    destruct (eval_asserts _ _ es _) as [oa sl] eqn:A.
    apply (asserts_safe b C quiet _ _ es native_eval_safe F) in A; [|intros ? ? ?; discriminate]. destruct A as [_ A].
    destruct oa; inversion E; subst; split; auto.
  Qed.
  Lemma call_safe n vs : safe b quiet (call_at w 1 n vs).
  Proof.
    intros s o s' G E. rewrite call_one in E. unfold ctx_request in E. destruct (mget n (c_reqs (s_ctx s))) as [[m es]|] eqn:Q.
    - exact (request_safe n m es (G _ _ _ Q) s o s' G E).
    - exact (native_safe b quiet _ n vs s o s' G E).
  Qed.
  Lemma expr_safe e s : quiet (c_reqs (s_ctx s)) -> everywhere C e -> ~ bad b (fst (eval_expr w e s)).
  Proof.
    intros G W. destruct (eval_expr w e s) as [o s'] eqn:E. apply (eval_safe b C quiet) in E; auto; [tauto|]. apply call_safe.
  Qed.
  Lemma exprs_safe es s : quiet (c_reqs (s_ctx s)) -> Forall (everywhere C) es -> ~ bad b (fst (eval_block w es s)).
  Proof.
    intros G W. destruct (eval_block w es s) as [o s'] eqn:E. unfold eval_block in E.
    apply (block_safe b C quiet) in E; auto; [tauto|]. apply Forall_forall. intros e _ We. apply (eval_safe b C quiet); auto. apply call_safe.
  Qed.
End World.

(** ** endless loops *)
Lemma everywhere_true e : everywhere (fun _ => True) e.
Proof.
  induction e as [z|f|x|x|es IH|ps IH|e i IHe IHi|e f IHe|n|n e IHe|t e IHe|t l r IHl IHr|e IHe|c p q IHc IHa IHb|n es IH] using expr_ind2;
    apply everywhere_eq; split; auto.
Qed.
Lemma send_not_diverge p x m : client_send p x m <> Diverge.
Proof.
  unfold client_send. destruct (request_from p m) as [rq ok]. cbv zeta.
  destruct (x_connect x) as [n|er]; [|discriminate].
  destruct (dur_sub _ n); [|discriminate]. destruct (x_write x); [discriminate|].
  destruct (response_from (x_reply x)); [|discriminate].
  repeat (match goal with |- context [match dur_sub ?a ?b with _ => _ end] => destruct (dur_sub a b) end; try discriminate).
Qed.
Lemma send_response p x m rq rs t er : client_send p x m = Ok (rq, rs, t, er) -> rs = response_default \/ response_from (x_reply x) = inl rs.
Proof.
  unfold client_send. destruct (request_from p m) as [rq' ok]. cbv zeta.
  destruct (x_connect x) as [n|e]; [|intros [= _ <- _ _]; auto].
  destruct (dur_sub _ n); [|discriminate]. destruct (x_write x); [intros [= _ <- _ _]; auto|].
  destruct (response_from (x_reply x)); [|intros [= _ <- _ _]; auto].
  repeat (match goal with |- context [match dur_sub ?a ?b with _ => _ end] => destruct (dur_sub a b) end; try discriminate).
  intros [= _ <- _ _]. auto.
Qed.
Lemma strict_not_diverge h k f x y : strict_op h k = Some f -> f x y <> Diverge.
Proof.
  destruct k; intros E; inversion E; subst; try discriminate; destruct x, y; try discriminate;
    cbn [value_add value_sub value_mul value_div value_rem value_shl value_shr];
    unfold arith, int_div, int_rem, int_shl, int_shr; repeat match goal with |- context [if ?c then _ else _] => destruct c end; discriminate.
Qed.
Lemma unary_not_diverge h t x : unary_value h t x <> Diverge.
Proof.
  unfold unary_value. destruct (tkind t); destruct x as [| | |[]| | |]; try discriminate. unfold arith.
  repeat match goal with |- context [if ?c then _ else _] => destruct c end; discriminate.
Qed.
Lemma no_loop w : readable_bodies w -> (forall tr msg, ~ bad false (client_send (e_prepare w) (e_net w tr msg) msg)) /\
  (forall tr msg rq rs t er, client_send (e_prepare w) (e_net w tr msg) msg = Ok (rq, rs, t, er) -> ~ bad false (to_map (e_host w) rs)) /\
  (forall t f, strict_op (e_host w) (tkind t) = Some f -> forall x y, ~ bad false (f x y)) /\
  (forall t x, ~ bad false (unary_value (e_host w) t x)).
Proof.
  intros B. repeat split.
  - intros tr msg H. pose proof (send_not_diverge (e_prepare w) (e_net w tr msg) msg). destruct (client_send _ _ _); cbn in H; congruence.
  - intros tr msg rq rs t er H. apply send_response in H.
    assert (N : no_bang (segment (rs_body rs))).
    { destruct H as [->|H]; [|eapply B; eauto]. intros x y (u & v & E). destruct u as [|? [|]]; discriminate. }
    destruct (body_terminates (e_host w) rs N) as [m ->]. now cbn.
  - intros t f E x y H. pose proof (strict_not_diverge _ _ _ x y E). destruct (f x y); cbn in H; congruence.
  - intros t x H. pose proof (unary_not_diverge (e_host w) t x). destruct (unary_value _ t x); cbn in H; congruence.
Qed.
Lemma not_bad_diverge {A} (o : out everr A) : ~ bad false o -> o <> Diverge.
Proof. intros H ->. apply H. reflexivity. Qed.
Lemma not_bad_panic {A} (o : out everr A) : ~ bad true o -> o <> Panic.
Proof. intros H ->. apply H. reflexivity. Qed.
Lemma evaluation_ends w es s : readable_bodies w -> fst (eval_block w es s) <> Diverge.
Proof.
  intros B. destruct (no_loop w B) as (A1 & A2 & A3 & A4). apply not_bad_diverge.
  apply (exprs_safe false (fun _ => True) w); auto; intros; eauto.
  - intros n m as_ _. apply Forall_forall. auto using everywhere_true.
  - apply Forall_forall. auto using everywhere_true.
Qed.
Lemma expression_ends w e s : readable_bodies w -> fst (eval_expr w e s) <> Diverge.
Proof.
  intros B. destruct (no_loop w B) as (A1 & A2 & A3 & A4). apply not_bad_diverge.
  apply (expr_safe false (fun _ => True) w); auto; intros; eauto using everywhere_true.
  intros n m as_ _. apply Forall_forall. auto using everywhere_true.
Qed.

(** ** aborts *)
Lemma strict_not_panic h k f x y : ~ In k (risky_binary (h_checks h)) -> strict_op h k = Some f -> f x y <> Panic.
Proof.
  intros N E. unfold risky_binary in N.
  destruct k; inversion E; subst; try discriminate; try (exfalso; apply N; cbn; tauto); destruct x, y; try discriminate;
    cbn [value_add value_sub value_mul value_shl value_shr];
    unfold arith, int_shl, int_shr; destruct (h_checks h); try (exfalso; apply N; cbn; tauto);
    repeat match goal with |- context [if ?c then _ else _] => destruct c end; discriminate.
Qed.
Lemma unary_not_panic h t x : (h_checks h = true -> tkind t <> KSub) -> unary_value h t x <> Panic.
Proof.
  intros N. unfold unary_value. destruct (tkind t); destruct x as [| | |[]| | |]; try discriminate. unfold arith.
  destruct (h_checks h); [exfalso; now apply N|]. repeat match goal with |- context [if ?c then _ else _] => destruct c end; discriminate.
Qed.
Lemma parse_no_panic text : parse text <> Panic.
Proof. unfold parse. destruct (parse_fuel _ _); discriminate. Qed.
Lemma to_map_no_panic h r : to_map h r <> Panic.
Proof.
  unfold to_map. cbv zeta. pose proof (parse_no_panic (rs_body r)). destruct (parse (rs_body r)) as [src| | |]; try discriminate; auto.
  destruct (s_exprs src); discriminate.
Qed.
Lemma no_abort w : steady w -> (forall tr msg, ~ bad true (client_send (e_prepare w) (e_net w tr msg) msg)) /\
  (forall tr msg rq rs t er, client_send (e_prepare w) (e_net w tr msg) msg = Ok (rq, rs, t, er) -> ~ bad true (to_map (e_host w) rs)).
Proof.
  intros O. split.
  - intros tr msg H. destruct (send_outcome (e_prepare w) _ msg (O tr msg)) as (t & E & _). rewrite E in H. exact H.
  - intros tr msg rq rs t er _ H. pose proof (to_map_no_panic (e_host w) rs). destruct (to_map _ rs); cbn in H; congruence.
Qed.
Lemma never_aborts w es s : steady w -> Forall (no_risk (h_checks (e_host w))) es -> no_risk_requests (h_checks (e_host w)) s ->
  fst (eval_block w es s) <> Panic.
Proof.
  intros O F Q. destruct (no_abort w O) as (A1 & A2). apply not_bad_panic.
  eapply (exprs_safe true _ w); eauto.
  - intros t l r N f E x y H. cbv beta iota in N. pose proof (strict_not_panic _ _ _ x y N E). destruct (f x y); cbn in H; congruence.
  - intros t e N x H. cbv beta iota in N. pose proof (unary_not_panic _ t x N). destruct (unary_value _ t x); cbn in H; congruence.
  - intros n m as_ G. apply Forall_forall. intros e J. exact (Q _ _ _ _ G J).
Qed.
Lemma returns_always w es s : steady w -> readable_bodies w -> Forall (no_risk (h_checks (e_host w))) es -> no_risk_requests (h_checks (e_host w)) s ->
  returns (fst (eval_block w es s)).
Proof.
  intros O B F Q. pose proof (never_aborts w es s O F Q). pose proof (evaluation_ends w es s B).
  destruct (fst (eval_block w es s)); cbn; congruence || auto.
Qed.
