(** Reordering, dropping and inlining *)
From Verif Require Import TextProofs SyntaxProofs ValueProofs TemplateProofs EvaluatorProofs EvaluatorTop ReadsProofs PureProofs SpecReads SpecRefactor.

(** Expressions without calls neither see nor change anything but variables *)
Section Quiet.
  Variables (h : host) (call : str -> list value -> evm value).
  Definition quiet {A} (m : evm A) : Prop := forall vars, exists o vars', forall q k tr, m (St (Ctx vars q k) tr) = (o, St (Ctx vars' q k) tr).
  Lemma quiet_lift {A} (o : out everr A) : quiet (lift o).
  Proof. intros vars. exists o, vars. reflexivity. Qed.
  Lemma quiet_bind {A B} (m : evm A) (k : A -> evm B) : quiet m -> (forall a, quiet (k a)) -> quiet (bind m k).
  Proof.
    intros M K vars. destruct (M vars) as (o & vars1 & E). destruct o as [a|e| |].
    - destruct (K a vars1) as (o & vars2 & F). exists o, vars2. intros. unfold bind. now rewrite E, F.
    - exists (Err e), vars1. intros. unfold bind. now rewrite E.
    - exists Panic, vars1. intros. unfold bind. now rewrite E.
    - exists Diverge, vars1. intros. unfold bind. now rewrite E.
  Qed.
  Let ok (e : expr) := called e = [] -> quiet (eval h call e).
  Lemma evl_quiet es : Forall ok es -> flat_map called es = [] -> quiet (evl h call es).
  Proof.
    induction 1 as [|e es He _ IH]; intros C; [apply quiet_lift|]. cbn in C. apply app_eq_nil in C. destruct C.
    cbn [evl]. apply quiet_bind; [now apply He|]. intros. apply quiet_bind; [now apply IH|]. intros. apply quiet_lift.
  Qed.
  Lemma evp_quiet ps : Forall (fun kv : expr * expr => ok (fst kv) /\ ok (snd kv)) ps ->
    flat_map (fun kv => called (fst kv) ++ called (snd kv)) ps = [] -> forall m, quiet (evp h call m ps).
  Proof.
    induction 1 as [|[k v] ps [Hk Hv] _ IH]; intros C m; [apply quiet_lift|]. cbn in C, Hk, Hv.
    apply app_eq_nil in C. destruct C as [C C2]. apply app_eq_nil in C. destruct C.
    cbn [evp]. apply quiet_bind; [now apply Hk|]. intros. apply quiet_bind; [now apply Hv|]. intros. now apply IH.
  Qed.
  Lemma block_quiet es : Forall ok es -> flat_map called es = [] -> forall v, quiet (eval_exprs h call v es).
  Proof.
    induction 1 as [|e es He _ IH]; intros C v; [apply quiet_lift|]. cbn in C. apply app_eq_nil in C. destruct C.
    cbn [eval_exprs]. apply quiet_bind; [now apply He|]. intros. now apply IH.
  Qed.
  Lemma eval_quiet e : called e = [] -> quiet (eval h call e).
  Proof.
    induction e as [z|f|b|x|es IH|ps IH|e i IHe IHi|e f IHe|n|n e IHe|t e IHe|t l r IHl IHr|e IHe|c a b IHc IHa IHb|n es IH] using expr_ind2;
      intros C; cbn [called] in C; try discriminate; try apply quiet_lift.
    - rewrite eval_arr. apply quiet_bind; [now apply evl_quiet|]. intros. apply quiet_lift.
    - rewrite eval_map. apply quiet_bind; [now apply evp_quiet|]. intros. apply quiet_lift.
    - apply app_eq_nil in C. destruct C. cbn [eval]. apply quiet_bind; [now apply IHe|]. intros. apply quiet_bind; [now apply IHi|]. intros. apply quiet_lift.
    - cbn [eval]. apply quiet_bind; auto. intros. apply quiet_lift.
    - intros vars. cbn [eval]. unfold ctx_get. exists (match mget n vars with Some v => Ok v | None => Err (EIdentNotFound n) end), vars.
      intros. cbn [s_ctx c_vars]. destruct (mget n vars); reflexivity.
    - cbn [eval]. apply quiet_bind; auto. intros v vars. exists (Ok v), (mset n v vars). reflexivity.
    - cbn [eval]. apply quiet_bind; auto. intros. apply quiet_lift.
    - apply app_eq_nil in C. destruct C as [C1 C2]. specialize (IHl C1). specialize (IHr C2). cbn [eval]. destruct (strict_op h (tkind t)).
      + apply quiet_bind; auto. intros. apply quiet_bind; auto. intros. apply quiet_lift.
      + destruct (tkind t); try apply quiet_lift; apply quiet_bind; auto; intros v; destruct (falsy v); auto; apply quiet_lift.
    - cbn [eval]. auto.
    - apply app_eq_nil in C. destruct C as [C C2]. apply app_eq_nil in C2. destruct C2. rewrite eval_if. apply quiet_bind; [now apply IHc|].
      intros v. destruct (falsy v); now apply block_quiet.
  Qed.
End Quiet.

(** Such an expression gives the same wherever the variables it reads are the same *)
Lemma quiet_alike w a s1 s2 : called a = [] -> (forall n, In n (idents a) -> mget n (c_vars (s_ctx s1)) = mget n (c_vars (s_ctx s2))) ->
  exists o v1 v2,
    eval_expr w a s1 = (o, St (Ctx v1 (c_reqs (s_ctx s1)) (c_recs (s_ctx s1))) (s_trace s1)) /\
    eval_expr w a s2 = (o, St (Ctx v2 (c_reqs (s_ctx s2)) (c_recs (s_ctx s2))) (s_trace s2)) /\
    moved_alike (c_vars (s_ctx s1)) v1 (c_vars (s_ctx s2)) v2.
Proof.
  intros C V. destruct s1 as [[vars1 q1 k1] tr1], s2 as [[vars2 q2 k2] tr2]. cbn [s_ctx s_trace c_vars c_reqs c_recs] in *.
  destruct (eval_quiet (e_host w) (call_at w 1) a C vars1) as (o1 & v1 & E1).
  destruct (eval_quiet (e_host w) (call_at w 1) a C vars2) as (o2 & v2 & E2).
  destruct (reads_only w a (St (Ctx vars1 q1 k1) tr1) (St (Ctx vars2 q1 k1) tr1)) as (o & tr & recs & u1 & u2 & F1 & F2 & M).
  { split; [auto|]. split; [intros r R; rewrite C in R; destruct R|]. intros n [J|(r & t & as_ & ps & J & _)]; [now apply V|rewrite C in J; destruct J]. }
  cbn [s_ctx s_trace c_vars c_reqs c_recs] in *. unfold eval_expr, eval_at in *.
  rewrite E1 in F1. rewrite E2 in F2. inversion F1. inversion F2. subst. exists o, u1, u2. rewrite E1, E2. auto.
Qed.
Lemma quiet_keeps w a s o s' : called a = [] -> eval_expr w a s = (o, s') ->
  c_reqs (s_ctx s') = c_reqs (s_ctx s) /\ c_recs (s_ctx s') = c_recs (s_ctx s) /\ s_trace s' = s_trace s.
Proof.
  intros C E. destruct (quiet_alike w a s s C (fun n _ => eq_refl)) as (o1 & v1 & v2 & F & _). rewrite F in E. inversion E. cbn. auto.
Qed.

(** Evaluating both, in either order *)
Lemma diamond w a b s oa s1 ob t1 : called a = [] -> independent (c_reqs (s_ctx s)) a b ->
  eval_expr w a s = (oa, s1) -> eval_expr w b s = (ob, t1) ->
  exists s2 t2, eval_expr w b s1 = (ob, s2) /\ eval_expr w a t1 = (oa, t2) /\ same_state s2 t2.
Proof.
  intros C [Iab Iba] A B.
  pose proof (frame _ _ _ _ _ A) as (FA & QA & _). pose proof (frame _ _ _ _ _ B) as (FB & QB & _).
  pose proof (quiet_keeps _ _ _ _ _ C A) as (_ & KA & TA).
  destruct (reads_only w b s s1) as (o & tr & recs & v1 & v2 & E1 & E2 & M).
  { split; [auto|]. split; [now intros; rewrite QA|]. intros n R. symmetry. apply FA. intros J. now destruct (Iab n J). }
  rewrite B in E1. inversion E1; subst o t1. clear E1. cbn [s_ctx s_trace c_vars c_reqs c_recs] in *.
  set (t1 := St (Ctx v1 _ _) _) in *.
  destruct (quiet_alike w a s t1 C) as (o & u1 & u2 & G1 & G2 & M').
  { intros n J. symmetry. apply FB. intros K. destruct (Iba n K) as [X _]. apply X. now left. }
  rewrite A in G1. inversion G1; subst o s1. clear G1. subst t1. cbn [s_ctx s_trace c_vars c_reqs c_recs] in *.
  eexists _, _. split; [exact E2|]. split; [exact G2|]. unfold same_state. cbn [s_ctx s_trace c_vars c_reqs c_recs]. split; [|auto].
  pose proof (frame _ _ _ _ _ E2) as (F2 & _). pose proof (frame _ _ _ _ _ G2) as (F3 & _). cbn [s_ctx c_vars] in F2, F3.
  intros n. destruct (in_dec str_dec n (let_names a)) as [J|J].
  - destruct (Iab n J) as [_ L]. rewrite (F2 n L). destruct (M' n) as [[X Y]|X]; [rewrite X, Y; now apply FB|auto].
  - rewrite (F3 n J). destruct (M n) as [[X Y]|X]; [rewrite X, Y; symmetry; now apply FA|auto].
Qed.
Lemma same_refl s : same_state s s.
Proof. repeat split. Qed.
Lemma same_sym s s' : same_state s s' -> same_state s' s.
Proof. intros (V & Q & R & T). repeat split; auto. Qed.
Lemma two_inv w a b s vs s' : in_order w [a; b] s vs s' -> exists va s1 vb, eval_expr w a s = (Ok va, s1) /\ eval_expr w b s1 = (Ok vb, s') /\ vs = [va; vb].
Proof.
  intros H. inversion H as [|? ? ? va s1 ? ? A H1]; subst. inversion H1 as [|? ? ? vb s2 ? ? B H2]; subst. inversion H2; subst. eauto 10.
Qed.
Lemma two_order w a b s va s1 vb s' : eval_expr w a s = (Ok va, s1) -> eval_expr w b s1 = (Ok vb, s') -> in_order w [a; b] s [va; vb] s'.
Proof. intros A B. econstructor; [exact A|]. econstructor; [exact B|]. constructor. Qed.
Lemma swap w a b s va vb s' : called a = [] \/ called b = [] -> independent (c_reqs (s_ctx s)) a b ->
  in_order w [a; b] s [va; vb] s' -> exists s'', in_order w [b; a] s [vb; va] s'' /\ same_state s' s''.
Proof.
  intros Q D H. apply two_inv in H. destruct H as (xa & s1 & xb & A & B & E). inversion E; subst xa xb.
  assert (D' : independent (c_reqs (s_ctx s)) b a) by (destruct D; now split).
  destruct (eval_expr w b s) as [ob t1] eqn:B0. destruct Q as [Q|Q].
  - destruct (diamond w a b s _ _ _ _ Q D A B0) as (s2 & t2 & X & Y & Z). rewrite B in X. inversion X; subst. exists t2. split; auto. eapply two_order; eauto.
  - destruct (diamond w b a s _ _ _ _ Q D' B0 A) as (s2 & t2 & X & Y & Z). rewrite B in Y. inversion Y; subst. exists s2. split; [eapply two_order; eauto|now apply same_sym].
Qed.
Lemma same_block w es s s' : same_state s s' -> exists o t t', eval_block w es s = (o, t) /\ eval_block w es s' = (o, t') /\ same_state t t'.
Proof.
  intros (V & Q & R & T). destruct (block_reads_only w es s s') as (o & tr & recs & v1 & v2 & E & E' & M); auto.
  - intros. now rewrite Q.
  - eexists o, _, _. split; [exact E|]. split; [exact E'|]. unfold same_state. cbn [s_ctx s_trace c_vars c_reqs c_recs]. rewrite R, T. split; [|auto].
    intros n. destruct (M n) as [[X Y]|X]; [rewrite X, Y; auto|auto].
Qed.
Lemma order_app w es1 es2 s vs s' : in_order w (es1 ++ es2) s vs s' <-> exists vs1 s1 vs2, vs = vs1 ++ vs2 /\ in_order w es1 s vs1 s1 /\ in_order w es2 s1 vs2 s'.
Proof.
  split.
  - revert s vs. induction es1 as [|e es1 IH]; intros s vs H; [exists [], s, vs; split; [reflexivity|split; [constructor|exact H]]|].
    inversion H as [|? ? ? v s1 ? ? E H1]; subst. destruct (IH _ _ H1) as (vs1 & s2 & vs2 & -> & X & Y).
    exists (v :: vs1), s2, vs2. repeat split; auto. econstructor; eauto.
  - intros (vs1 & s1 & vs2 & -> & X & Y). induction X as [|e es s v s1 vs s2 E X IH]; auto. cbn. econstructor; eauto.
Qed.
Lemma swap_within w es1 a b es2 s vs s1 : es2 <> [] -> called a = [] \/ called b = [] -> independent (c_reqs (s_ctx s)) a b ->
  in_order w (es1 ++ [a; b]) s vs s1 ->
  exists o t t', eval_block w (es1 ++ a :: b :: es2) s = (o, t) /\ eval_block w (es1 ++ b :: a :: es2) s = (o, t') /\ same_state t t'.
Proof.
  intros N Q D H. pose proof H as H0. apply order_app in H. destruct H as (vs1 & s0 & vs2 & -> & X & Y).
  pose proof (two_inv _ _ _ _ _ _ Y) as (va & s2 & vb & _ & _ & ->).
  assert (E0 : c_reqs (s_ctx s0) = c_reqs (s_ctx s)).
  { pose proof (exprs_in_order _ _ _ _ _ X VNull) as B. change (eval_exprs (e_host w) (call_at w 1) VNull es1 s) with (eval_block w es1 s) in B.
    destruct (block_frame _ _ _ _ _ B) as (_ & Q0 & _). exact Q0. }
  rewrite <- E0 in D. destruct (swap _ _ _ _ _ _ _ Q D Y) as (s1' & Y' & SS).
  assert (G : forall c d vc vd u, in_order w [c; d] s0 [vc; vd] u -> eval_block w (es1 ++ c :: d :: es2) s = eval_block w es2 u).
  { intros c d vc vd u O. replace (es1 ++ c :: d :: es2) with ((es1 ++ [c; d]) ++ es2) by (now rewrite <- app_assoc). rewrite block_app by auto.
    assert (O' : in_order w (es1 ++ [c; d]) s (vs1 ++ [vc; vd]) u) by (apply order_app; exists vs1, s0, [vc; vd]; auto).
    pose proof (exprs_in_order _ _ _ _ _ O' VNull) as B. change (eval_exprs (e_host w) (call_at w 1) VNull (es1 ++ [c; d]) s) with (eval_block w (es1 ++ [c; d]) s) in B.
    now rewrite B. }
  rewrite (G _ _ _ _ _ Y), (G _ _ _ _ _ Y'). now apply same_block.
Qed.

(** A statement whose variables nobody reads can be left out *)
Lemma drop_unused w a es s v s1 : es <> [] -> called a = [] -> eval_expr w a s = (Ok v, s1) ->
  (forall e n, In e es -> In n (let_names a) -> ~ reads (c_reqs (s_ctx s)) e n) ->
  exists o t t', eval_block w (a :: es) s = (o, t) /\ eval_block w es s = (o, t') /\ same_but (let_names a) t t'.
Proof.
  intros N C A U. pose proof (frame _ _ _ _ _ A) as (FA & QA & _). pose proof (quiet_keeps _ _ _ _ _ C A) as (_ & KA & TA).
  destruct (block_reads_only w es s1 s) as (o & tr & recs & v1 & v2 & E & E' & M); auto.
  - intros. now rewrite QA.
  - intros e n J R. apply FA. intros K. rewrite QA in R. now apply (U e n).
  - eexists o, _, _. split; [change (a :: es) with ([a] ++ es); rewrite block_app, block_one, A by auto; exact E|]. split; [exact E'|].
    unfold same_but. cbn [s_ctx s_trace c_vars c_reqs c_recs]. rewrite QA, KA, TA. split; [|auto].
    intros n J. destruct (M n) as [[X Y]|X]; [rewrite X, Y; symmetry; now apply FA|auto].
Qed.
