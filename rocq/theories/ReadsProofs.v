(** Evaluation depends only on what it reads *)
From Verif Require Import SpecReads TextProofs SyntaxProofs ValueProofs TemplateProofs EvaluatorProofs.

Lemma moved_refl {V} (a b : amap V) : moved_alike a a b b.
Proof. intros n. auto. Qed.
Lemma moved_trans {V} (a1 b1 c1 a2 b2 c2 : amap V) : moved_alike a1 b1 a2 b2 -> moved_alike b1 c1 b2 c2 -> moved_alike a1 c1 a2 c2.
Proof. intros H K n. destruct (H n) as [[A B]|A]; destruct (K n) as [[C D]|C]; auto; left + right; split + idtac; congruence. Qed.

Section Sim.
  Variables (P Q : str -> Prop).
  Definition found (s1 s2 : st) : Prop :=
    s_trace s1 = s_trace s2 /\
    (forall r, Q r -> mget r (c_reqs (s_ctx s1)) = mget r (c_reqs (s_ctx s2))) /\
    (forall n, P n -> mget n (c_vars (s_ctx s1)) = mget n (c_vars (s_ctx s2))) /\
    (forall r m es ps n, Q r -> mget r (c_reqs (s_ctx s1)) = Some (m, es) -> scan m ps -> In n (holes ps) -> P n).
  Definition sim {A} (m : evm A) : Prop := forall s1 s2, found s1 s2 -> exists o tr recs v1 v2,
    m s1 = (o, St (Ctx v1 (c_reqs (s_ctx s1)) (c_recs (s_ctx s1) ++ recs)) (s_trace s1 ++ tr)) /\
    m s2 = (o, St (Ctx v2 (c_reqs (s_ctx s2)) (c_recs (s_ctx s2) ++ recs)) (s_trace s2 ++ tr)) /\
    moved_alike (c_vars (s_ctx s1)) v1 (c_vars (s_ctx s2)) v2.
  Lemma st_same s : s = St (Ctx (c_vars (s_ctx s)) (c_reqs (s_ctx s)) (c_recs (s_ctx s) ++ [])) (s_trace s ++ []).
  Proof. rewrite !app_nil_r. destruct s as [[]]; reflexivity. Qed.
  Lemma sim_lift {A} (r : out everr A) : sim (lift r).
  Proof.
    intros s1 s2 F. exists r, [], [], (c_vars (s_ctx s1)), (c_vars (s_ctx s2)). unfold lift.
    rewrite <- !st_same. split; [auto|]. split; [auto|]. apply moved_refl.
  Qed.
  Lemma found_after s1 s2 tr recs v1 v2 : found s1 s2 -> moved_alike (c_vars (s_ctx s1)) v1 (c_vars (s_ctx s2)) v2 ->
    found (St (Ctx v1 (c_reqs (s_ctx s1)) (c_recs (s_ctx s1) ++ recs)) (s_trace s1 ++ tr))
          (St (Ctx v2 (c_reqs (s_ctx s2)) (c_recs (s_ctx s2) ++ recs)) (s_trace s2 ++ tr)).
  Proof.
    intros (T & R & V & H) M. unfold found. cbn [s_trace s_ctx c_reqs c_vars]. rewrite T. repeat split; auto.
    intros n Pn. destruct (M n) as [[A B]|A]; [rewrite A, B; auto|auto].
  Qed.
  Lemma sim_bind {A B} (m : evm A) (k : A -> evm B) : sim m -> (forall a, sim (k a)) -> sim (bind m k).
  Proof.
    intros M K s1 s2 F. destruct (M s1 s2 F) as (o & tr & recs & v1 & v2 & E1 & E2 & MV).
    destruct o as [a|e| |].
    - destruct (K a _ _ (found_after _ _ tr recs _ _ F MV)) as (o & tr' & recs' & u1 & u2 & K1 & K2 & MV').
      cbn [s_trace s_ctx c_reqs c_vars c_recs] in *. exists o, (tr ++ tr'), (recs ++ recs'), u1, u2.
      rewrite (bind_ok _ _ _ _ _ E1), (bind_ok _ _ _ _ _ E2), K1, K2, !app_assoc.
      split; [auto|]. split; [auto|]. eapply moved_trans; eauto.
    - exists (Err e), tr, recs, v1, v2. unfold bind. rewrite E1, E2. auto.
    - exists Panic, tr, recs, v1, v2. unfold bind. rewrite E1, E2. auto.
    - exists Diverge, tr, recs, v1, v2. unfold bind. rewrite E1, E2. auto.
  Qed.
  Lemma sim_ident h call n : P n -> sim (eval h call (EIdent n)).
  Proof.
    intros Pn s1 s2 F. cbn [eval]. unfold ctx_get. pose proof F as (_ & _ & V & _). rewrite <- (V n Pn).
    exists (match mget n (c_vars (s_ctx s1)) with Some v => Ok v | None => Err (EIdentNotFound n) end), [], [], (c_vars (s_ctx s1)), (c_vars (s_ctx s2)).
    rewrite <- !st_same. destruct (mget n (c_vars (s_ctx s1))); (split; [auto|]; split; [auto|]; apply moved_refl).
  Qed.
  Lemma sim_set n (v : value) : sim (fun s => (Ok v, upd (fun c => ctx_set c n v) s)).
  Proof.
    intros s1 s2 F. exists (Ok v), [], [], (mset n v (c_vars (s_ctx s1))), (mset n v (c_vars (s_ctx s2))).
    rewrite !app_nil_r. unfold upd, ctx_set. split; [auto|]. split; [auto|].
    intros m. destruct (str_eqb m n) eqn:E.
    - apply str_eqb_eq in E. subst. right. now rewrite !mget_mset_same.
    - apply str_eqb_neq in E. left. now rewrite !mget_mset_other by auto.
  Qed.

  Section Eval.
    Variables (h : host) (call : str -> list value -> evm value).
    Hypothesis call_sim : forall n vs, Q n -> sim (call n vs).
    Definition within (e : expr) : Prop := (forall n, In n (idents e) -> P n) /\ (forall r, In r (called e) -> Q r).
    Lemma evl_sim es : Forall (fun e => within e -> sim (eval h call e)) es -> Forall within es -> sim (evl h call es).
    Proof.
      induction 1 as [|e es He _ IH]; intros W; [apply sim_lift|]. inversion W; subst. cbn [evl].
      apply sim_bind; [auto|]. intros v. apply sim_bind; [auto|]. intros vs. apply sim_lift.
    Qed.
    Lemma evp_sim ps : Forall (fun kv : expr * expr => (within (fst kv) -> sim (eval h call (fst kv))) /\ (within (snd kv) -> sim (eval h call (snd kv)))) ps ->
      Forall (fun kv => within (fst kv) /\ within (snd kv)) ps -> forall m, sim (evp h call m ps).
    Proof.
      induction 1 as [|[k v] ps [] _ IH]; intros W m; [apply sim_lift|]. inversion W as [|? ? [] W']; subst. cbn [evp fst snd] in *.
      apply sim_bind; [auto|]. intros kv. apply sim_bind; auto.
    Qed.
    Lemma block_sim es : Forall (fun e => within e -> sim (eval h call e)) es -> Forall within es -> forall v, sim (eval_exprs h call v es).
    Proof.
      induction 1 as [|e es He _ IH]; intros W v; [apply sim_lift|]. inversion W; subst. cbn [eval_exprs]. apply sim_bind; auto.
    Qed.
    Lemma within_list es : (forall n, In n (flat_map idents es) -> P n) -> (forall r, In r (flat_map called es) -> Q r) -> Forall within es.
    Proof. intros A B. apply Forall_forall. intros e J. split; intros x X; [apply A|apply B]; apply in_flat_map; eauto. Qed.
    Lemma eval_sim e : within e -> sim (eval h call e).
    Proof.
      induction e as [z|f|b|x|es IH|ps IH|e i IHe IHi|e f IHe|n|n e IHe|t e IHe|t l r IHl IHr|e IHe|c a b IHc IHa IHb|n es IH] using expr_ind2;
        intros [W1 W2]; cbn [idents called] in W1, W2; try apply sim_lift.
      - rewrite eval_arr. apply sim_bind; [apply evl_sim; auto using within_list|]. intros; apply sim_lift.
      - rewrite eval_map. apply sim_bind; [|intros; apply sim_lift]. apply evp_sim; auto.
        apply Forall_forall. intros kv J. split; split; intros x X; [apply W1|apply W2|apply W1|apply W2]; apply in_flat_map; exists kv; rewrite in_app_iff; auto.
      - assert (within e) by (split; intros x X; [apply W1|apply W2]; rewrite in_app_iff; auto).
        assert (within i) by (split; intros x X; [apply W1|apply W2]; rewrite in_app_iff; auto).
        cbn [eval]. apply sim_bind; auto. intros. apply sim_bind; auto. intros; apply sim_lift.
      - cbn [eval]. apply sim_bind; [apply IHe; now split|]. intros; apply sim_lift.
      - apply sim_ident. apply W1. cbn. auto.
      - cbn [eval]. apply sim_bind; [apply IHe; now split|]. intros. apply sim_set.
      - cbn [eval]. apply sim_bind; [apply IHe; now split|]. intros; apply sim_lift.
      - assert (within l) by (split; intros x X; [apply W1|apply W2]; rewrite in_app_iff; auto).
        assert (within r) by (split; intros x X; [apply W1|apply W2]; rewrite in_app_iff; auto).
        cbn [eval]. destruct (strict_op h (tkind t)).
        + apply sim_bind; auto. intros. apply sim_bind; auto. intros; apply sim_lift.
        + destruct (tkind t); try apply sim_lift; apply sim_bind; auto; intros v; destruct (falsy v); auto; apply sim_lift.
      - cbn [eval]. apply IHe. now split.
      - assert (within c) by (split; intros x X; [apply W1|apply W2]; rewrite in_app_iff; auto).
        rewrite eval_if. apply sim_bind; auto. intros v.
        destruct (falsy v); apply block_sim; auto; apply within_list; intros x X; [apply W1|apply W2|apply W1|apply W2]; rewrite !in_app_iff; auto.
      - rewrite eval_callx. apply sim_bind; [apply evl_sim; auto; apply within_list; auto; intros r R; apply W2; cbn; auto|].
        intros. apply call_sim. apply W2. cbn. auto.
    Qed.
  End Eval.

  Lemma native_sim h n vs : sim (native_call h n vs).
  Proof.
    assert (E : forall (v : value) t, sim (fun s => (Ok v, emit (Printed t) s))).
    { intros v t s1 s2 F. exists (Ok v), [Printed t], [], (c_vars (s_ctx s1)), (c_vars (s_ctx s2)). rewrite !app_nil_r.
      split; [destruct s1 as [[]]; reflexivity|]. split; [destruct s2 as [[]]; reflexivity|]. apply moved_refl. }
    unfold native_call.
    destruct (str_eqb n (lit "println")).
    { unfold native_println. destruct (native_format h vs); [apply E| | |]; apply sim_lift. }
    destruct (str_eqb n (lit "print")).
    { unfold native_print. destruct (native_format h vs); [apply E| | |]; apply sim_lift. }
    destruct (str_eqb n (lit "format")); [apply sim_lift|].
    destruct (str_eqb n (lit "length")); [apply sim_lift|].
    destruct (str_eqb n (lit "append")); apply sim_lift.
  Qed.
  Lemma substitute_same w m ps c1 c2 : scan m ps -> (forall n, In n (holes ps) -> mget n (c_vars c1) = mget n (c_vars c2)) ->
    substitute (var_text (e_host w) c1) m = substitute (var_text (e_host w) c2) m.
  Proof.
    intros S H. rewrite !(substitute_spec _ _ _ S). f_equal. apply map_ext_in. intros n J. unfold var_text, ctx_get. now rewrite H.
  Qed.
  Lemma request_sim w n m es : (forall s1 s2 ps x, found s1 s2 -> scan m ps -> In x (holes ps) -> mget x (c_vars (s_ctx s1)) = mget x (c_vars (s_ctx s2))) ->
    sim (request_call w (eval_native w) n m es).
  Proof.
    intros H s1 s2 F. destruct (scan_exists m) as [ps S].
    pose proof (substitute_same w m ps (s_ctx s1) (s_ctx s2) S (fun x J => H s1 s2 ps x F S J)) as E.
    unfold request_call. rewrite <- E. set (msg := substitute _ m). cbv zeta.
    pose proof F as (T & _). rewrite <- T. set (x := e_net w (s_trace s1) msg).
    assert (G : forall (o : res) tr, (tr = [Sent msg] \/ exists pr, tr = [Sent msg] ++ pr) -> forall recs,
      exists o0 tr0 recs0 v1 v2,
        (o, St (Ctx (c_vars (s_ctx s1)) (c_reqs (s_ctx s1)) (c_recs (s_ctx s1) ++ recs)) (s_trace s1 ++ tr)) = (o0, St (Ctx v1 (c_reqs (s_ctx s1)) (c_recs (s_ctx s1) ++ recs0)) (s_trace s1 ++ tr0)) /\
        (o, St (Ctx (c_vars (s_ctx s2)) (c_reqs (s_ctx s2)) (c_recs (s_ctx s2) ++ recs)) (s_trace s1 ++ tr)) = (o0, St (Ctx v2 (c_reqs (s_ctx s2)) (c_recs (s_ctx s2) ++ recs0)) (s_trace s1 ++ tr0)) /\
        moved_alike (c_vars (s_ctx s1)) v1 (c_vars (s_ctx s2)) v2).
    { intros o tr _ recs. exists o, tr, recs, (c_vars (s_ctx s1)), (c_vars (s_ctx s2)). split; [auto|]. split; [auto|]. apply moved_refl. }
    assert (N : forall (o : res) tr,
      exists o0 tr0 recs0 v1 v2,
        (o, St (s_ctx s1) (s_trace s1 ++ tr)) = (o0, St (Ctx v1 (c_reqs (s_ctx s1)) (c_recs (s_ctx s1) ++ recs0)) (s_trace s1 ++ tr0)) /\
        (o, St (s_ctx s2) (s_trace s1 ++ tr)) = (o0, St (Ctx v2 (c_reqs (s_ctx s2)) (c_recs (s_ctx s2) ++ recs0)) (s_trace s1 ++ tr0)) /\
        moved_alike (c_vars (s_ctx s1)) v1 (c_vars (s_ctx s2)) v2).
    { intros o tr. exists o, tr, [], (c_vars (s_ctx s1)), (c_vars (s_ctx s2)). rewrite !app_nil_r.
      split; [destruct s1 as [[]]; reflexivity|]. split; [destruct s2 as [[]]; reflexivity|]. apply moved_refl. }
    unfold emit. rewrite <- T.
    destruct (client_send (e_prepare w) x msg) as [[[[rq rs] t] er]|e| |]; try apply N.
    destruct (to_map (e_host w) rs) as [mp|e| |]; try apply N.
    destruct (asserts_local (e_host w) (eval_native w) (eval_native_local w) es (ctx_from mp) eq_refl) as (oa & c' & pr & R & Rc & S' & K).
    cbn [s_trace]. rewrite K. destruct oa as [as_|e| |]; cbn [s_trace s_ctx]; rewrite <- !app_assoc; try apply N.
    unfold ctx_push. apply G. right. exists pr. reflexivity.
  Qed.
  Lemma call_sim w n vs : Q n -> sim (call_at w 1 n vs).
  Proof.
    intros Qn s1 s2 F. rewrite !call_one. unfold ctx_request. pose proof F as (_ & R & _ & _). rewrite <- (R n Qn).
    destruct (mget n (c_reqs (s_ctx s1))) as [[m es]|] eqn:E; [|now apply native_sim].
    (* the placeholders of this request are among P *)
    pose proof F as (_ & _ & V & H). destruct (scan_exists m) as [ps S].
    assert (HP : forall x, In x (holes ps) -> P x) by (intros x J; eapply H; eauto).
    apply request_sim; auto. intros t1 t2 ps' x (_ & _ & V' & _) S' J. apply V'. apply HP.
    now rewrite (scan_unique _ _ S _ S').
  Qed.
End Sim.

Lemma reads_only w e s1 s2 : look_alike e s1 s2 -> exists o tr recs v1 v2,
  eval_expr w e s1 = (o, St (Ctx v1 (c_reqs (s_ctx s1)) (c_recs (s_ctx s1) ++ recs)) (s_trace s1 ++ tr)) /\
  eval_expr w e s2 = (o, St (Ctx v2 (c_reqs (s_ctx s2)) (c_recs (s_ctx s2) ++ recs)) (s_trace s2 ++ tr)) /\
  moved_alike (c_vars (s_ctx s1)) v1 (c_vars (s_ctx s2)) v2.
Proof.
  intros (T & R & V).
  apply (eval_sim (reads (c_reqs (s_ctx s1)) e) (fun r => In r (called e)) (e_host w) (call_at w 1)).
  - intros n vs Q. now apply call_sim.
  - split; auto. intros n J. now left.
  - split; [auto|]. split; [auto|]. split; [auto|]. intros r m es ps n J G S K. right. exists r, m, es, ps. auto.
Qed.
Lemma block_reads_only w es s1 s2 : s_trace s1 = s_trace s2 ->
  (forall e, In e es -> forall r, In r (called e) -> mget r (c_reqs (s_ctx s1)) = mget r (c_reqs (s_ctx s2))) ->
  (forall e n, In e es -> reads (c_reqs (s_ctx s1)) e n -> mget n (c_vars (s_ctx s1)) = mget n (c_vars (s_ctx s2))) ->
  exists o tr recs v1 v2,
  eval_block w es s1 = (o, St (Ctx v1 (c_reqs (s_ctx s1)) (c_recs (s_ctx s1) ++ recs)) (s_trace s1 ++ tr)) /\
  eval_block w es s2 = (o, St (Ctx v2 (c_reqs (s_ctx s2)) (c_recs (s_ctx s2) ++ recs)) (s_trace s2 ++ tr)) /\
  moved_alike (c_vars (s_ctx s1)) v1 (c_vars (s_ctx s2)) v2.
Proof.
  intros T R V.
  apply (block_sim (fun n => exists e, In e es /\ reads (c_reqs (s_ctx s1)) e n) (fun r => exists e, In e es /\ In r (called e))).
  - apply Forall_forall. intros e J W. apply eval_sim; auto. intros n vs Q. now apply call_sim.
  - apply Forall_forall. intros e J. split; [intros n K; exists e; split; auto; now left|intros r K; eauto].
  - split; [auto|]. split; [intros r (e & J & K); eauto|]. split; [intros n (e & J & K); eauto|].
    intros r m bs ps n (e & J & K) G S L. exists e. split; auto. right. exists r, m, bs, ps. auto.
Qed.
