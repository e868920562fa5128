(** Evaluation depends only on the variables read before they are set *)
From Verif Require Import SpecLive TextProofs SyntaxProofs ValueProofs TemplateProofs EvaluatorProofs EvaluatorTop ReadsProofs.

Section Live.
  Variable w : env.
  Variable R : amap (str * list expr).
  Definition agrees (P : str -> Prop) (s1 s2 : st) : Prop :=
    same_future w (s_trace s1) (s_trace s2) /\ c_reqs (s_ctx s1) = R /\ c_reqs (s_ctx s2) = R /\
    (forall n, P n -> mget n (c_vars (s_ctx s1)) = mget n (c_vars (s_ctx s2))).
  Definition live {A} (P : str -> Prop) (m : evm A) (G : list str) : Prop := forall s1 s2, agrees P s1 s2 -> exists o tr recs v1 v2,
    m s1 = (o, St (Ctx v1 (c_reqs (s_ctx s1)) (c_recs (s_ctx s1) ++ recs)) (s_trace s1 ++ tr)) /\
    m s2 = (o, St (Ctx v2 (c_reqs (s_ctx s2)) (c_recs (s_ctx s2) ++ recs)) (s_trace s2 ++ tr)) /\
    moved_alike (c_vars (s_ctx s1)) v1 (c_vars (s_ctx s2)) v2 /\
    (forall a n, o = Ok a -> In n G -> mget n v1 = mget n v2).
  Lemma future_after t1 t2 tr : same_future w t1 t2 -> same_future w (t1 ++ tr) (t2 ++ tr).
  Proof. intros F x m. rewrite <- !app_assoc. apply F. Qed.
  Lemma live_lift {A} P (r : out everr A) : live P (lift r) [].
  Proof.
    intros s1 s2 F. exists r, [], [], (c_vars (s_ctx s1)), (c_vars (s_ctx s2)). unfold lift.
    rewrite <- !st_same. split; [auto|]. split; [auto|]. split; [apply moved_refl|]. intros a n _ [].
  Qed.
  Lemma live_weaken {A} (P P' : str -> Prop) (m : evm A) G G' : live P m G -> (forall n, P n -> P' n) -> (forall n, In n G' -> In n G) -> live P' m G'.
  Proof.
    intros L HP HG s1 s2 (F1 & F2 & F3 & F4). destruct (L s1 s2) as (o & tr & recs & v1 & v2 & E1 & E2 & M & S); [now repeat split; auto|].
    exists o, tr, recs, v1, v2. repeat split; auto. intros a n E J. eauto.
  Qed.
  Lemma live_bind {A B} P (m : evm A) (k : A -> evm B) G H : live P m G -> (forall a, live (fun n => P n \/ In n G) (k a) H) -> live P (bind m k) (G ++ H).
  Proof.
    intros M K s1 s2 F. destruct (M s1 s2 F) as (o & tr & recs & v1 & v2 & E1 & E2 & MV & S).
    destruct o as [a|e| |].
    - assert (F' : agrees (fun n => P n \/ In n G) (St (Ctx v1 (c_reqs (s_ctx s1)) (c_recs (s_ctx s1) ++ recs)) (s_trace s1 ++ tr))
                     (St (Ctx v2 (c_reqs (s_ctx s2)) (c_recs (s_ctx s2) ++ recs)) (s_trace s2 ++ tr))).
      { destruct F as (F1 & F2 & F3 & F4). split; [now apply future_after|]. split; [auto|]. split; [auto|]. cbn [s_ctx c_vars].
        intros n [J|J]; [|eauto]. destruct (MV n) as [[Q1 Q2]|Q]; [rewrite Q1, Q2; auto|auto]. }
      destruct (K a _ _ F') as (o & tr' & recs' & u1 & u2 & K1 & K2 & MV' & S').
      cbn [s_trace s_ctx c_reqs c_vars c_recs] in *. exists o, (tr ++ tr'), (recs ++ recs'), u1, u2.
      rewrite (bind_ok _ _ _ _ _ E1), (bind_ok _ _ _ _ _ E2), K1, K2, !app_assoc.
      split; [auto|]. split; [auto|]. split; [eapply moved_trans; eauto|].
      intros b n -> J. apply in_app_iff in J. destruct J as [J|J]; [|eauto].
      destruct (MV' n) as [[Q1 Q2]|Q]; [rewrite Q1, Q2; eauto|auto].
    - exists (Err e), tr, recs, v1, v2. unfold bind. rewrite E1, E2. repeat split; auto. discriminate.
    - exists Panic, tr, recs, v1, v2. unfold bind. rewrite E1, E2. repeat split; auto. discriminate.
    - exists Diverge, tr, recs, v1, v2. unfold bind. rewrite E1, E2. repeat split; auto. discriminate.
  Qed.
  Lemma live_ident h call (P : str -> Prop) n : P n -> live P (eval h call (EIdent n)) [].
  Proof.
    intros Pn s1 s2 F. cbn [eval]. unfold ctx_get. pose proof F as (_ & _ & _ & V). rewrite <- (V n Pn).
    exists (match mget n (c_vars (s_ctx s1)) with Some v => Ok v | None => Err (EIdentNotFound n) end), [], [], (c_vars (s_ctx s1)), (c_vars (s_ctx s2)).
    rewrite <- !st_same. destruct (mget n (c_vars (s_ctx s1))); (split; [auto|]; split; [auto|]; split; [apply moved_refl|intros ? ? ? []]).
  Qed.
  Lemma live_set P n (v : value) : live P (fun s => (Ok v, upd (fun c => ctx_set c n v) s)) [n].
  Proof.
    intros s1 s2 F. exists (Ok v), [], [], (mset n v (c_vars (s_ctx s1))), (mset n v (c_vars (s_ctx s2))).
    rewrite !app_nil_r. unfold upd, ctx_set. split; [auto|]. split; [auto|]. split.
    - intros m. destruct (str_eqb m n) eqn:E.
      + apply str_eqb_eq in E. subst. right. now rewrite !mget_mset_same.
      + apply str_eqb_neq in E. left. now rewrite !mget_mset_other by auto.
    - intros a m _ [<-|[]]. now rewrite !mget_mset_same.
  Qed.

  (** Calls *)
  Lemma native_live P h n vs : live P (native_call h n vs) [].
  Proof.
    assert (E : forall (v : value) t, live P (fun s => (Ok v, emit (Printed t) s)) []).
    { intros v t s1 s2 F. exists (Ok v), [Printed t], [], (c_vars (s_ctx s1)), (c_vars (s_ctx s2)). rewrite !app_nil_r.
      split; [destruct s1 as [[]]; reflexivity|]. split; [destruct s2 as [[]]; reflexivity|]. split; [apply moved_refl|intros ? ? ? []]. }
    unfold native_call.
    destruct (str_eqb n (lit "println")).
    { unfold native_println. destruct (native_format h vs); [apply E| | |]; apply live_lift. }
    destruct (str_eqb n (lit "print")).
    { unfold native_print. destruct (native_format h vs); [apply E| | |]; apply live_lift. }
    destruct (str_eqb n (lit "format")); [apply live_lift|].
    destruct (str_eqb n (lit "length")); [apply live_lift|].
    destruct (str_eqb n (lit "append")); apply live_lift.
  Qed.
  Lemma request_live (P : str -> Prop) n m es ps : scan m ps -> (forall x, In x (holes ps) -> P x) -> live P (request_call w (eval_native w) n m es) [].
  Proof.
    intros S H s1 s2 (F1 & F2 & F3 & F4).
    pose proof (substitute_same w m ps (s_ctx s1) (s_ctx s2) S (fun x J => F4 x (H x J))) as E.
    unfold request_call. rewrite <- E. set (msg := substitute _ m). cbv zeta.
    pose proof (F1 [] msg) as T. rewrite !app_nil_r in T. rewrite <- T. set (x := e_net w (s_trace s1) msg).
    assert (N : forall (o : res) tr,
      exists o0 tr0 recs0 v1 v2,
        (o, St (s_ctx s1) (s_trace s1 ++ tr)) = (o0, St (Ctx v1 (c_reqs (s_ctx s1)) (c_recs (s_ctx s1) ++ recs0)) (s_trace s1 ++ tr0)) /\
        (o, St (s_ctx s2) (s_trace s2 ++ tr)) = (o0, St (Ctx v2 (c_reqs (s_ctx s2)) (c_recs (s_ctx s2) ++ recs0)) (s_trace s2 ++ tr0)) /\
        moved_alike (c_vars (s_ctx s1)) v1 (c_vars (s_ctx s2)) v2 /\ (forall a n, o0 = Ok a -> In n [] -> mget n v1 = mget n v2)).
    { intros o tr. exists o, tr, [], (c_vars (s_ctx s1)), (c_vars (s_ctx s2)). rewrite !app_nil_r.
      split; [destruct s1 as [[]]; reflexivity|]. split; [destruct s2 as [[]]; reflexivity|]. split; [apply moved_refl|intros ? ? ? []]. }
    unfold emit.
    destruct (client_send (e_prepare w) x msg) as [[[[rq rs] t] er]|e| |]; try apply N.
    destruct (to_map (e_host w) rs) as [mp|e| |]; try apply N.
    destruct (asserts_local (e_host w) (eval_native w) (eval_native_local w) es (ctx_from mp) eq_refl) as (oa & c' & pr & Q & Rc & S' & K).
    cbn [s_trace]. rewrite !K. destruct oa as [as_|e| |]; cbn [s_trace s_ctx]; rewrite <- !app_assoc; try apply N.
    unfold ctx_push. exists (Ok (VMap (ctx_into_map c'))), ([Sent msg] ++ pr), [Record_ n t rq rs as_ er], (c_vars (s_ctx s1)), (c_vars (s_ctx s2)).
    split; [auto|]. split; [auto|]. split; [apply moved_refl|intros ? ? ? []].
  Qed.
  Lemma call_live (P : str -> Prop) n vs :
    (forall template asserts ps x, mget n R = Some (template, asserts) -> scan template ps -> In x (holes ps) -> P x) -> live P (call_at w 1 n vs) [].
  Proof.
    intros H s1 s2 F. rewrite !call_one. unfold ctx_request. pose proof F as (_ & R1 & R2 & _).
    replace (mget n (c_reqs (s_ctx s1))) with (mget n R) by now rewrite R1. replace (mget n (c_reqs (s_ctx s2))) with (mget n R) by now rewrite R2.
    destruct (mget n R) as [[m es]|] eqn:E; [|exact (native_live P (e_host w) n vs s1 s2 F)].
    destruct (scan_exists m) as [ps S]. exact (request_live P n m es ps S (fun x J => H m es ps x eq_refl S J) s1 s2 F).
  Qed.

  (** Expressions *)
  Let call := call_at w 1.
  Let h := e_host w.
  Definition fine (e : expr) : Prop := forall P : str -> Prop, (forall n, needs R e n -> P n) -> live P (eval h call e) (sure e).
  Lemma evl_live es : Forall fine es -> forall P : str -> Prop, (forall a e b n, es = a ++ e :: b -> needs R e n -> ~ In n (flat_map sure a) -> P n) ->
    live P (evl h call es) (flat_map sure es).
  Proof.
    induction 1 as [|e es He _ IH]; intros P H; [apply live_lift|]. cbn [evl flat_map].
    apply live_bind; [apply He; intros n J; apply (H [] e es); auto|]. intros v.
    apply (live_weaken (fun n => P n \/ In n (sure e)) _ _ (flat_map sure es ++ [])); [|auto|intros n J; apply in_app_iff; auto].
    apply live_bind; [|intros; apply live_lift]. apply IH.
    intros a x b n -> N J. destruct (in_dec (list_eq_dec N.eq_dec) n (sure e)); [auto|].
    left. apply (H (e :: a) x b); auto. cbn. rewrite in_app_iff. tauto.
  Qed.
  Lemma block_live es : Forall fine es -> forall (P : str -> Prop) v, (forall a e b n, es = a ++ e :: b -> needs R e n -> ~ In n (flat_map sure a) -> P n) ->
    live P (eval_exprs h call v es) (flat_map sure es).
  Proof.
    induction 1 as [|e es He _ IH]; intros P v H; [apply live_lift|]. cbn [eval_exprs flat_map].
    apply live_bind; [apply He; intros n J; apply (H [] e es); auto|]. intros v'. apply IH.
    intros a x b n -> N J. destruct (in_dec (list_eq_dec N.eq_dec) n (sure e)); [auto|].
    left. apply (H (e :: a) x b); auto. cbn. rewrite in_app_iff. tauto.
  Qed.
  Lemma evp_live ps : Forall (fun kv => fine (fst kv) /\ fine (snd kv)) ps -> forall (P : str -> Prop) m,
    (forall a k v b n, ps = a ++ (k, v) :: b -> needs R k n -> ~ In n (sure_pairs a) -> P n) ->
    (forall a k v b n, ps = a ++ (k, v) :: b -> needs R v n -> ~ In n (sure_pairs a ++ sure k) -> P n) ->
    live P (evp h call m ps) (sure_pairs ps).
  Proof.
    induction 1 as [|[k v] ps [Hk Hv] _ IH]; intros P m H1 H2; [apply live_lift|]. cbn [evp sure_pairs flat_map fst snd] in *. rewrite <- app_assoc.
    apply live_bind; [apply Hk; intros n J; apply (H1 [] k v ps); auto|]. intros kv.
    apply live_bind; [apply Hv; intros n J; destruct (in_dec (list_eq_dec N.eq_dec) n (sure k)); [auto|left; apply (H2 [] k v ps); auto]|]. intros vv. apply IH.
    - intros a x y b n -> N J. destruct (in_dec (list_eq_dec N.eq_dec) n (sure k)); [auto|]. destruct (in_dec (list_eq_dec N.eq_dec) n (sure v)); [auto|].
      left. left. apply (H1 ((k, v) :: a) x y b); auto. cbn. rewrite !in_app_iff. tauto.
    - intros a x y b n -> N J. destruct (in_dec (list_eq_dec N.eq_dec) n (sure k)); [auto|]. destruct (in_dec (list_eq_dec N.eq_dec) n (sure v)); [auto|].
      left. left. apply (H2 ((k, v) :: a) x y b); auto. cbn. rewrite !in_app_iff in *. tauto.
  Qed.
  Lemma eval_live e : fine e.
  Proof.
    induction e as [z|f|b|x|es IH|ps IH|e i IHe IHi|e f IHe|n|n e IHe|t e IHe|t l r IHl IHr|e IHe|c a b IHc IHa IHb|n es IH] using expr_ind2;
      intros P H; try apply live_lift.
    - rewrite eval_arr. cbn [sure]. apply (live_weaken P _ _ (flat_map sure es ++ [])); [|auto|intros x J; apply in_app_iff; auto].
      apply live_bind; [|intros; apply live_lift]. apply evl_live; auto. intros a e b n -> N J. apply H. now constructor.
    - rewrite eval_map. cbn [sure]. apply (live_weaken P _ _ (sure_pairs ps ++ [])); [|auto|intros x J; apply in_app_iff; auto].
      apply live_bind; [|intros; apply live_lift]. apply evp_live; auto.
      + intros a k v b n -> N J. apply H. now apply nd_key.
      + intros a k v b n -> N J. apply H. now apply nd_value.
    - cbn [eval sure]. apply live_bind; [apply IHe; intros n J; apply H; now constructor|]. intros v.
      apply (live_weaken (fun n => P n \/ In n (sure e)) _ _ (sure i ++ [])); [|auto|intros x J; apply in_app_iff; auto].
      apply live_bind; [|intros; apply live_lift]. apply IHi. intros n J. destruct (in_dec (list_eq_dec N.eq_dec) n (sure e)); [auto|]. left. apply H. now apply nd_index2.
    - cbn [eval sure]. apply (live_weaken P _ _ (sure e ++ [])); [|auto|intros x J; apply in_app_iff; auto].
      apply live_bind; [|intros; apply live_lift]. apply IHe. intros n J. apply H. now constructor.
    - apply live_ident. apply H. constructor.
    - cbn [eval sure]. apply (live_weaken P _ _ (sure e ++ [n])); [|auto|intros x [J|J]; apply in_app_iff; cbn; auto].
      apply live_bind; [|intros; apply live_set]. apply IHe. intros x J. apply H. now constructor.
    - cbn [eval sure]. apply (live_weaken P _ _ (sure e ++ [])); [|auto|intros x J; apply in_app_iff; auto].
      apply live_bind; [|intros; apply live_lift]. apply IHe. intros n J. apply H. now constructor.
    - assert (L : live P (eval h call l) (sure l)) by (apply IHl; intros n J; apply H; now constructor).
      assert (G : live (fun n => P n \/ In n (sure l)) (eval h call r) (sure r)).
      { apply IHr. intros n J. destruct (in_dec (list_eq_dec N.eq_dec) n (sure l)); [auto|]. left. apply H. now apply nd_bin2. }
      cbn [eval sure]. destruct (strict_op h (tkind t)) eqn:ST.
      + apply (live_weaken P _ _ (sure l ++ sure r ++ [])); [|auto|intros x J; rewrite !in_app_iff in *; destruct J as [J|J]; [auto|]; destruct (tkind t); cbn in J; tauto].
        apply live_bind; [auto|]. intros v. apply live_bind; [auto|]. intros; apply live_lift.
      + destruct (tkind t); try discriminate ST; try (apply (live_weaken P _ _ (sure l ++ [])); [apply live_bind; [auto|]; intros v;
          destruct (falsy v); try apply live_lift; eapply live_weaken; [exact G|auto|intros ? []]|auto|auto]).
        all: intros s1 s2 F; destruct (live_lift P (Err (EBinaryUnsupported t l r) : out everr value) s1 s2 F) as (o & tr & recs & v1 & v2 & E1 & E2 & M & _);
          exists o, tr, recs, v1, v2; repeat split; auto; intros x n ->; unfold lift in E1; discriminate E1.
    - cbn [eval sure]. apply IHe. intros n J. apply H. now constructor.
    - rewrite eval_if. cbn [sure]. apply live_bind; [apply IHc; intros n J; apply H; now constructor|]. intros v. destruct (falsy v).
      + apply (live_weaken (fun n => P n \/ In n (sure c)) _ _ (flat_map sure b)); [|auto|].
        * apply block_live; auto. intros x e y n -> N J. destruct (in_dec (list_eq_dec N.eq_dec) n (sure c)); [auto|]. left. apply H. apply nd_else; auto. rewrite in_app_iff. tauto.
        * intros n J. apply filter_In in J. destruct J as [_ J]. apply existsb_exists in J. destruct J as (x & J & E). apply str_eqb_eq in E. now subst.
      + apply (live_weaken (fun n => P n \/ In n (sure c)) _ _ (flat_map sure a)); [|auto|].
        * apply block_live; auto. intros x e y n -> N J. destruct (in_dec (list_eq_dec N.eq_dec) n (sure c)); [auto|]. left. apply H. apply nd_then; auto. rewrite in_app_iff. tauto.
        * intros n J. apply filter_In in J. tauto.
    - rewrite eval_callx. cbn [sure]. apply (live_weaken P _ _ (flat_map sure es ++ [])); [|auto|intros x J; apply in_app_iff; auto].
      apply live_bind.
      + apply evl_live; auto. intros a e b x -> N J. apply H. now apply nd_arg.
      + intros vs. apply call_live. intros template asserts ps x M S J. destruct (in_dec (list_eq_dec N.eq_dec) x (flat_map sure es)); [auto|]. left. apply H. eapply nd_hole; eauto.
  Qed.
End Live.

Lemma live_block w es s1 s2 : same_future w (s_trace s1) (s_trace s2) -> c_reqs (s_ctx s1) = c_reqs (s_ctx s2) ->
  (forall n, needs_block (c_reqs (s_ctx s1)) es n -> mget n (c_vars (s_ctx s1)) = mget n (c_vars (s_ctx s2))) ->
  exists o tr recs v1 v2,
    eval_block w es s1 = (o, St (Ctx v1 (c_reqs (s_ctx s1)) (c_recs (s_ctx s1) ++ recs)) (s_trace s1 ++ tr)) /\
    eval_block w es s2 = (o, St (Ctx v2 (c_reqs (s_ctx s2)) (c_recs (s_ctx s2) ++ recs)) (s_trace s2 ++ tr)) /\
    moved_alike (c_vars (s_ctx s1)) v1 (c_vars (s_ctx s2)) v2 /\
    (forall v n, o = Ok v -> In n (flat_map sure es) -> mget n v1 = mget n v2).
Proof.
  intros T E V. apply (block_live w (c_reqs (s_ctx s1)) es) with (P := needs_block (c_reqs (s_ctx s1)) es).
  - apply Forall_forall. intros e _. apply eval_live.
  - intros a e b n -> N J. exists a, e, b. auto.
  - repeat split; auto.
Qed.
(** Blocks that read nothing they have not set *)
Lemma closed_block w es s1 s2 : s_trace s1 = s_trace s2 -> c_reqs (s_ctx s1) = c_reqs (s_ctx s2) -> (forall n, ~ needs_block (c_reqs (s_ctx s1)) es n) ->
  exists o tr recs v1 v2,
    eval_block w es s1 = (o, St (Ctx v1 (c_reqs (s_ctx s1)) (c_recs (s_ctx s1) ++ recs)) (s_trace s1 ++ tr)) /\
    eval_block w es s2 = (o, St (Ctx v2 (c_reqs (s_ctx s2)) (c_recs (s_ctx s2) ++ recs)) (s_trace s2 ++ tr)).
Proof.
  intros T R N. destruct (live_block w es s1 s2) as (o & tr & recs & v1 & v2 & E1 & E2 & _); auto.
  - intros x m. now rewrite T.
  - intros n J. now destruct (N n).
  - exists o, tr, recs, v1, v2. auto.
Qed.

(** Iterations *)
Lemma iterated_keeps w body c k s bs : iterated w body c k s bs ->
  c_reqs (s_ctx s) = c_reqs c /\ c_recs (s_ctx s) = [] /\ forall n, ~ In n (flat_map let_names body) -> mget n (c_vars (s_ctx s)) = mget n (c_vars c).
Proof.
  induction 1 as [|k s bs v s1 _ (IR & IC & IV) E]; [auto|]. destruct (block_frame _ _ _ _ _ E) as (V & Rq & _ & _). cbn [s_ctx c_vars c_reqs c_recs].
  split; [congruence|]. split; [auto|]. intros n J. rewrite V by auto. auto.
Qed.
Lemma iteration_like w body c k s bs t : carries_nothing (c_reqs c) body -> iterated w body c k s bs -> same_future w (s_trace s) t ->
  exists o tr recs v1 v2,
    eval_block w body s = (o, St (Ctx v1 (c_reqs c) recs) (s_trace s ++ tr)) /\
    eval_block w body (St (Ctx (c_vars c) (c_reqs c) []) t) = (o, St (Ctx v2 (c_reqs c) recs) (t ++ tr)).
Proof.
  intros SC IT F. destruct (iterated_keeps _ _ _ _ _ _ IT) as (R & C & V).
  destruct (live_block w body s (St (Ctx (c_vars c) (c_reqs c) []) t)) as (o & tr & recs & v1 & v2 & E1 & E2 & _); auto.
  - cbn [s_ctx c_vars]. intros n J. apply V. apply SC. now rewrite <- R.
  - exists o, tr, recs, v1, v2. rewrite E1, E2, C, R. auto.
Qed.
Lemma iteration_fresh w body c k s bs : carries_nothing (c_reqs c) body -> iterated w body c k s bs ->
  exists o tr recs v1 v2,
    eval_block w body s = (o, St (Ctx v1 (c_reqs c) recs) (s_trace s ++ tr)) /\
    eval_block w body (St (Ctx (c_vars c) (c_reqs c) []) (s_trace s)) = (o, St (Ctx v2 (c_reqs c) recs) (s_trace s ++ tr)).
Proof. intros SC IT. apply (iteration_like w body c k s bs); auto. intros x m. reflexivity. Qed.
Lemma iterations_same w body c : carries_nothing (c_reqs c) body -> memoryless w ->
  forall o s0, eval_block w body (St (Ctx (c_vars c) (c_reqs c) []) []) = (o, s0) -> forall k s bs, iterated w body c k s bs ->
  bs = repeat (c_recs (s_ctx s0)) (N.to_nat k) /\
  exists s1, eval_block w body s = (o, s1) /\ c_recs (s_ctx s1) = c_recs (s_ctx s0) /\ s_trace s1 = s_trace s ++ s_trace s0.
Proof.
  intros SC ML o s0 E k s bs IT.
  assert (L : forall k s bs, iterated w body c k s bs -> exists s1, eval_block w body s = (o, s1) /\ c_recs (s_ctx s1) = c_recs (s_ctx s0) /\ s_trace s1 = s_trace s ++ s_trace s0).
  { clear k s bs IT. intros k s bs IT. destruct (iteration_like w body c k s bs [] SC IT) as (o' & tr & recs & v1 & v2 & E1 & E2); [intros x m; apply ML|].
    rewrite E in E2. injection E2 as -> ->. rewrite E1. eexists. cbn. repeat split; auto. }
  split; [|eauto]. induction IT as [|k s bs v s1 IT IH E1]; [reflexivity|].
  destruct (L _ _ _ IT) as (s2 & E2 & RC & _). assert (s1 = s2) by congruence. subst s2. rewrite RC, IH.
  rewrite N2Nat.inj_add. change (N.to_nat 1) with 1. now rewrite repeat_app.
Qed.
