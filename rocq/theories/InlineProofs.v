(** Writing an expression in place of a variable *)
From Verif Require Import TextProofs SyntaxProofs ValueProofs TemplateProofs EvaluatorProofs EvaluatorTop ReadsProofs PlainProofs RefactorProofs SpecReads SpecRefactor.

Section Inlining.
  Variables (w : env) (x : str) (e : expr) (val : value) (s0 s0' : st).
  Hypothesis quiet_e : called e = [].
  Hypothesis pure_e : let_names e = [].
  Hypothesis value_e : eval_expr w e s0 = (Ok val, s0').

  Definition rel (s1 s2 : st) : Prop :=
    mget x (c_vars (s_ctx s1)) = Some val /\
    (forall n, n <> x -> mget n (c_vars (s_ctx s2)) = mget n (c_vars (s_ctx s1))) /\
    (forall n, In n (idents e) -> mget n (c_vars (s_ctx s0)) = mget n (c_vars (s_ctx s2))) /\
    c_reqs (s_ctx s1) = c_reqs (s_ctx s0) /\ c_reqs (s_ctx s2) = c_reqs (s_ctx s1) /\ c_recs (s_ctx s2) = c_recs (s_ctx s1) /\ s_trace s2 = s_trace s1.
  Definition inl {A} (m m' : evm A) : Prop := forall s1 s2, rel s1 s2 -> exists o t1 t2,
    m s1 = (o, t1) /\ m' s2 = (inline_result x e o, t2) /\ rel t1 t2.

  Lemma inl_ret {A} (a : A) : inl (ret a) (ret a).
  Proof. intros s s' H. exists (Ok a), s, s'. auto. Qed.
  Lemma inl_lift {A} (o o' : out everr A) : o' = inline_result x e o -> inl (lift o) (lift o').
  Proof. intros -> s s' H. exists o, s, s'. auto. Qed.
  Lemma inl_bind {A B} (m m' : evm A) (k k' : A -> evm B) : inl m m' -> (forall a, inl (k a) (k' a)) -> inl (bind m k) (bind m' k').
  Proof.
    intros M K s s' H. destruct (M s s' H) as (o & t & t' & E & E' & T). unfold bind. rewrite E, E'.
    destruct o as [a|er| |]; cbn [inline_result].
    - apply K. exact T.
    - exists (Err er), t, t'. auto.
    - exists Panic, t, t'. auto.
    - exists Diverge, t, t'. auto.
  Qed.
  Lemma inline_plain {A} (o : out everr A) : nameless o -> inline_result x e o = o.
  Proof. intros N. destruct o as [|er| |]; cbn; auto. pose proof (N er eq_refl) as P. destruct er; cbn in *; tauto || reflexivity. Qed.
  Lemma inl_plain {A} (o : out everr A) : nameless o -> inl (lift o) (lift o).
  Proof. intros N. apply inl_lift. symmetry. now apply inline_plain. Qed.
  Let h := e_host w.
  Let call := call_at w 1.
  Lemma inl_var : inl (eval h call (EIdent x)) (eval h call (EParen e)).
  Proof.
    intros s1 s2 H. pose proof H as (X & V & W & Q & Q' & R & T). cbn [eval]. unfold ctx_get. rewrite X.
    destruct (quiet_alike w e s0 s2 quiet_e W) as (o & v1 & v2 & E & E' & _). rewrite value_e in E. inversion E; subst o.
    exists (Ok val), s1, (St (Ctx v2 (c_reqs (s_ctx s2)) (c_recs (s_ctx s2))) (s_trace s2)). split; auto. split; [exact E'|].
    pose proof (frame _ _ _ _ _ E') as (F & _). rewrite pure_e in F. unfold rel. cbn [s_ctx s_trace c_vars c_reqs c_recs] in *.
    repeat split; auto; intros n J; rewrite F by (intros []); auto.
  Qed.
  Lemma inl_ident n : n <> x -> inl (eval h call (EIdent n)) (eval h call (EIdent n)).
  Proof.
    intros N s1 s2 H. pose proof H as (X & V & _). cbn [eval]. unfold ctx_get. rewrite (V n N).
    destruct (mget n (c_vars (s_ctx s1))) as [y|]; [exists (Ok y), s1, s2|exists (Err (EIdentNotFound n)), s1, s2]; auto.
  Qed.
  Lemma inl_set n (y : value) : n <> x -> ~ In n (idents e) -> inl (fun s => (Ok y, upd (fun c => ctx_set c n y) s)) (fun s => (Ok y, upd (fun c => ctx_set c n y) s)).
  Proof.
    intros N NI s1 s2 (X & V & W & Q & Q' & R & T). eexists (Ok y), _, _. split; [reflexivity|]. split; [reflexivity|].
    unfold rel, upd, ctx_set. cbn [s_ctx s_trace c_vars c_reqs c_recs]. repeat split; auto.
    - rewrite mget_mset_other by auto. exact X.
    - intros m M. destruct (str_eqb m n) eqn:E.
      + apply str_eqb_eq in E. subst. now rewrite !mget_mset_same.
      + apply str_eqb_neq in E. rewrite !mget_mset_other by auto. auto.
    - intros m M. rewrite mget_mset_other; auto. intros ->. contradiction.
  Qed.
  Lemma inl_native n vs : inl (native_call h n vs) (native_call h n vs).
  Proof.
    assert (E : forall (y : value) t, inl (fun s => (Ok y, emit (Printed t) s)) (fun s => (Ok y, emit (Printed t) s))).
    { intros y t s1 s2 (X & V & W & Q & Q' & R & T). eexists (Ok y), _, _. split; [reflexivity|]. split; [reflexivity|].
      unfold rel, emit. cbn [s_ctx s_trace]. repeat split; auto. congruence. }
    unfold native_call.
    destruct (str_eqb n (lit "println")).
    { pose proof (nl_format h vs) as F. unfold native_println. destruct (native_format h vs); try apply E; apply inl_lift; cbn; auto. symmetry. apply (inline_plain (Err e0)). exact F. }
    destruct (str_eqb n (lit "print")).
    { pose proof (nl_format h vs) as F. unfold native_print. destruct (native_format h vs); try apply E; apply inl_lift; cbn; auto. symmetry. apply (inline_plain (Err e0)). exact F. }
    destruct (str_eqb n (lit "format")); [apply inl_plain, nl_format|].
    destruct (str_eqb n (lit "length")); [apply inl_plain, nl_length|].
    destruct (str_eqb n (lit "append")); [apply inl_plain, nl_append|]. apply inl_lift. reflexivity.
  Qed.
  Lemma inl_request n m es ps : scan m ps -> ~ In x (holes ps) -> inl (request_call w (eval_native w) n m es) (request_call w (eval_native w) n m es).
  Proof.
    intros S NX s1 s2 H. pose proof H as (X & V & W & Q & Q' & R & T). unfold request_call.
    assert (SM : substitute (var_text (e_host w) (s_ctx s2)) m = substitute (var_text (e_host w) (s_ctx s1)) m).
    { apply (substitute_same w m ps); auto. intros n' J. apply V. intros ->. contradiction. }
    rewrite SM. cbv zeta. unfold emit. rewrite T. set (msg := substitute _ m). set (xc := e_net w (s_trace s1) msg).
    assert (N : forall (o : res) tr, nameless o -> exists o0 t t',
      (o, St (s_ctx s1) tr) = (o0, t) /\ (o, St (s_ctx s2) tr) = (inline_result x e o0, t') /\ rel t t').
    { intros o tr L. exists o, (St (s_ctx s1) tr), (St (s_ctx s2) tr). rewrite inline_plain by auto. split; auto. split; auto.
      unfold rel. cbn [s_ctx s_trace]. repeat split; auto. }
    pose proof (send_no_err (e_prepare w) xc msg) as NE.
    destruct (client_send (e_prepare w) xc msg) as [[[[rq rs] t] er]|er| |]; try (exfalso; now apply (NE er)); try (apply N; intros ? ?; discriminate).
    assert (TM : forall er, to_map (e_host w) rs <> Err er).
    { intros e1. unfold to_map. destruct (parse (rs_body rs)) as [src| | |]; try discriminate. destruct (s_exprs src); discriminate. }
    destruct (to_map (e_host w) rs) as [mp|e1| |]; try (exfalso; now apply (TM e1)); try (apply N; intros ? ?; discriminate).
    cbn [s_trace]. destruct (eval_asserts _ _ es _) as [oa sl] eqn:K. destruct oa as [as_|e1| |]; try (apply N; intros ? ?; discriminate).
    - eexists _, _, _. split; [reflexivity|]. split; [reflexivity|]. unfold rel, ctx_push. cbn [s_ctx s_trace c_vars c_reqs c_recs].
      repeat split; auto. now rewrite R.
    - exfalso. now apply asserts_no_err in K.
  Qed.
  Definition fits (a : expr) : Prop :=
    ~ In x (let_names a) /\ (forall n, In n (idents e) -> ~ In n (let_names a)) /\ not_in_templates (c_reqs (s_ctx s0)) x a.
  Lemma inl_call n vs : (forall t as_ ps, mget n (c_reqs (s_ctx s0)) = Some (t, as_) -> scan t ps -> ~ In x (holes ps)) -> inl (call n vs) (call n vs).
  Proof.
    intros NT s1 s2 H. unfold call. rewrite !call_one. unfold ctx_request. pose proof H as (_ & _ & _ & Q & Q' & _). rewrite Q', Q.
    destruct (mget n (c_reqs (s_ctx s0))) as [[m es]|] eqn:E; [|now apply inl_native].
    destruct (scan_exists m) as [ps S]. apply (inl_request n m es ps S); auto. eapply NT; eauto.
  Qed.

  Definition good (a : expr) : Prop := fits a -> inl (eval h call a) (eval h call (inline x e a)).
  Lemma fits_list es : ~ In x (flat_map let_names es) -> (forall n, In n (idents e) -> ~ In n (flat_map let_names es)) ->
    (forall r t asserts ps, In r (flat_map called es) -> mget r (c_reqs (s_ctx s0)) = Some (t, asserts) -> scan t ps -> ~ In x (holes ps)) -> Forall fits es.
  Proof.
    intros A B C. apply Forall_forall. intros a J. split; [|split].
    - intros K. apply A. apply in_flat_map. eauto.
    - intros n I K. apply (B n I). apply in_flat_map. eauto.
    - intros r t as_ ps I. apply C. apply in_flat_map. eauto.
  Qed.
  Lemma inl_list es : Forall good es -> Forall fits es -> inl (evl h call es) (evl h call (map (inline x e) es)).
  Proof.
    induction 1 as [|a es He _ IH]; intros F; [apply inl_ret|]. inversion F; subst. cbn [evl map].
    apply inl_bind; [now apply He|]. intros y. apply inl_bind; [now apply IH|]. intros. apply inl_ret.
  Qed.
  Lemma inl_pairs ps : Forall (fun kv : expr * expr => good (fst kv) /\ good (snd kv)) ps -> Forall (fun kv => fits (fst kv) /\ fits (snd kv)) ps ->
    forall m, inl (evp h call m ps) (evp h call m (map (fun kv => (inline x e (fst kv), inline x e (snd kv))) ps)).
  Proof.
    induction 1 as [|[k y] ps [Hk Hy] _ IH]; intros F m; [apply inl_ret|]. inversion F as [|? ? [] F']; subst. cbn [evp map fst snd] in *.
    apply inl_bind; [now apply Hk|]. intros kv. apply inl_bind; [now apply Hy|]. intros. now apply IH.
  Qed.
  Lemma inl_block es : Forall good es -> Forall fits es -> forall y, inl (eval_exprs h call y es) (eval_exprs h call y (map (inline x e) es)).
  Proof.
    induction 1 as [|a es He _ IH]; intros F y; [apply inl_ret|]. inversion F; subst. cbn [eval_exprs map]. apply inl_bind; [now apply He|]. intros. now apply IH.
  Qed.
  Ltac part F1 F2 F3 := split; [intros K; apply F1; rewrite ?in_app_iff; tauto|split; [intros m I K; apply (F2 m I); rewrite ?in_app_iff; tauto|intros r0 t0 as_ ps0 I; apply F3; cbn [called]; rewrite ?in_app_iff; tauto]].
  Lemma inl_eval a : good a.
  Proof.
    unfold good.
    induction a as [z|f|b|y|es IH|ps IH|a i IHa IHi|a f IHa|n|n a IHa|t a IHa|t l q IHl IHq|a IHa|c a b IHc IHa IHb|n es IH] using expr_ind2;
      intros (F1 & F2 & F3); cbn [inline]; cbn [let_names] in F1, F2; unfold not_in_templates in F3; cbn [called] in F3; try apply inl_ret.
    - rewrite !eval_arr. apply inl_bind; [apply inl_list; auto; now apply fits_list|]. intros; apply inl_ret.
    - rewrite !eval_map. apply inl_bind; [|intros; apply inl_ret]. apply inl_pairs; auto.
      apply Forall_forall. intros kv J. split; (split; [intros K; apply F1|split; [intros m I K; apply (F2 m I)|intros r t as_ qs I; apply F3]]);
        apply in_flat_map; exists kv; rewrite in_app_iff; auto.
    - assert (fits a) by part F1 F2 F3. assert (fits i) by part F1 F2 F3.
      cbn [eval]. apply inl_bind; [auto|]. intros. apply inl_bind; [auto|]. intros; apply inl_plain, nl_index.
    - cbn [eval]. apply inl_bind; [apply IHa; part F1 F2 F3|]. intros; apply inl_plain, nl_field.
    - destruct (str_eqb n x) eqn:E; [apply str_eqb_eq in E; subst; apply inl_var|]. apply str_eqb_neq in E. now apply inl_ident.
    - cbn [In] in F1, F2. assert (fits a). { split; [tauto|]. split; [|exact F3]. intros m I K. apply (F2 m I). now right. }
      cbn [eval]. apply inl_bind; [auto|]. intros. apply inl_set; [intros ->; tauto|]. intros I. apply (F2 n I). now left.
    - cbn [eval]. apply inl_bind; [apply IHa; part F1 F2 F3|]. intros; apply inl_plain, nl_unary.
    - assert (fits l) by part F1 F2 F3. assert (fits q) by part F1 F2 F3.
      cbn [eval]. destruct (strict_op h (tkind t)) as [g|] eqn:G.
      + apply inl_bind; [auto|]. intros. apply inl_bind; [auto|]. intros; eapply inl_plain, nl_strict; eauto.
      + destruct (tkind t); try (apply inl_lift; reflexivity); apply inl_bind; auto; intros y; destruct (falsy y); auto; apply inl_ret.
    - cbn [eval]. apply IHa. part F1 F2 F3.
    - assert (fits c) by part F1 F2 F3.
      assert (Forall fits a) by (apply fits_list; [intros K; apply F1|intros m I K; apply (F2 m I)|intros r t as_ ps I; apply F3]; rewrite !in_app_iff; tauto).
      assert (Forall fits b) by (apply fits_list; [intros K; apply F1|intros m I K; apply (F2 m I)|intros r t as_ ps I; apply F3]; rewrite !in_app_iff; tauto).
      rewrite !eval_if. apply inl_bind; auto. intros y. destruct (falsy y); now apply inl_block.
    - rewrite !eval_callx. apply inl_bind.
      + apply inl_list; auto. apply fits_list; auto. intros r t as_ ps I. apply F3. now right.
      + intros. apply inl_call. intros t as_ ps. apply F3. now left.
  Qed.
End Inlining.

Lemma inlined w x e es s v s1 : es <> [] -> called e = [] -> let_names e = [] -> eval_expr w e s = (Ok v, s1) ->
  (forall a, In a es -> ~ In x (let_names a) /\ (forall n, In n (idents e) -> ~ In n (let_names a)) /\ not_in_templates (c_reqs (s_ctx s)) x a) ->
  exists o t t', eval_block w (ELet x e :: es) s = (o, t) /\ eval_block w (map (inline x e) es) s = (inline_result x e o, t') /\ same_but [x] t t'.
Proof.
  intros N C P E F. set (s2 := upd (fun c => ctx_set c x v) s1).
  assert (L : eval_expr w (ELet x e) s = (Ok v, s2)) by (unfold eval_expr, eval_at in *; cbn [eval]; now rewrite (bind_ok _ _ _ _ _ E)).
  pose proof (frame _ _ _ _ _ E) as (FE & _). rewrite P in FE. destruct (quiet_keeps _ _ _ _ _ C E) as (Q & K & T).
  assert (R : rel x e v s s2 s).
  { unfold rel, s2, upd, ctx_set. cbn [s_ctx s_trace c_vars c_reqs c_recs]. repeat split; auto.
    - apply mget_mset_same.
    - intros n J. rewrite mget_mset_other by auto. symmetry. apply FE. intros []. }
  destruct (inl_block w x e v s es) with (y := v) (s1 := s2) (s2 := s) as (o & t & t' & A & B & (X & V & _ & _ & Q' & K' & T')); auto.
  - apply Forall_forall. intros a _. exact (inl_eval w x e v s s1 C P E a).
  - apply Forall_forall. intros a J. now apply F.
  - exists o, t, t'. split; [|split].
    + change (ELet x e :: es) with ([ELet x e] ++ es). rewrite block_app, block_one, L by auto.
      destruct es as [|a es]; [contradiction|]. exact A.
    + destruct es as [|a es]; [contradiction|]. exact B.
    + split; auto. intros n J. apply V. intros ->. apply J. now left.
Qed.
