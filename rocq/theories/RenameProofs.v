(** Renaming variables and requests changes nothing else *)
From Verif Require Import SpecRename TextProofs SyntaxProofs ValueProofs TemplateProofs EvaluatorProofs PlainProofs.

Section Renaming.
  Variables (v r : str -> str).
  Hypothesis inj : one_to_one v.
  Hypothesis nat_ : keeps_natives r.

  Definition rn {A} (m m' : evm A) : Prop := forall s s', renamed v r s s' -> exists o t t',
    m s = (o, t) /\ m' s' = (rename_result v r o, t') /\ renamed v r t t'.

  Lemma rn_ret {A} (a : A) : rn (ret a) (ret a).
  Proof. intros s s' H. exists (Ok a), s, s'. auto. Qed.
  Lemma rn_lift {A} (o o' : out everr A) : o' = rename_result v r o -> rn (lift o) (lift o').
  Proof. intros -> s s' H. exists o, s, s'. auto. Qed.
  Lemma rn_bind {A B} (m m' : evm A) (k k' : A -> evm B) : rn m m' -> (forall a, rn (k a) (k' a)) -> rn (bind m k) (bind m' k').
  Proof.
    intros M K s s' H. destruct (M s s' H) as (o & t & t' & E & E' & T). unfold bind. rewrite E, E'.
    destruct o as [a|e| |]; cbn [rename_result].
    - apply K. exact T.
    - exists (Err e), t, t'. auto.
    - exists Panic, t, t'. auto.
    - exists Diverge, t, t'. auto.
  Qed.
  Lemma rn_ident h call call' n : rn (eval h call (EIdent n)) (eval h call' (EIdent (v n))).
  Proof.
    intros s s' H. cbn [eval]. unfold ctx_get. pose proof H as (V & _). rewrite V.
    destruct (mget n (c_vars (s_ctx s))) as [x|]; [exists (Ok x), s, s'|exists (Err (EIdentNotFound n)), s, s']; auto.
  Qed.
  Lemma rn_set n (x : value) : rn (fun s => (Ok x, upd (fun c => ctx_set c n x) s)) (fun s => (Ok x, upd (fun c => ctx_set c (v n) x) s)).
  Proof.
    intros s s' (V & Q & R & T). eexists (Ok x), _, _. split; [reflexivity|]. split; [reflexivity|].
    unfold renamed, upd, ctx_set. cbn [s_ctx s_trace c_vars c_reqs c_recs]. split; [|auto].
    intros m. destruct (str_eqb m n) eqn:E.
    - apply str_eqb_eq in E. subst. now rewrite !mget_mset_same.
    - apply str_eqb_neq in E. rewrite !mget_mset_other; auto.
  Qed.
  Lemma plain_value {A} (o : out everr A) : nameless o -> rename_result v r o = o.
  Proof. intros N. destruct o as [|e| |]; cbn; auto. pose proof (N e eq_refl) as P. destruct e; cbn in *; tauto || reflexivity. Qed.

  Lemma rn_plain {A} (o : out everr A) : nameless o -> rn (lift o) (lift o).
  Proof. intros N. apply rn_lift. symmetry. now apply plain_value. Qed.

  Section Eval.
    Variables (h : host) (call call' : str -> list value -> evm value).
    Hypothesis call_rn : forall n vs, rn (call n vs) (call' (r n) vs).
    Definition fine (e : expr) : Prop := rn (eval h call e) (eval h call' (rename v r e)).
    Lemma evl_rn es : Forall fine es -> rn (evl h call es) (evl h call' (map (rename v r) es)).
    Proof.
      induction 1 as [|e es He _ IH]; [apply rn_ret|]. cbn [evl map].
      apply rn_bind; [apply He|]. intros x. apply rn_bind; [apply IH|]. intros xs. apply rn_ret.
    Qed.
    Lemma evp_rn ps : Forall (fun kv : expr * expr => fine (fst kv) /\ fine (snd kv)) ps ->
      forall m, rn (evp h call m ps) (evp h call' m (map (fun kv => (rename v r (fst kv), rename v r (snd kv))) ps)).
    Proof.
      induction 1 as [|[k x] ps [] _ IH]; intros m; [apply rn_ret|]. cbn [evp map fst snd] in *.
      apply rn_bind; [auto|]. intros kv. apply rn_bind; auto.
    Qed.
    Lemma block_rn es : Forall fine es -> forall x, rn (eval_exprs h call x es) (eval_exprs h call' x (map (rename v r) es)).
    Proof. induction 1 as [|e es He _ IH]; intros x; [apply rn_ret|]. cbn [eval_exprs map]. apply rn_bind; [apply He|]. intros; apply IH. Qed.
    Lemma eval_rn e : fine e.
    Proof.
      unfold fine.
      induction e as [z|f|b|x|es IH|ps IH|e i IHe IHi|e f IHe|n|n e IHe|t e IHe|t l q IHl IHq|e IHe|c a b IHc IHa IHb|n es IH] using expr_ind2;
        cbn [rename]; try apply rn_ret.
      - rewrite !eval_arr. apply rn_bind; [now apply evl_rn|]. intros; apply rn_ret.
      - rewrite !eval_map. apply rn_bind; [now apply evp_rn|]. intros; apply rn_ret.
      - cbn [eval]. apply rn_bind; [auto|]. intros. apply rn_bind; [auto|]. intros; apply rn_plain, nl_index.
      - cbn [eval]. apply rn_bind; [auto|]. intros; apply rn_plain, nl_field.
      - apply rn_ident.
      - cbn [eval]. apply rn_bind; [auto|]. intros. apply rn_set.
      - cbn [eval]. apply rn_bind; [auto|]. intros; apply rn_plain, nl_unary.
      - cbn [eval]. destruct (strict_op h (tkind t)) as [g|] eqn:G.
        + apply rn_bind; [auto|]. intros. apply rn_bind; [auto|]. intros; eapply rn_plain, nl_strict; eauto.
        + destruct (tkind t); try (apply rn_lift; reflexivity); apply rn_bind; auto; intros x; destruct (falsy x); auto; apply rn_ret.
      - cbn [eval]. apply IHe.
      - rewrite !eval_if. apply rn_bind; auto. intros x. destruct (falsy x); now apply block_rn.
      - rewrite !eval_callx. apply rn_bind; [now apply evl_rn|]. intros. apply call_rn.
    Qed.
  End Eval.

  Lemma native_rn h n vs : rn (native_call h n vs) (native_call h (r n) vs).
  Proof.
    assert (E : forall (x : value) t, rn (fun s => (Ok x, emit (Printed t) s)) (fun s => (Ok x, emit (Printed t) s))).
    { intros x t s s' (V & Q & R & T). eexists (Ok x), _, _. split; [reflexivity|]. split; [reflexivity|].
      unfold renamed, emit. cbn [s_ctx s_trace]. repeat split; auto. congruence. }
    destruct (in_dec str_dec n native_names) as [J|J].
    - pose proof (nat_ n (or_introl J)) as RN. rewrite RN. unfold native_call.
      destruct (str_eqb n (lit "println")).
      { pose proof (nl_format h vs) as F. unfold native_println. destruct (native_format h vs); try apply E; apply rn_lift; cbn; auto. symmetry. apply (plain_value (Err e)). exact F. }
      destruct (str_eqb n (lit "print")).
      { pose proof (nl_format h vs) as F. unfold native_print. destruct (native_format h vs); try apply E; apply rn_lift; cbn; auto. symmetry. apply (plain_value (Err e)). exact F. }
      destruct (str_eqb n (lit "format")); [apply rn_plain, nl_format|].
      destruct (str_eqb n (lit "length")); [apply rn_plain, nl_length|].
      destruct (str_eqb n (lit "append")) eqn:A; [apply rn_plain, nl_append|].
      apply rn_lift. cbn. now rewrite RN.
    - assert (J' : ~ In (r n) native_names). { intros K. rewrite (nat_ n (or_intror K)) in K. auto. }
      assert (X : forall m, ~ In m native_names -> native_call h m vs = lift (Err (EFunctionNotFound m))).
      { intros m M. unfold native_call, native_names in *. cbn [In] in M.
        repeat (match goal with |- context [str_eqb m ?l] => destruct (str_eqb m l) eqn:Z; [exfalso; apply M; apply str_eqb_eq in Z; subst; tauto|clear Z] end). reflexivity. }
      rewrite !X by auto. apply rn_lift. reflexivity.
  Qed.

  Lemma retold_message h c c' m m' : retold v m m' -> (forall n, mget (v n) (c_vars c') = mget n (c_vars c)) ->
    substitute (var_text h c') m' = substitute (var_text h c) m.
  Proof.
    intros (ps & S & S') V. rewrite (substitute_spec _ _ _ S), (substitute_spec _ _ _ S'). clear S S'.
    induction ps as [|[x|n] ps IH]; cbn [map rename_piece holes flat_map fill app]; auto.
    - f_equal. apply IH.
    - fold (holes ps) in *. fold (holes (map (rename_piece v) ps)) in *. cbn [map fill]. f_equal; auto. unfold var_text, ctx_get. now rewrite V.
  Qed.
  Lemma request_rn w n m m' es : retold v m m' -> rn (request_call w (eval_native w) n m es) (request_call w (eval_native w) (r n) m' es).
  Proof.
    intros M s s' H. pose proof H as (V & Q & R & T). unfold request_call. rewrite (retold_message _ _ _ _ _ M V). cbv zeta. unfold emit. rewrite T.
    set (msg := substitute _ m). set (x := e_net w (s_trace s) msg).
    assert (N : forall (o : res) tr, nameless o -> exists o0 t t',
      (o, St (s_ctx s) tr) = (o0, t) /\ (o, St (s_ctx s') tr) = (rename_result v r o0, t') /\ renamed v r t t').
    { intros o tr L. exists o, (St (s_ctx s) tr), (St (s_ctx s') tr). rewrite plain_value by auto. split; auto. split; auto.
      unfold renamed. cbn [s_ctx s_trace]. auto. }
    pose proof (send_no_err (e_prepare w) x msg) as NE.
    destruct (client_send (e_prepare w) x msg) as [[[[rq rs] t] er]|e| |]; try (exfalso; now apply (NE e)); try (apply N; intros ? ?; discriminate).
    assert (TM : forall e, to_map (e_host w) rs <> Err e).
    { intros e. unfold to_map. destruct (parse (rs_body rs)) as [src| | |]; try discriminate. destruct (s_exprs src); discriminate. }
    destruct (to_map (e_host w) rs) as [mp|e| |]; try (exfalso; now apply (TM e)); try (apply N; intros ? ?; discriminate).
    cbn [s_trace]. destruct (eval_asserts _ _ es _) as [oa sl] eqn:K. destruct oa as [as_|e| |]; try (apply N; intros ? ?; discriminate).
    - eexists _, _, _. split; [reflexivity|]. split; [reflexivity|]. unfold renamed, ctx_push. cbn [s_ctx s_trace c_vars c_reqs c_recs].
      repeat split; auto. rewrite R, map_app. reflexivity.
    - exfalso. now apply asserts_no_err in K.
  Qed.
  Lemma call_rn w n vs : rn (call_at w 1 n vs) (call_at w 1 (r n) vs).
  Proof.
    intros s s' H. rewrite !call_one. unfold ctx_request. pose proof H as (_ & Q & _). specialize (Q n).
    destruct (mget n (c_reqs (s_ctx s))) as [[m es]|].
    - destruct Q as (m' & E & M). rewrite E. now apply request_rn.
    - rewrite Q. now apply native_rn.
  Qed.
End Renaming.

Lemma renamed_expr w v r e s s' : one_to_one v -> keeps_natives r -> renamed v r s s' -> exists o t t',
  eval_expr w e s = (o, t) /\ eval_expr w (rename v r e) s' = (rename_result v r o, t') /\ renamed v r t t'.
Proof. intros I K H. apply (eval_rn v r I (e_host w) (call_at w 1) (call_at w 1) (call_rn v r I K w)). exact H. Qed.
Lemma renamed_block w v r es s s' : one_to_one v -> keeps_natives r -> renamed v r s s' -> exists o t t',
  eval_block w es s = (o, t) /\ eval_block w (map (rename v r) es) s' = (rename_result v r o, t') /\ renamed v r t t'.
Proof.
  intros I K H. apply (block_rn v r (e_host w) (call_at w 1) (call_at w 1)); [|exact H].
  apply Forall_forall. intros e _. exact (eval_rn v r I (e_host w) (call_at w 1) (call_at w 1) (call_rn v r I K w) e).
Qed.

(** Every template can be retold *)
Definition tell (p : piece) : str := match p with Lit c => [c] | Hole n => 123%N :: n ++ [125%N] end.
Lemma told_prefix v s ps : scan s ps -> forall u x, ~ In 123%N u -> flat_map tell (map (rename_piece v) ps) = u ++ x -> exists y, s = u ++ y.
Proof.
  induction 1 as [|p n s ps H S IH|c s ps N S IH]; intros [|a u] x U E; try (eexists; reflexivity).
  - cbn in E. discriminate E.
  - exfalso. cbn in E. inversion E. subst. apply U. now left.
  - cbn in E. inversion E. subst. destruct (IH u x) as [y ->]; auto; [|now exists y]. intros J. apply U. now right.
Qed.
Lemma hole_shape p n : hole p n -> exists u, p = 123%N :: u /\ ~ In 123%N u.
Proof.
  intros (I & w1 & w2 & B1 & B2 & ->). exists (w1 ++ n ++ w2 ++ [125%N]). split; auto.
  destruct (ident_nonempty _ I) as (c & s & _ & _ & F). apply blank_ws in B1, B2.
  rewrite !in_app_iff. rewrite Forall_forall in *. intros [J|[J|[J|[J|[]]]]]; try discriminate; [apply B1 in J|apply F in J|apply B2 in J]; vm_compute in J; discriminate.
Qed.
Lemma retell v t : (forall n, identifier n -> identifier (v n)) -> exists t', retold v t t'.
Proof.
  intros V. destruct (scan_exists t) as [ps S]. exists (flat_map tell (map (rename_piece v) ps)), ps. split; auto.
  induction S as [|p n s ps H S IH|c s ps N S IH]; cbn [map rename_piece flat_map tell].
  - constructor.
  - constructor; auto. split; [apply V, H|]. exists [], []. repeat split; constructor.
  - cbn [app]. constructor; auto. intros p n x H E. destruct (hole_shape _ _ H) as (u & -> & U). cbn [app] in E. inversion E; subst.
    destruct (told_prefix v s ps S u x U H2) as [y ->]. apply (N (123%N :: u) n y H). reflexivity.
Qed.

Lemma renamed_new v r q q' : redefined v r q q' -> renamed v r (St (Ctx [] q []) []) (St (Ctx [] q' []) []).
Proof. intros H. unfold renamed. cbn. auto. Qed.
(** Definitions written with the new names are renamed definitions *)
Lemma redefine v r q q' : one_to_one r ->
  Forall2 (fun a b => fst b = r (fst a) /\ snd (snd b) = snd (snd a) /\ retold v (fst (snd a)) (fst (snd b))) q q' -> redefined v r q q'.
Proof.
  intros I F n. induction F as [|[a [t es]] [b [t' es']] q q' (A & B & C) F IH]; cbn [mget]; auto.
  cbn [fst snd] in *. subst b es'. destruct (str_eqb n a) eqn:E.
  - apply str_eqb_eq in E. subst. rewrite str_eqb_refl. eauto.
  - apply str_eqb_neq in E. destruct (str_eqb (r n) (r a)) eqn:G; [apply str_eqb_eq in G; apply I in G; contradiction|]. exact IH.
Qed.
Lemma renamed_program w v r q q' es : one_to_one v -> one_to_one r -> keeps_natives r ->
  Forall2 (fun a b => fst b = r (fst a) /\ snd (snd b) = snd (snd a) /\ retold v (fst (snd a)) (fst (snd b))) q q' ->
  exists o t t', eval_block w es (St (Ctx [] q []) []) = (o, t) /\ eval_block w (map (rename v r) es) (St (Ctx [] q' []) []) = (rename_result v r o, t') /\ renamed v r t t'.
Proof. intros I J K F. apply renamed_block; auto. apply renamed_new. now apply redefine. Qed.
