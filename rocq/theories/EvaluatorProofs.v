(** Proofs about evaluator.rs *)
From Verif Require Import SpecEval TextProofs SyntaxProofs ValueProofs TemplateProofs.
From Coq Require Import ZifyBool.

(** ** equations *)
Section Eqs.
  Variables (h : host) (call : str -> list value -> evm value).
  Fixpoint evl (es : list expr) : evm (list value) :=
    match es with
    | [] => ret []
    | e :: es' => bind (eval h call e) (fun v => bind (evl es') (fun vs => ret (v :: vs)))
    end.
  Fixpoint evp (m : amap value) (ps : list (expr * expr)) : evm (amap value) :=
    match ps with
    | [] => ret m
    | (k, v) :: ps' => bind (eval h call k) (fun kv => bind (eval h call v) (fun vv => evp (mset (show_value h kv) vv m) ps'))
    end.
  Lemma eval_arr es : eval h call (EArr es) = bind (evl es) (fun vs => ret (VArr vs)).
  Proof. reflexivity. Qed.
  Lemma eval_map ps : eval h call (EMap ps) = bind (evp [] ps) (fun m => ret (VMap m)).
  Proof. reflexivity. Qed.
  Lemma eval_if c a b : eval h call (EIf c a b) =
    bind (eval h call c) (fun cv => if falsy cv then eval_exprs h call VNull b else eval_exprs h call VNull a).
  Proof. reflexivity. Qed.
  Lemma eval_callx n es : eval h call (ECall n es) = bind (evl es) (fun vs => call n vs).
  Proof. reflexivity. Qed.
End Eqs.

Lemma bind_inv {A B} (m : evm A) (k : A -> evm B) s o s' : bind m k s = (o, s') ->
  (exists a s1, m s = (Ok a, s1) /\ k a s1 = (o, s')) \/
  (exists o1, m s = (o1, s') /\ ~ is_ok o1 /\ o = stopped o1).
Proof.
  unfold bind. destruct (m s) as [o1 s1] eqn:E. destruct o1 as [a|e| |]; intros H.
  - left. eauto.
  - right. inversion H; subst. exists (Err e). repeat split; auto. intros [? [=]].
  - right. inversion H; subst. exists Panic. repeat split; auto. intros [? [=]].
  - right. inversion H; subst. exists Diverge. repeat split; auto. intros [? [=]].
Qed.
Lemma bind_ok {A B} (m : evm A) (k : A -> evm B) s a s1 : m s = (Ok a, s1) -> bind m k s = k a s1.
Proof. unfold bind. now intros ->. Qed.
Lemma bind_stop {A B} (m : evm A) (k : A -> evm B) s o s1 : m s = (o, s1) -> ~ is_ok o -> bind m k s = (stopped o, s1).
Proof. unfold bind. intros -> N. destruct o; auto. exfalso. apply N. now exists a. Qed.

(** ** what an evaluation may change *)
Record effect {A} (names : list str) (k : nat) (s : st) (o : out everr A) (s' : st) : Prop := {
  ef_vars : forall n, ~ In n names -> mget n (c_vars (s_ctx s')) = mget n (c_vars (s_ctx s));
  ef_reqs : c_reqs (s_ctx s') = c_reqs (s_ctx s);
  ef_log : exists recs tr, c_recs (s_ctx s') = c_recs (s_ctx s) ++ recs /\ s_trace s' = s_trace s ++ tr /\
             (sent tr <= k)%nat /\ (length recs <= sent tr <= S (length recs))%nat /\ (returns o -> sent tr = length recs)
}.
Lemma sent_app a b : sent (a ++ b) = (sent a + sent b)%nat.
Proof. unfold sent. rewrite filter_app, app_length. reflexivity. Qed.
Lemma effect_same {A} s (o : out everr A) : effect [] 0 s o s.
Proof. constructor; auto. exists [], []. rewrite !app_nil_r. repeat split; auto. Qed.
Lemma effect_weaken {A} n n' k k' s (o : out everr A) s' : incl n n' -> (k <= k')%nat -> effect n k s o s' -> effect n' k' s o s'.
Proof.
  intros I K [V R (recs & tr & A1 & A2 & A3 & A4)]. constructor; auto. exists recs, tr. repeat split; try tauto; lia.
Qed.
Lemma effect_seq {A B} n1 k1 n2 k2 s (o1 : out everr A) s1 (o : out everr B) s2 :
  returns o1 -> effect n1 k1 s o1 s1 -> effect n2 k2 s1 o s2 -> effect (n1 ++ n2) (k1 + k2) s o s2.
Proof.
  intros F [V1 R1 (r1 & t1 & A1 & A2 & A3 & A4 & A5)] [V2 R2 (r2 & t2 & B1 & B2 & B3 & B4 & B5)]. constructor.
  - intros n N. rewrite in_app_iff in N. rewrite V2, V1 by tauto. reflexivity.
  - congruence.
  - exists (r1 ++ r2), (t1 ++ t2). rewrite B1, A1, B2, A2, !app_assoc, sent_app, app_length. specialize (A5 F).
    repeat split; try lia. intros X. specialize (B5 X). lia.
Qed.
Lemma effect_stopped {A B} n k s (o : out everr A) s' : ~ is_ok o -> effect n k s o s' -> effect n k s (stopped (B := B) o) s'.
Proof.
  intros N [V R (recs & tr & A1 & A2 & A3 & A4 & A5)]. constructor; auto. exists recs, tr. repeat split; try tauto.
  destruct o; cbn in *; auto.
Qed.
Lemma effect_bind {A B} n1 k1 n2 k2 (m : evm A) (f : A -> evm B) s o s' :
  (forall o s', m s = (o, s') -> effect n1 k1 s o s') ->
  (forall a s1 o s', m s = (Ok a, s1) -> f a s1 = (o, s') -> effect n2 k2 s1 o s') ->
  bind m f s = (o, s') -> effect (n1 ++ n2) (k1 + k2) s o s'.
Proof.
  intros M F H. apply bind_inv in H. destruct H as [(a & s1 & E & H)|(o1 & E & N & ->)].
  - eapply (effect_seq n1 k1 n2 k2 s (Ok a) s1); [exact I|apply (M _ _ E)|eapply F; eauto].
  - apply effect_stopped; auto. apply (effect_weaken n1 _ k1); auto with arith. apply incl_appl, incl_refl.
Qed.
Lemma effect_pure {A} n k (r : out everr A) s o s' : (r, s) = (o, s') -> effect n k s o s'.
Proof. intros [= <- <-]. apply (effect_weaken [] _ 0); [intros x []|lia|apply effect_same]. Qed.
Lemma effect_bind0 {A B} n k (m : evm A) (f : A -> out everr B) s o s' :
  (forall o s', m s = (o, s') -> effect n k s o s') -> bind m (fun a => lift (f a)) s = (o, s') -> effect n k s o s'.
Proof.
  intros M H. rewrite <- (app_nil_r n). rewrite <- (Nat.add_0_r k). eapply effect_bind; [exact M| |exact H].
  intros a s1 o1 s2 _ E. exact (effect_pure _ _ _ _ _ _ E).
Qed.

Section Effect.
  Variables (h : host) (call : str -> list value -> evm value).
  Hypothesis call_effect : forall n vs s o s', call n vs s = (o, s') -> effect [] 1 s o s'.

  Lemma evl_effect es : Forall (fun e => forall s o s', eval h call e s = (o, s') -> effect (let_names e) (call_count e) s o s') es ->
    forall s o s', evl h call es s = (o, s') -> effect (flat_map let_names es) (list_sum (map call_count es)) s o s'.
  Proof.
    induction 1 as [|e es He _ IH]; intros s o s' H.
    - exact (effect_pure _ _ _ _ _ _ H).
    - cbn [evl flat_map map list_sum fold_right] in *. eapply effect_bind; [apply He| |exact H].
      intros a s1 o1 s2 _ K. eapply (effect_bind0 _ _ _ (fun vs => Ok (a :: vs))); [apply IH|exact K].
  Qed.
  Lemma evp_effect ps : Forall (fun kv : expr * expr => (forall s o s', eval h call (fst kv) s = (o, s') -> effect (let_names (fst kv)) (call_count (fst kv)) s o s')
      /\ (forall s o s', eval h call (snd kv) s = (o, s') -> effect (let_names (snd kv)) (call_count (snd kv)) s o s')) ps ->
    forall m s o s', evp h call m ps s = (o, s') ->
      effect (flat_map (fun kv => let_names (fst kv) ++ let_names (snd kv)) ps)
             (list_sum (map (fun kv => call_count (fst kv) + call_count (snd kv))%nat ps)) s o s'.
  Proof.
    induction 1 as [|[k v] ps [Hk Hv] _ IH]; intros m s o s' H.
    - exact (effect_pure _ _ _ _ _ _ H).
    - cbn [evp flat_map map list_sum fold_right fst snd] in *. rewrite <- app_assoc, <- Nat.add_assoc.
      eapply effect_bind; [apply Hk| |exact H]. intros a s1 o1 s2 _ K.
      eapply effect_bind; [apply Hv| |exact K]. intros b s3 o3 s4 _ L. eapply IH; exact L.
  Qed.
  Lemma block_effect es : Forall (fun e => forall s o s', eval h call e s = (o, s') -> effect (let_names e) (call_count e) s o s') es ->
    forall v s o s', eval_exprs h call v es s = (o, s') -> effect (flat_map let_names es) (list_sum (map call_count es)) s o s'.
  Proof.
    induction 1 as [|e es He _ IH]; intros v s o s' H.
    - exact (effect_pure _ _ _ _ _ _ H).
    - cbn [eval_exprs flat_map map list_sum fold_right] in *. eapply effect_bind; [apply He| |exact H].
      intros a s1 o1 s2 _ K. eapply IH; exact K.
  Qed.

  Lemma eval_effect e : forall s o s', eval h call e s = (o, s') -> effect (let_names e) (call_count e) s o s'.
  Proof.
    induction e as [z|f|b|x|es IH|ps IH|e i IHe IHi|e f IHe|n|n e IHe|t e IHe|t l r IHl IHr|e IHe|c a b IHc IHa IHb|n es IH] using expr_ind2;
      intros s o s' H; try (exact (effect_pure _ _ _ _ _ _ H)).
    - rewrite eval_arr in H. cbn [let_names call_count]. eapply (effect_bind0 _ _ _ (fun vs => Ok (VArr vs))); [|exact H]. now apply evl_effect.
    - rewrite eval_map in H. cbn [let_names call_count]. eapply (effect_bind0 _ _ _ (fun vs => Ok (VMap vs))); [|exact H]. now apply evp_effect.
    - cbn [let_names call_count]. cbn [eval] in H. eapply effect_bind; [apply IHe| |exact H]. intros a s1 o1 s2 _ K.
      eapply (effect_bind0 _ _ _ (fun iv => index_value h a iv)); [apply IHi|exact K].
    - cbn [let_names call_count]. cbn [eval] in H. eapply (effect_bind0 _ _ _ (fun v => field_value v f)); [apply IHe|exact H].
    - cbn [eval] in H. destruct (ctx_get (s_ctx s) n); exact (effect_pure _ _ _ _ _ _ H).
    - cbn [let_names call_count]. cbn [eval] in H. apply bind_inv in H. destruct H as [(v & s1 & E & H)|(o1 & E & N & ->)].
      + inversion H; subst; clear H. destruct (IHe _ _ _ E) as [V R (r1 & t1 & A1 & A2 & A3)]. constructor.
        * intros m N. cbn [upd s_ctx ctx_set c_vars]. cbn [In] in N. rewrite mget_mset_other by (intros ->; tauto). apply V. tauto.
        * exact R.
        * exists r1, t1. repeat split; try tauto; apply A3.
      + apply effect_stopped; auto. apply (effect_weaken (let_names e) _ (call_count e)); auto. apply incl_tl, incl_refl.
    - cbn [let_names call_count]. cbn [eval] in H. eapply (effect_bind0 _ _ _ (fun v => unary_value h t v)); [apply IHe|exact H].
    - cbn [let_names call_count]. cbn [eval] in H. destruct (strict_op h (tkind t)) as [f|] eqn:S.
      + eapply effect_bind; [apply IHl| |exact H]. intros a s1 o1 s2 _ K.
        eapply (effect_bind0 _ _ _ (fun iv => f a iv)); [apply IHr|exact K].
      + destruct (tkind t); try (exact (effect_pure _ _ _ _ _ _ H)); (eapply effect_bind; [apply IHl| |exact H]); intros a s1 o1 s2 _ K; cbv beta in K;
          destruct (falsy a); try (apply (IHr _ _ _ K)); exact (effect_pure _ _ _ _ _ _ K).
    - apply (IHe _ _ _ H).
    - cbn [let_names call_count]. rewrite eval_if in H. rewrite <- Nat.add_assoc. eapply effect_bind; [apply IHc| |exact H]. intros v s1 o1 s2 _ K. cbv beta in K.
      destruct (falsy v).
      + eapply effect_weaken; [| |eapply block_effect; [exact IHb|exact K]]; [apply incl_appr, incl_refl|lia].
      + eapply effect_weaken; [| |eapply block_effect; [exact IHa|exact K]]; [apply incl_appl, incl_refl|lia].
    - cbn [let_names call_count]. rewrite eval_callx in H. rewrite <- (app_nil_r (flat_map let_names es)).
      replace (S (list_sum (map call_count es))) with (list_sum (map call_count es) + 1)%nat by lia.
      eapply effect_bind; [apply evl_effect; exact IH| |exact H]. intros vs s1 o1 s2 _ K. eapply call_effect; eauto.
  Qed.
End Effect.

(** ** evaluation in a context without requests *)
Definition local {A} (m : evm A) : Prop := forall c, c_reqs c = [] -> exists o c' pr,
  c_reqs c' = [] /\ c_recs c' = c_recs c /\ sent pr = 0%nat /\ forall tr, m (St c tr) = (o, St c' (tr ++ pr)).
Lemma local_ret {A} (a : A) : local (ret a).
Proof. intros c E. exists (Ok a), c, []. repeat split; auto. intros. now rewrite app_nil_r. Qed.
Lemma local_lift {A} (r : out everr A) : local (lift r).
Proof. intros c E. exists r, c, []. repeat split; auto. intros. now rewrite app_nil_r. Qed.
Lemma local_bind {A B} (m : evm A) (f : A -> evm B) : local m -> (forall a, local (f a)) -> local (bind m f).
Proof.
  intros M F c E. destruct (M c E) as (o & c1 & pr & R & Rc & S & H). destruct o as [a|e| |].
  - destruct (F a c1 R) as (o & c2 & pr2 & R2 & Rc2 & S2 & H2). exists o, c2, (pr ++ pr2). repeat split; auto.
    + congruence.
    + rewrite sent_app. lia.
    + intros tr. rewrite app_assoc. rewrite <- H2. now apply bind_ok.
  - exists (Err e), c1, pr. repeat split; auto. intros tr. unfold bind. now rewrite H.
  - exists Panic, c1, pr. repeat split; auto. intros tr. unfold bind. now rewrite H.
  - exists Diverge, c1, pr. repeat split; auto. intros tr. unfold bind. now rewrite H.
Qed.

Section Local.
  Variables (h : host) (call : str -> list value -> evm value).
  Hypothesis call_local : forall n vs, local (call n vs).
  Lemma evl_local es : Forall (fun e => local (eval h call e)) es -> local (evl h call es).
  Proof. induction 1; cbn [evl]; auto using local_ret. apply local_bind; auto. intros. apply local_bind; auto using local_ret. Qed.
  Lemma evp_local ps : Forall (fun kv : expr * expr => local (eval h call (fst kv)) /\ local (eval h call (snd kv))) ps ->
    forall m, local (evp h call m ps).
  Proof.
    induction 1 as [|[k v] ps [] _ IH]; intros m; cbn [evp]; auto using local_ret.
    apply local_bind; auto. intros. apply local_bind; auto.
  Qed.
  Lemma block_local es : Forall (fun e => local (eval h call e)) es -> forall v, local (eval_exprs h call v es).
  Proof. induction 1; intros; cbn [eval_exprs]; auto using local_ret. apply local_bind; auto. Qed.
  Lemma eval_local e : local (eval h call e).
  Proof.
    induction e as [z|f|b|x|es IH|ps IH|e i IHe IHi|e f IHe|n|n e IHe|t e IHe|t l r IHl IHr|e IHe|c a b IHc IHa IHb|n es IH] using expr_ind2;
      try apply local_ret.
    - rewrite eval_arr. apply local_bind; auto using local_ret, evl_local.
    - rewrite eval_map. apply local_bind; auto using local_ret, evp_local.
    - cbn [eval]. apply local_bind; auto. intros. apply local_bind; auto using local_lift.
    - cbn [eval]. apply local_bind; auto using local_lift.
    - intros c E. cbn [eval]. exists (match ctx_get c n with Some v => Ok v | None => Err (EIdentNotFound n) end), c, [].
      repeat split; auto. intros. rewrite app_nil_r. cbn [s_ctx]. destruct (ctx_get c n); auto.
    - cbn [eval]. apply local_bind; auto. intros v c E. exists (Ok v), (ctx_set c n v), []. repeat split; auto.
      intros. rewrite app_nil_r. reflexivity.
    - cbn [eval]. apply local_bind; auto using local_lift.
    - cbn [eval]. destruct (strict_op h (tkind t)).
      + apply local_bind; auto. intros. apply local_bind; auto using local_lift.
      + destruct (tkind t); auto using local_lift; apply local_bind; auto; intros v; destruct (falsy v); auto using local_ret.
    - exact IHe.
    - rewrite eval_if. apply local_bind; auto. intros v. destruct (falsy v); auto using block_local.
    - rewrite eval_callx. apply local_bind; auto using evl_local.
  Qed.
End Local.

Lemma native_local h n vs : local (native_call h n vs).
Proof.
  unfold native_call.
  assert (P : forall t, local (fun s => match native_format h vs with Ok v => (Ok VNull, emit (Printed (t v)) s) | Err e => (Err e, s) | Panic => (Panic, s) | Diverge => (Diverge, s) end)).
  { intros t c E. destruct (native_format h vs) as [v|e| |].
    - exists (Ok VNull), c, [Printed (t v)]. repeat split; auto.
    - exists (Err e), c, []. repeat split; auto. intros. now rewrite app_nil_r.
    - exists Panic, c, []. repeat split; auto. intros. now rewrite app_nil_r.
    - exists Diverge, c, []. repeat split; auto. intros. now rewrite app_nil_r. }
  destruct (str_eqb n (lit "println")).
  { intros c E. specialize (P (fun v => show_value h v ++ [10%N]) c E). unfold native_println. destruct (native_format h vs); exact P. }
  destruct (str_eqb n (lit "print")).
  { intros c E. specialize (P (fun v => show_value h v) c E). unfold native_print. destruct (native_format h vs); exact P. }
  destruct (str_eqb n (lit "format")); [apply local_lift|].
  destruct (str_eqb n (lit "length")); [apply local_lift|].
  destruct (str_eqb n (lit "append")); apply local_lift.
Qed.

(** two evaluators that agree on calls in such contexts agree altogether *)
Definition agree {A} (m1 m2 : evm A) : Prop := forall s, c_reqs (s_ctx s) = [] -> m1 s = m2 s.
Lemma local_reqs {A} (m : evm A) s o s' : local m -> c_reqs (s_ctx s) = [] -> m s = (o, s') -> c_reqs (s_ctx s') = [].
Proof.
  intros L E H. destruct s as [c tr]. destruct (L c E) as (o' & c' & pr & R & _ & _ & X). rewrite X in H. inversion H; subst. exact R.
Qed.
Lemma agree_refl {A} (m : evm A) : agree m m.
Proof. intros s _. reflexivity. Qed.
Lemma agree_bind {A B} (m1 m2 : evm A) (f1 f2 : A -> evm B) : local m1 -> agree m1 m2 -> (forall a, agree (f1 a) (f2 a)) -> agree (bind m1 f1) (bind m2 f2).
Proof.
  intros L M F s E. unfold bind. rewrite <- (M s E). destruct (m1 s) as [[a|e| |] s1] eqn:H; auto.
  apply F. eapply local_reqs; eauto.
Qed.
Section Agree.
  Variables (h : host) (c1 c2 : str -> list value -> evm value).
  Hypothesis L1 : forall n vs, local (c1 n vs).
  Hypothesis H12 : forall n vs, agree (c1 n vs) (c2 n vs).
  Let L e := eval_local h c1 L1 e.
  Lemma evl_agree es : Forall (fun e => agree (eval h c1 e) (eval h c2 e)) es -> agree (evl h c1 es) (evl h c2 es).
  Proof.
    induction 1; cbn [evl]; auto using agree_refl. apply agree_bind; auto. intros. apply agree_bind; auto using agree_refl.
    apply evl_local. apply Forall_forall. auto.
  Qed.
  Lemma evp_agree ps : Forall (fun kv : expr * expr => agree (eval h c1 (fst kv)) (eval h c2 (fst kv)) /\ agree (eval h c1 (snd kv)) (eval h c2 (snd kv))) ps ->
    forall m, agree (evp h c1 m ps) (evp h c2 m ps).
  Proof. induction 1 as [|[k v] ps [] _ IH]; intros m; cbn [evp]; auto using agree_refl. apply agree_bind; auto. intros. apply agree_bind; auto. Qed.
  Lemma block_agree es : Forall (fun e => agree (eval h c1 e) (eval h c2 e)) es -> forall v, agree (eval_exprs h c1 v es) (eval_exprs h c2 v es).
  Proof. induction 1; intros; cbn [eval_exprs]; auto using agree_refl. apply agree_bind; auto. Qed.
  Lemma eval_agree e : agree (eval h c1 e) (eval h c2 e).
  Proof.
    induction e as [z|f|b|x|es IH|ps IH|e i IHe IHi|e f IHe|n|n e IHe|t e IHe|t l r IHl IHr|e IHe|c a b IHc IHa IHb|n es IH] using expr_ind2;
      try apply agree_refl.
    - rewrite !eval_arr. apply agree_bind; auto using agree_refl, evl_agree. apply evl_local. apply Forall_forall. auto.
    - rewrite !eval_map. apply agree_bind; auto using agree_refl, evp_agree. apply evp_local. apply Forall_forall. auto.
    - cbn [eval]. apply agree_bind; auto. intros. apply agree_bind; auto using agree_refl.
    - cbn [eval]. apply agree_bind; auto using agree_refl.
    - cbn [eval]. apply agree_bind; auto using agree_refl.
    - cbn [eval]. apply agree_bind; auto using agree_refl.
    - cbn [eval]. destruct (strict_op h (tkind t)).
      + apply agree_bind; auto. intros. apply agree_bind; auto using agree_refl.
      + destruct (tkind t); auto using agree_refl; apply agree_bind; auto; intros v; destruct (falsy v); auto using agree_refl.
    - exact IHe.
    - rewrite !eval_if. apply agree_bind; auto. intros v. destruct (falsy v); auto using block_agree.
    - rewrite !eval_callx. apply agree_bind; auto using evl_agree. apply evl_local. apply Forall_forall. auto.
  Qed.
End Agree.

Lemma call_native w d n vs : agree (native_call (e_host w) n vs) (call_at w d n vs).
Proof. intros s E. destruct d; cbn [call_at]; unfold ctx_request; rewrite E; reflexivity. Qed.
(** in such a context every depth gives the same *)
Definition eval_native (w : env) := eval (e_host w) (native_call (e_host w)).
Lemma at_native w d e : agree (eval_native w e) (eval_at w d e).
Proof. apply eval_agree; auto using native_local, call_native. Qed.
Lemma eval_native_local w e : local (eval_native w e).
Proof. apply eval_local. apply native_local. Qed.

(** ** asserts *)
Lemma or_null_local m : local m -> local (or_null m).
Proof.
  intros L c E. destruct (L c E) as (o & c' & pr & R & Rc & S & H).
  exists (match o with Err _ => Ok VNull | o => o end), c', pr. repeat split; auto.
  intros tr. unfold or_null. rewrite H. destruct o; auto.
Qed.
Lemma or_null_agree m1 m2 : agree m1 m2 -> agree (or_null m1) (or_null m2).
Proof. intros H s E. unfold or_null. now rewrite H. Qed.

Section Asserts.
  Variables (h : host) (ev1 ev2 : expr -> evm value).
  Hypothesis L : forall e, local (ev1 e).
  Hypothesis A : forall e, agree (ev1 e) (ev2 e).
  Lemma asserts_local es : local (eval_asserts h ev1 es).
  Proof.
    induction es as [|e es IH]; [apply local_ret|].
    destruct e; cbn [eval_asserts]; auto.
    apply local_bind; auto using or_null_local. intros. apply local_bind; auto using or_null_local. intros. apply local_bind; auto using local_ret.
  Qed.
  Lemma asserts_agree es : agree (eval_asserts h ev1 es) (eval_asserts h ev2 es).
  Proof.
    induction es as [|e es IH]; [apply agree_refl|].
    destruct e; cbn [eval_asserts]; auto.
    apply agree_bind; auto using or_null_local, or_null_agree. intros.
    apply agree_bind; auto using or_null_local, or_null_agree. intros.
    apply agree_bind; auto using agree_refl, asserts_local.
  Qed.
End Asserts.
Lemma asserts_no_err h ev es : forall s e s', eval_asserts h ev es s <> (Err e, s').
Proof.
  assert (ON : forall m s e s', or_null m s <> (Err e, s')).
  { intros m s e s'. unfold or_null. destruct (m s) as [[]]; discriminate. }
  induction es as [|x es IH]; intros s e s' H; [discriminate|].
  destruct x; cbn [eval_asserts] in H; try (eapply IH; eassumption).
  apply bind_inv in H. destruct H as [(a & s1 & E & H)|(o1 & E & N & O)].
  - apply bind_inv in H. destruct H as [(a2 & s2 & E2 & H)|(o1 & E2 & N & O)].
    + apply bind_inv in H. destruct H as [(a3 & s3 & E3 & H)|(o1 & E3 & N & O)].
      * discriminate.
      * destruct o1; inversion O; subst. eapply IH; eauto.
    + destruct o1; inversion O; subst. eapply ON; eauto.
  - destruct o1; inversion O; subst. eapply ON; eauto.
Qed.

(** ** requests *)
Lemma send_no_err p x m e : client_send p x m <> Err e.
Proof.
  unfold client_send. destruct (request_from p m) as [rq ok]. cbv zeta.
  destruct (x_connect x) as [n|er]; [|discriminate].
  destruct (dur_sub _ n); [|discriminate]. destruct (x_write x); [discriminate|].
  destruct (response_from (x_reply x)); [|discriminate].
  repeat (match goal with |- context [match dur_sub ?a ?b with _ => _ end] => destruct (dur_sub a b) end; try discriminate).
Qed.
Lemma to_map_no_err h r e : to_map h r <> Err e.
Proof. unfold to_map. cbv zeta. destruct (parse (rs_body r)) as [src| | |]; try discriminate. destruct (s_exprs src); discriminate. Qed.

Lemma request_agree w ev1 ev2 n m es s : (forall e, local (ev1 e)) -> (forall e, agree (ev1 e) (ev2 e)) ->
  request_call w ev1 n m es s = request_call w ev2 n m es s.
Proof.
  intros L A. unfold request_call. destruct (client_send _ _ _) as [[[[rq rs] t] er]|e| |]; auto.
  destruct (to_map _ rs) as [mp|e| |]; auto. now rewrite (asserts_agree (e_host w) ev1 ev2) by auto.
Qed.
Lemma call_one w d n vs s : call_at w (S d) n vs s =
  match ctx_request (s_ctx s) n with
  | Some (message, asserts) => request_call w (eval_native w) n message asserts s
  | None => native_call (e_host w) n vs s
  end.
Proof.
  cbn [call_at]. destruct (ctx_request (s_ctx s) n) as [[m es]|]; auto. symmetry. apply request_agree.
  - apply eval_native_local.
  - intros e. apply at_native.
Qed.

Lemma request_effect w n m es s o s' : request_call w (eval_native w) n m es s = (o, s') -> effect [] 1 s o s'.
Proof.
  unfold request_call. set (msg := substitute _ m). cbv zeta.
  set (x := e_net w (s_trace s) msg). intros H.
  assert (ONE : forall (o : res), ~ returns o -> effect [] 1 s o (emit (Sent msg) s)).
  { intros o1 N. constructor; auto. exists [], [Sent msg]. cbn. rewrite app_nil_r. repeat split; auto. intros R. contradiction. }
  destruct (client_send (e_prepare w) x msg) as [[[[rq rs] t] er]|e| |] eqn:CS;
    try (inversion H; subst; apply ONE; cbn; tauto); [|now apply send_no_err in CS].
  destruct (to_map (e_host w) rs) as [mp|e| |] eqn:TM;
    try (inversion H; subst; apply ONE; cbn; tauto); [|now apply to_map_no_err in TM].
  destruct (asserts_local (e_host w) (eval_native w) (eval_native_local w) es (ctx_from mp) eq_refl) as (oa & c' & pr & R & Rc & S & Q).
  rewrite Q in H. cbn [s_trace emit s_ctx] in *.
  destruct oa as [as_|e| |].
  - inversion H; subst. constructor; auto. exists [Record_ n t rq rs as_ er], (Sent msg :: pr). cbn [s_ctx s_trace c_recs ctx_push].
    split; [auto|]. split; [now rewrite <- app_assoc|]. change (Sent msg :: pr) with ([Sent msg] ++ pr). rewrite sent_app, S. cbn. repeat split; auto.
  - exfalso. eapply asserts_no_err. apply (Q []).
  - inversion H; subst. constructor; auto. exists [], (Sent msg :: pr). cbn [s_ctx s_trace c_recs].
    split; [now rewrite app_nil_r|]. split; [now rewrite <- app_assoc|]. change (Sent msg :: pr) with ([Sent msg] ++ pr). rewrite sent_app, S. cbn. repeat split; auto. intros [].
  - inversion H; subst. constructor; auto. exists [], (Sent msg :: pr). cbn [s_ctx s_trace c_recs].
    split; [now rewrite app_nil_r|]. split; [now rewrite <- app_assoc|]. change (Sent msg :: pr) with ([Sent msg] ++ pr). rewrite sent_app, S. cbn. repeat split; auto. intros [].
Qed.
Lemma native_effect h n vs s o s' : native_call h n vs s = (o, s') -> effect [] 1 s o s'.
Proof.
  unfold native_call. intros H.
  assert (P : forall t, effect [] 1 s o (emit (Printed t) s)).
  { intros t. constructor; auto. exists [], [Printed t]. cbn. rewrite app_nil_r. repeat split; auto. }
  repeat match goal with H : (if ?b then _ else _) _ = _ |- _ => destruct b end; try (exact (effect_pure _ _ _ _ _ _ H)).
  - unfold native_println in H. destruct (native_format h vs); try (exact (effect_pure _ _ _ _ _ _ H)). inversion H; subst. apply P.
  - unfold native_print in H. destruct (native_format h vs); try (exact (effect_pure _ _ _ _ _ _ H)). inversion H; subst. apply P.
Qed.
Lemma call_effect w n vs s o s' : call_at w 1 n vs s = (o, s') -> effect [] 1 s o s'.
Proof.
  rewrite call_one. destruct (ctx_request (s_ctx s) n) as [[m es]|]; intros H; [eapply request_effect|eapply native_effect]; eauto.
Qed.

(** one level of nesting is enough: deeper ones never arise *)
Theorem depth_enough w d e s : eval_at w (S d) e s = eval_at w 1 e s.
Proof.
  unfold eval_at. revert s.
  assert (C : forall n vs s, call_at w (S d) n vs s = call_at w 1 n vs s) by (intros; now rewrite !call_one).
  assert (B : forall A B (m1 m2 : evm A) (f1 f2 : A -> evm B), (forall s, m1 s = m2 s) -> (forall a s, f1 a s = f2 a s) -> forall s, bind m1 f1 s = bind m2 f2 s).
  { intros A B m1 m2 f1 f2 M F s. unfold bind. rewrite M. destruct (m2 s) as [[]]; auto. }
  set (h := e_host w).
  induction e as [z|f|b|x|es IH|ps IH|e i IHe IHi|e f IHe|n|n e IHe|t e IHe|t l r IHl IHr|e IHe|c a b IHc IHa IHb|n es IH] using expr_ind2; auto.
  - rewrite !eval_arr. apply B; auto. induction IH; auto. cbn [evl]. apply B; auto; intros; apply B; auto.
  - rewrite !eval_map. apply B; auto. generalize (@nil (str * value)). induction IH as [|[k v] ps [] _ IH]; auto. intros m. cbn [evp]. apply B; auto; intros; apply B; auto.
  - cbn [eval]. apply B; auto; intros; apply B; auto.
  - cbn [eval]. apply B; auto.
  - cbn [eval]. apply B; auto.
  - cbn [eval]. apply B; auto.
  - cbn [eval]. destruct (strict_op h (tkind t)).
    + apply B; auto; intros; apply B; auto.
    + destruct (tkind t); auto; apply B; auto; intros v; destruct (falsy v); auto.
  - rewrite !eval_if. apply B; auto. intros v. destruct (falsy v).
    + generalize VNull. clear -IHb B. induction IHb; auto. cbn [eval_exprs]. intros. apply B; auto.
    + generalize VNull. clear -IHa B. induction IHa; auto. cbn [eval_exprs]. intros. apply B; auto.
  - rewrite !eval_callx. apply B; auto. clear -IH B. induction IH; auto. cbn [evl]. apply B; auto; intros; apply B; auto.
Qed.
