(** Proofs about histories. *)
From Verif Require Import SpecHistory EvaluatorProofs EvaluatorTop SyntaxProofs LexerProofs ParserExamples.
From Coq Require Import Lia.

Lemma chronicle_trans w reqs tr rs tr1 rs1 tr2 rs2 :
  chronicle w reqs tr rs tr1 rs1 -> chronicle w reqs tr1 rs1 tr2 rs2 -> chronicle w reqs tr rs tr2 rs2.
Proof.
  intros A B. induction B as [|t tr' rs' _ IH|r msg pr tr' rs' _ IH E]; auto; [now apply ch_printed|now apply ch_exchange].
Qed.

(** the log of a step: complete if it returns, cut off in an exchange if not *)
Definition logged {A} (w : env) (s : st) (o : out everr A) (s' : st) : Prop :=
  c_reqs (s_ctx s') = c_reqs (s_ctx s) /\
  exists tr, chronicle w (c_reqs (s_ctx s)) (s_trace s) (c_recs (s_ctx s)) tr (c_recs (s_ctx s')) /\
    (s_trace s' = tr \/ ~ returns o /\ exists msg pr, s_trace s' = tr ++ Sent msg :: pr /\ sent pr = 0%nat).
Definition logs {A} (w : env) (m : evm A) : Prop := forall s o s', m s = (o, s') -> logged w s o s'.

Lemma logs_lift {A} w (r : out everr A) : logs w (lift r).
Proof. intros s o s' [= <- <-]. split; auto. exists (s_trace s). split; [constructor|auto]. Qed.
Lemma logs_ret {A} w (a : A) : logs w (ret a).
Proof. apply logs_lift. Qed.
Lemma logs_bind {A B} w (m : evm A) (k : A -> evm B) : logs w m -> (forall a, logs w (k a)) -> logs w (bind m k).
Proof.
  intros M K s o s' H. apply bind_inv in H. destruct H as [(a & s1 & E & H)|(o1 & E & N & ->)].
  - destruct (M _ _ _ E) as (R1 & tr1 & C1 & [T1|[X _]]); [|now destruct X].
    destruct (K a _ _ _ H) as (R2 & tr2 & C2 & T2). split; [congruence|]. exists tr2. split; auto.
    rewrite R1, T1 in C2. eapply chronicle_trans; eauto.
  - destruct (M _ _ _ E) as (R1 & tr1 & C1 & T1). split; auto. exists tr1. split; auto.
    destruct T1 as [T1|[X T1]]; auto. right. split; auto. destruct o1; auto.
Qed.

Section Logs.
  Variables (w : env) (h : host) (call : str -> list value -> evm value).
  Hypothesis call_logs : forall n vs, logs w (call n vs).

  Lemma evl_logs es : Forall (fun e => logs w (eval h call e)) es -> logs w (evl h call es).
  Proof.
    induction 1 as [|e es He _ IH]; [apply logs_ret|]. cbn [evl]. apply logs_bind; auto. intros v. apply logs_bind; auto. intros vs. apply logs_ret.
  Qed.
  Lemma evp_logs ps : Forall (fun kv : expr * expr => logs w (eval h call (fst kv)) /\ logs w (eval h call (snd kv))) ps ->
    forall m, logs w (evp h call m ps).
  Proof.
    induction 1 as [|[k v] ps [Hk Hv] _ IH]; intros m; [apply logs_ret|]. cbn [evp fst snd] in *.
    apply logs_bind; auto. intros kv. apply logs_bind; auto.
  Qed.
  Lemma block_logs es : Forall (fun e => logs w (eval h call e)) es -> forall v, logs w (eval_exprs h call v es).
  Proof.
    induction 1 as [|e es He _ IH]; intros v; [apply logs_ret|]. cbn [eval_exprs]. apply logs_bind; auto.
  Qed.
  Lemma eval_logs e : logs w (eval h call e).
  Proof.
    induction e as [z|f|b|x|es IH|ps IH|e i IHe IHi|e f IHe|n|n e IHe|t e IHe|t l r IHl IHr|e IHe|c a b IHc IHa IHb|n es IH] using expr_ind2;
      try apply logs_ret.
    - intros s. rewrite eval_arr. apply logs_bind; [now apply evl_logs|]. intros vs. apply logs_ret.
    - intros s. rewrite eval_map. apply logs_bind; [now apply evp_logs|]. intros m. apply logs_ret.
    - cbn [eval]. apply logs_bind; auto. intros v. apply logs_bind; auto. intros u. apply logs_lift.
    - cbn [eval]. apply logs_bind; auto. intros v. apply logs_lift.
    - cbn [eval]. intros s o s' E. destruct (ctx_get (s_ctx s) n); exact (logs_lift w _ _ _ _ E).
    - cbn [eval]. apply logs_bind; auto. intros v s o s' [= <- <-].
      split; auto. exists (s_trace s). cbn [upd s_ctx s_trace ctx_set c_recs]. split; [constructor|auto].
    - cbn [eval]. apply logs_bind; auto. intros v. apply logs_lift.
    - cbn [eval]. destruct (strict_op h (tkind t)) as [f|].
      + apply logs_bind; auto. intros v. apply logs_bind; auto. intros u. apply logs_lift.
      + destruct (tkind t); try apply logs_lift; apply logs_bind; auto; intros v; destruct (falsy v); auto; apply logs_ret.
    - exact IHe.
    - intros s. rewrite eval_if. apply logs_bind; auto. intros v. destruct (falsy v); now apply block_logs.
    - intros s. rewrite eval_callx. apply logs_bind; [now apply evl_logs|]. auto.
  Qed.
End Logs.

Lemma native_logs w h n vs : logs w (native_call h n vs).
Proof.
  unfold native_call.
  assert (P : forall f : host -> list value -> res * str,
    logs w (fun s => match f h vs with (Ok v, t) => (Ok v, emit (Printed t) s) | (r, _) => (r, s) end)).
  { intros f s o s' E. destruct (f h vs) as [[v|e| |] t]; try exact (logs_lift w _ _ _ _ E). inversion E; subst.
    split; auto. eexists. split; [apply ch_printed, ch_start|]. left. reflexivity. }
  repeat match goal with |- context [if ?b then _ else _] => destruct b end; try apply logs_lift; [apply (P native_println)|apply (P native_print)].
Qed.
Lemma request_logs w n m es s o s' : mget n (c_reqs (s_ctx s)) = Some (m, es) ->
  request_call w (eval_native w) n m es s = (o, s') -> logged w s o s'.
Proof.
  intros D. unfold request_call. pose proof (message_substitute w (s_ctx s) m) as MS.
  set (msg := substitute _ m) in *. cbv zeta.
  assert (CUT : forall (o : res) pr, ~ returns o -> sent pr = 0%nat -> logged w s o (St (s_ctx s) (s_trace s ++ Sent msg :: pr))).
  { intros o0 pr N S. split; auto. exists (s_trace s). split; [constructor|]. right. split; auto. exists msg, pr. auto. }
  destruct (client_send _ _ msg) as [[[[rq rs] t] er]|e| |] eqn:CS.
  - destruct (to_map (e_host w) rs) as [mp|e| |] eqn:TM.
    + destruct (asserts_local (e_host w) (eval_native w) (eval_native_local w) es (ctx_from mp) eq_refl) as (oa & c' & pr & R & Rc & S & Q).
      rewrite Q. cbn [s_trace emit s_ctx]. destruct oa as [as_|e| |]; intros [= <- <-].
      * split; auto. eexists. split; [|left; reflexivity]. cbn [s_ctx s_trace ctx_push c_recs]. rewrite <- app_assoc. cbn [app].
        apply ch_exchange; [constructor|]. exists m, es, (c_vars (s_ctx s)), mp, (St c' ((s_trace s ++ [Sent msg]) ++ pr)).
        cbn [r_name r_request r_response r_time r_error r_asserts s_trace]. rewrite <- app_assoc. repeat split; auto.
        rewrite app_assoc. apply asserts_iff; [reflexivity|]. apply Q.
      * exfalso. eapply asserts_no_err. apply (Q []).
      * rewrite <- app_assoc. apply CUT; auto.
      * rewrite <- app_assoc. apply CUT; auto.
    + now apply to_map_no_err in TM.
    + intros [= <- <-]. apply (CUT Panic []); auto.
    + intros [= <- <-]. apply (CUT Diverge []); auto.
  - now apply send_no_err in CS.
  - intros [= <- <-]. apply (CUT Panic []); auto.
  - intros [= <- <-]. apply (CUT Diverge []); auto.
Qed.

Lemma call_logs w n vs : logs w (call_at w 1 n vs).
Proof.
  intros s o s'. rewrite call_one. unfold ctx_request. destruct (mget n (c_reqs (s_ctx s))) as [[m es]|] eqn:D.
  - now apply request_logs.
  - apply native_logs.
Qed.
Theorem eval_history w e s o s' : eval_expr w e s = (o, s') ->
  c_reqs (s_ctx s') = c_reqs (s_ctx s) /\
  exists tr, chronicle w (c_reqs (s_ctx s)) (s_trace s) (c_recs (s_ctx s)) tr (c_recs (s_ctx s')) /\
    (s_trace s' = tr \/ ~ returns o /\ exists msg pr, s_trace s' = tr ++ Sent msg :: pr /\ sent pr = 0%nat).
Proof. exact (eval_logs w (e_host w) (call_at w 1) (call_logs w) e s o s'). Qed.
Theorem block_history w es s o s' : eval_block w es s = (o, s') ->
  c_reqs (s_ctx s') = c_reqs (s_ctx s) /\
  exists tr, chronicle w (c_reqs (s_ctx s)) (s_trace s) (c_recs (s_ctx s)) tr (c_recs (s_ctx s')) /\
    (s_trace s' = tr \/ ~ returns o /\ exists msg pr, s_trace s' = tr ++ Sent msg :: pr /\ sent pr = 0%nat).
Proof.
  refine (block_logs w (e_host w) (call_at w 1) es _ VNull s o s'). apply Forall_forall. intros e _.
  exact (eval_logs w (e_host w) (call_at w 1) (call_logs w) e).
Qed.
Lemma chronicle_new w reqs tr rs tr' rs' : chronicle w reqs tr rs tr' rs' -> exists new trn,
  rs' = rs ++ new /\ tr' = tr ++ trn /\ (sent trn = length new)%nat /\
  Forall (fun r => exists before after msg pr, tr ++ trn = before ++ Sent msg :: after /\ exchange w reqs before r msg pr) new.
Proof.
  induction 1 as [|t tr' rs' _ IH|r msg pr tr' rs' _ IH E].
  - exists [], []. rewrite !app_nil_r. repeat split; auto.
  - destruct IH as (new & trn & -> & -> & S & F). exists new, (trn ++ [Printed t]). rewrite app_assoc, sent_app. repeat split; auto; [cbn; lia|].
    eapply Forall_impl; [|exact F]. intros r (b & a & msg & pr & E & X). rewrite E. exists b, (a ++ [Printed t]), msg, pr. now rewrite <- app_assoc.
  - destruct IH as (new & trn & -> & -> & S & F). exists (new ++ [r]), (trn ++ Sent msg :: pr). rewrite !app_assoc, sent_app, app_length.
    destruct E as (t0 & as0 & v0 & m0 & s0 & E1 & E2 & E3 & E4 & E5 & E6 & E7). repeat split; auto.
    + change (Sent msg :: pr) with ([Sent msg] ++ pr). rewrite sent_app, E7. cbn. lia.
    + apply Forall_app. split.
      * eapply Forall_impl; [|exact F]. intros r0 (b & a & msg0 & pr0 & E & X). rewrite E. exists b, (a ++ Sent msg :: pr), msg0, pr0. now rewrite <- app_assoc.
      * constructor; auto. exists (tr ++ trn), pr, msg, pr. split; auto. exists t0, as0, v0, m0, s0. auto 10.
Qed.

(** ** names *)
Open Scope N_scope.
Lemma lexes_ident (s : str) ts : lexes s ts -> forall n, In (Tok KIdent n) ts ->
  exists c x, n = c :: x /\ letter c /\ Forall (fun y => letter y \/ digit y) x.
Proof.
  induction 1 as [|c s ts W L IH|w t rest ts S M L IH|k d body D B]; intros n I.
  - destruct I.
  - auto.
  - destruct I as [->|I]; auto. inversion S as [k x J|c x|c x|k x J|c x A B|k d b J|c]; subst; eauto; exfalso.
    + cbn in J. intuition discriminate.
    + cbn in J. intuition discriminate.
    + cbn in J. intuition discriminate.
  - destruct I as [I|[]]. inversion I; subst. cbn in D. intuition discriminate.
Qed.
Lemma items_tokens is w : syntax_items is w ->
  (forall n d, In (n, d) (item_requests is) -> In (Tok KIdent n) w) /\ (forall n d, In (n, d) (item_tests is) -> In (Tok KIdent n) w).
Proof.
  assert (ONE : forall i w, syntax_item false i w ->
    (forall n d, In (n, d) (item_requests [i]) -> In (Tok KIdent n) w) /\ (forall n d, In (n, d) (item_tests [i]) -> In (Tok KIdent n) w)).
  { intros i w0 S. inversion S; subst; cbn; split; intros n0 d0 I; try contradiction; destruct I as [[= <- <-]|[]]; auto. }
  induction 1 as [|i w is w' S _ [IH1 IH2]|i w is w' S _ [IH1 IH2]].
  - split; intros n d [].
  - destruct (ONE _ _ S) as [O1 O2]. split; intros n d I; apply in_or_app.
    + change (i :: is) with ([i] ++ is) in I. unfold item_requests in I. rewrite flat_map_app in I. apply in_app_or in I. destruct I as [I|I]; [left; eapply O1; exact I|right; eapply IH1; exact I].
    + change (i :: is) with ([i] ++ is) in I. unfold item_tests in I. rewrite flat_map_app in I. apply in_app_or in I. destruct I as [I|I]; [left; eapply O2; exact I|right; eapply IH2; exact I].
  - destruct (ONE _ _ S) as [O1 O2]. split; intros n d I; apply in_or_app.
    + change (i :: is) with ([i] ++ is) in I. unfold item_requests in I. rewrite flat_map_app in I. apply in_app_or in I. destruct I as [I|I]; [left; eapply O1; exact I|right; right; eapply IH1; exact I].
    + change (i :: is) with ([i] ++ is) in I. unfold item_tests in I. rewrite flat_map_app in I. apply in_app_or in I. destruct I as [I|I]; [left; eapply O2; exact I|right; right; eapply IH2; exact I].
Qed.
Theorem source_names text src : parse text = Ok src -> forall n,
  mget n (s_requests src) <> None \/ mget n (s_tests src) <> None ->
  exists c x, n = c :: x /\ letter c /\ Forall (fun y => letter y \/ digit y) x.
Proof.
  intros P n D. destruct (collected_all text src P) as (is & w & S & I & _ & R & T & _).
  destruct (longest_match text) as (ts & S' & L & _). rewrite S in S'. apply app_inj_tail in S'. destruct S' as [-> _].
  destruct (items_tokens _ _ I) as [I1 I2]. apply (lexes_ident _ _ L). destruct D as [D|D].
  - destruct (mget n (s_requests src)) as [d|] eqn:E; [|congruence]. apply R in E. destruct E as (a & b & E & _). apply (I1 n d). rewrite E. apply in_or_app. right. now left.
  - destruct (mget n (s_tests src)) as [d|] eqn:E; [|congruence]. apply T in E. destruct E as (a & b & E & _). apply (I2 n d). rewrite E. apply in_or_app. right. now left.
Qed.

Theorem source_records text src w es s o s' : parse text = Ok src -> (forall n, mget n (c_reqs (s_ctx s)) = mget n (s_requests src)) -> c_recs (s_ctx s) = [] ->
  eval_block w es s = (o, s') ->
  Forall (fun r => exists template asserts before after msg, mget (r_name r) (s_requests src) = Some (template, asserts) /\
    s_trace s' = before ++ Sent msg :: after /\
    client_send (e_prepare w) (e_net w before msg) msg = Ok (r_request r, r_response r, r_time r, r_error r) /\
    Forall2 (fun e a => exists t l r', e = EBin t l r' /\ a_expr a = show_expr l ++ lit " " ++ tlit t ++ lit " " ++ show_expr r')
      (filter comparison_expr asserts) (r_asserts r) /\
    ~ In 10 (r_name r)) (c_recs (s_ctx s')).
Proof.
  intros P R N E. destruct (block_history _ _ _ _ _ E) as (_ & tr & C & T). destruct (chronicle_new _ _ _ _ _ _ C) as (new & trn & A & B & _ & F).
  rewrite N in A. cbn [app] in A. rewrite A. eapply Forall_impl; [|exact F].
  intros r (b & a & msg & pr & X & (t0 & as0 & v0 & m0 & s0 & E1 & E2 & E3 & E4 & E5 & E6 & E7)).
  rewrite R in E1. assert (Y : exists a', s_trace s' = b ++ Sent msg :: a').
  { rewrite B, X in T. destruct T as [->|(_ & m1 & pr1 & -> & _)]; [eauto|]. rewrite <- app_assoc. cbn [app]. eauto. }
  destruct Y as [a' Y]. exists t0, as0, b, a', msg. repeat split; auto.
  - apply asserted_texts in E5. clear -E5. induction E5 as [|e x l l' (t & y & z & -> & Q & _) _ IH]; constructor; eauto.
  - destruct (source_names _ _ P (r_name r)) as (c & x & -> & L & D); [left; congruence|]. intros [I|I].
    + subst c. unfold letter in L. lia.
    + rewrite Forall_forall in D. apply D in I. unfold letter, digit in I. lia.
Qed.
