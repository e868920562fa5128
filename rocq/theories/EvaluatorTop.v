(** The evaluator properties *)
From Verif Require Import SpecEval TextProofs SyntaxProofs ValueProofs TemplateProofs EvaluatorProofs ParserTop SpecNumber DurationProofs.
From Coq Require Import ZifyBool.
Open Scope nat_scope.

Lemma falsy_iff v : falsy v = true <-> counts_false v.
Proof. unfold counts_false. destruct v as [| | |[]| | |]; cbn; split; intros H; auto; try discriminate; destruct H; discriminate. Qed.
Lemma falsy_not v : ~ counts_false v -> falsy v = false.
Proof. rewrite <- falsy_iff. destruct (falsy v); congruence. Qed.
Lemma stopped_same {A} (o : out everr A) : ~ is_ok o -> stopped (B := A) o = o.
Proof. destruct o; auto. intros H. exfalso. apply H. now exists a. Qed.
Lemma bind_stop1 {A} (m : evm A) (k : A -> evm A) s o s1 : m s = (o, s1) -> ~ is_ok o -> bind m k s = (o, s1).
Proof. intros E N. rewrite (bind_stop _ _ _ _ _ E N). now rewrite stopped_same. Qed.
Lemma ok_dec {A} (o : out everr A) : is_ok o \/ ~ is_ok o.
Proof. destruct o; [left; now exists a| | |]; right; intros [? [=]]. Qed.

(** ** C16 *)
Lemma and_or w t l r s o s1 : eval_expr w l s = (o, s1) ->
  (~ is_ok o -> tkind t = KLa \/ tkind t = KLo -> eval_expr w (EBin t l r) s = (o, s1)) /\
  (forall v, o = Ok v ->
    (tkind t = KLa -> counts_false v -> eval_expr w (EBin t l r) s = (Ok v, s1)) /\
    (tkind t = KLa -> ~ counts_false v -> eval_expr w (EBin t l r) s = eval_expr w r s1) /\
    (tkind t = KLo -> counts_false v -> eval_expr w (EBin t l r) s = eval_expr w r s1) /\
    (tkind t = KLo -> ~ counts_false v -> eval_expr w (EBin t l r) s = (Ok v, s1))).
Proof.
  unfold eval_expr, eval_at. intros E. split.
  - intros N [K|K]; cbn [eval]; rewrite K; cbn [strict_op]; now apply bind_stop1.
  - intros v ->. cbn [eval]. repeat split; intros K F; rewrite K; cbn [strict_op]; rewrite (bind_ok _ _ _ _ _ E);
      [apply falsy_iff in F|apply falsy_not in F|apply falsy_iff in F|apply falsy_not in F]; rewrite F; reflexivity.
Qed.

(** ** C17 *)
Lemma conditional w c a b s o s1 : eval_expr w c s = (o, s1) ->
  (~ is_ok o -> eval_expr w (EIf c a b) s = (o, s1)) /\
  (forall v, o = Ok v ->
    (counts_false v -> eval_expr w (EIf c a b) s = eval_block w b s1) /\
    (~ counts_false v -> eval_expr w (EIf c a b) s = eval_block w a s1)).
Proof.
  unfold eval_expr, eval_at, eval_block. intros E. rewrite eval_if. split.
  - intros N. now apply bind_stop1.
  - intros v ->. split; intros F; rewrite (bind_ok _ _ _ _ _ E); [apply falsy_iff in F|apply falsy_not in F]; rewrite F; reflexivity.
Qed.
Lemma block_nil w s : eval_block w [] s = (Ok VNull, s).
Proof. reflexivity. Qed.
Lemma truthy v : v <> VBool false -> v <> VNull -> ~ counts_false v.
Proof. intros A B [->| ->]; auto. Qed.

(** ** C18 *)
Lemma exprs_app h call a : forall v b s, eval_exprs h call v (a ++ b) s = bind (eval_exprs h call v a) (fun v' => eval_exprs h call v' b) s.
Proof.
  induction a as [|e a IH]; intros v b s; [reflexivity|]. cbn [app eval_exprs]. unfold bind at 1 3.
  unfold bind at 1. destruct (eval h call e s) as [[x|er| |] s1]; auto. rewrite IH. reflexivity.
Qed.
Lemma block_app w a b s : b <> [] -> eval_block w (a ++ b) s =
  match eval_block w a s with (Ok _, s1) => eval_block w b s1 | r => r end.
Proof.
  intros N. unfold eval_block. rewrite exprs_app. unfold bind. destruct (eval_exprs _ _ VNull a s) as [[v|e| |] s1]; auto.
  destruct b as [|e b]; [congruence|]. reflexivity.
Qed.
Lemma block_one w e s : eval_block w [e] s = eval_expr w e s.
Proof.
  unfold eval_block, eval_expr, eval_at. cbn [eval_exprs]. unfold bind, ret. destruct (eval _ _ e s) as [[]]; auto.
Qed.
Lemma exprs_in_order w es s vs s' : in_order w es s vs s' -> forall v, eval_exprs (e_host w) (call_at w 1) v es s = (Ok (last vs v), s').
Proof.
  induction 1 as [s|e es s v s1 vs s2 E _ IH]; intros v0; [reflexivity|]. cbn [eval_exprs]. rewrite (bind_ok _ _ _ _ _ E). rewrite IH.
  destruct vs as [|x vs]; auto. f_equal. f_equal. cbn [last]. clear. revert x. induction vs; intros; auto. cbn [last]. apply IHvs.
Qed.
Lemma exprs_breaks w es s o s' : breaks w es s o s' -> forall v, eval_exprs (e_host w) (call_at w 1) v es s = (o, s').
Proof.
  induction 1 as [e es s o s1 E N|e es s v s1 o s2 E _ IH]; intros v0; cbn [eval_exprs].
  - now apply bind_stop1.
  - rewrite (bind_ok _ _ _ _ _ E). apply IH.
Qed.
Lemma order_or_break w es : forall s, (exists vs s', in_order w es s vs s') \/ (exists o s', breaks w es s o s').
Proof.
  induction es as [|e es IH]; intros s; [left; exists [], s; constructor|].
  destruct (eval_expr w e s) as [o s1] eqn:E. destruct (ok_dec o) as [[v ->]|N].
  - destruct (IH s1) as [(vs & s' & H)|(o & s' & H)]; [left; exists (v :: vs), s'; econstructor; eauto|right; exists o, s'; eapply br_later; eauto].
  - right. exists o, s1. now constructor.
Qed.
Lemma block_order w es s :
  (exists vs s', in_order w es s vs s' /\ eval_block w es s = (Ok (last vs VNull), s')) \/
  (exists o s', breaks w es s o s' /\ eval_block w es s = (o, s')).
Proof.
  destruct (order_or_break w es s) as [(vs & s' & H)|(o & s' & H)]; [left; exists vs, s'|right; exists o, s']; (split; [exact H|]).
  - exact (exprs_in_order w es s vs s' H VNull).
  - exact (exprs_breaks w es s o s' H VNull).
Qed.

(** ** C19 *)
Lemma frame w e s o s' : eval_expr w e s = (o, s') ->
  (forall n, ~ In n (let_names e) -> mget n (c_vars (s_ctx s')) = mget n (c_vars (s_ctx s))) /\
  c_reqs (s_ctx s') = c_reqs (s_ctx s) /\
  (exists recs, c_recs (s_ctx s') = c_recs (s_ctx s) ++ recs) /\ (exists tr, s_trace s' = s_trace s ++ tr).
Proof.
  intros H. destruct (eval_effect _ _ (call_effect w) _ _ _ _ H) as [V R (recs & tr & A & B & _)]. repeat split; eauto.
Qed.
Lemma block_frame w es s o s' : eval_block w es s = (o, s') ->
  (forall n, ~ In n (flat_map let_names es) -> mget n (c_vars (s_ctx s')) = mget n (c_vars (s_ctx s))) /\
  c_reqs (s_ctx s') = c_reqs (s_ctx s) /\
  (exists recs, c_recs (s_ctx s') = c_recs (s_ctx s) ++ recs) /\ (exists tr, s_trace s' = s_trace s ++ tr).
Proof.
  intros H. assert (F : Forall (fun e => forall s o s', eval (e_host w) (call_at w 1) e s = (o, s') -> effect (let_names e) (call_count e) s o s') es).
  { apply Forall_forall. intros e _ s0 o0 s0' E. eapply eval_effect; eauto. apply call_effect. }
  destruct (block_effect _ _ es F _ _ _ _ H) as [V R (recs & tr & A & B & _)]. repeat split; eauto.
Qed.

(** ** C20 *)
Lemma let_binds w n e s o s1 : eval_expr w e s = (o, s1) ->
  (forall v, o = Ok v -> exists s2, eval_expr w (ELet n e) s = (Ok v, s2) /\
     eval_expr w (EIdent n) s2 = (Ok v, s2) /\
     (forall m, m <> n -> mget m (c_vars (s_ctx s2)) = mget m (c_vars (s_ctx s1))) /\
     c_reqs (s_ctx s2) = c_reqs (s_ctx s1) /\ c_recs (s_ctx s2) = c_recs (s_ctx s1) /\ s_trace s2 = s_trace s1) /\
  (~ is_ok o -> eval_expr w (ELet n e) s = (o, s1)).
Proof.
  unfold eval_expr, eval_at. intros E. split.
  - intros v ->. eexists. cbn [eval]. rewrite (bind_ok _ _ _ _ _ E). split; [reflexivity|].
    cbn [eval upd s_ctx ctx_set c_vars c_reqs c_recs s_trace]. unfold ctx_get. cbn [c_vars ctx_set]. rewrite mget_mset_same.
    repeat split. intros m N. now apply mget_mset_other.
  - intros N. cbn [eval]. now apply bind_stop1.
Qed.
Lemma reads w n s : eval_expr w (EIdent n) s =
  match mget n (c_vars (s_ctx s)) with Some v => (Ok v, s) | None => (Err (EIdentNotFound n), s) end.
Proof. reflexivity. Qed.
Lemma let_persists w n v es s o s' : mget n (c_vars (s_ctx s)) = Some v -> ~ In n (flat_map let_names es) ->
  eval_block w es s = (o, s') -> eval_expr w (EIdent n) s' = (Ok v, s').
Proof. intros G N H. apply block_frame in H. destruct H as [V _]. rewrite reads, V, G by auto. reflexivity. Qed.

(** ** C23 *)
Lemma evl_order w es s vs s' : in_order w es s vs s' -> evl (e_host w) (call_at w 1) es s = (Ok vs, s').
Proof.
  induction 1 as [s|e es s v s1 vs s2 E _ IH]; [reflexivity|]. cbn [evl]. rewrite (bind_ok _ _ _ _ _ E), (bind_ok _ _ _ _ _ IH). reflexivity.
Qed.
Lemma evl_breaks w es s o s' : breaks w es s o s' -> evl (e_host w) (call_at w 1) es s = (stopped o, s').
Proof.
  induction 1 as [e es s o s1 E N|e es s v s1 o s2 E H IH]; cbn [evl].
  - now rewrite (bind_stop _ _ _ _ _ E N).
  - rewrite (bind_ok _ _ _ _ _ E). rewrite (bind_stop _ _ _ _ _ IH); [|destruct o; intros [? [=]]]. destruct o; auto.
Qed.
Lemma breaks_not_ok w es s o s' : breaks w es s o s' -> ~ is_ok o.
Proof. induction 1; auto. Qed.
Lemma array_order w es s :
  (forall vs s', in_order w es s vs s' -> eval_expr w (EArr es) s = (Ok (VArr vs), s')) /\
  (forall o s', breaks w es s o s' -> eval_expr w (EArr es) s = (o, s')).
Proof.
  unfold eval_expr, eval_at. rewrite eval_arr. split.
  - intros vs s' H. rewrite (bind_ok _ _ _ _ _ (evl_order _ _ _ _ _ H)). reflexivity.
  - intros o s' H. pose proof (breaks_not_ok _ _ _ _ _ H). rewrite (bind_stop _ _ _ _ _ (evl_breaks _ _ _ _ _ H)); [|destruct o; intros [? [=]]].
    destruct o; auto. exfalso. apply H0. now eexists.
Qed.
Lemma args_break w n args s o s' : breaks w args s o s' -> eval_expr w (ECall n args) s = (o, s').
Proof.
  intros H. unfold eval_expr, eval_at. rewrite eval_callx. pose proof (breaks_not_ok _ _ _ _ _ H).
  rewrite (bind_stop _ _ _ _ _ (evl_breaks _ _ _ _ _ H)); [|destruct o; intros [? [=]]]. destruct o; auto. exfalso. apply H0. now eexists.
Qed.
Lemma args_order w n args s vs s1 : in_order w args s vs s1 -> eval_expr w (ECall n args) s = call_at w 1 n vs s1.
Proof. intros H. unfold eval_expr, eval_at. rewrite eval_callx. now rewrite (bind_ok _ _ _ _ _ (evl_order _ _ _ _ _ H)). Qed.
Lemma strict_kind h k : In k strict_kinds -> exists f, strict_op h k = Some f.
Proof. unfold strict_kinds. cbn [In]. intros H. repeat (destruct H as [<-|H]; [eexists; reflexivity|]). destruct H. Qed.
Lemma binary_order w t l r s : In (tkind t) strict_kinds ->
  (forall v1 v2 s', in_order w [l; r] s [v1; v2] s' -> eval_expr w (EBin t l r) s = (binop w (tkind t) v1 v2, s')) /\
  (forall o s', breaks w [l; r] s o s' -> eval_expr w (EBin t l r) s = (o, s')).
Proof.
  intros K. destruct (strict_kind (e_host w) _ K) as [f F]. unfold eval_expr, eval_at. cbn [eval]. rewrite F. split.
  - intros v1 v2 s' H. inversion H as [|? ? ? ? s1 ? ? E1 H1]; subst. inversion H1 as [|? ? ? ? s2 ? ? E2 H2]; subst. inversion H2; subst.
    rewrite (bind_ok _ _ _ _ _ E1), (bind_ok _ _ _ _ _ E2). rewrite (binop_strict _ _ _ _ _ F). reflexivity.
  - intros o s' H. inversion H as [? ? ? ? ? E N|? ? ? ? s1 ? ? E1 H1]; subst.
    + now apply bind_stop1.
    + rewrite (bind_ok _ _ _ _ _ E1). inversion H1 as [? ? ? ? ? E N|? ? ? ? s2 ? ? E2 H2]; subst.
      * now apply bind_stop1.
      * inversion H2.
Qed.
Lemma unary_order w t e s o s1 : eval_expr w e s = (o, s1) ->
  (~ is_ok o -> eval_expr w (EUn t e) s = (o, s1)) /\
  (forall v x, o = Ok v -> unop w (tkind t) v = Ok x -> eval_expr w (EUn t e) s = (Ok x, s1)) /\
  (forall v, o = Ok v -> unop w (tkind t) v = Panic -> eval_expr w (EUn t e) s = (Panic, s1)) /\
  (forall v er, o = Ok v -> unop w (tkind t) v = Err er -> exists er', eval_expr w (EUn t e) s = (Err er', s1)).
Proof.
  unfold eval_expr, eval_at. intros E. cbn [eval]. split; [intros N; now apply bind_stop1|].
  assert (U : forall v, match unop w (tkind t) v with Err _ => exists er', unary_value (e_host w) t v = Err er'
     | x => unary_value (e_host w) t v = x end).
  { intros v. rewrite unop_eq. unfold unary_value. cbn [tkind].
    destruct (tkind t), v as [| | |[]| | |]; try (eexists; reflexivity); try reflexivity.
    unfold arith. destruct (in_i64 _), (h_checks (e_host w)); reflexivity. }
  split; [|split]; intros v; [intros x| |intros er]; intros -> X; specialize (U v); rewrite X in U; rewrite (bind_ok _ _ _ _ _ E).
  - rewrite U. reflexivity.
  - rewrite U. reflexivity.
  - destruct U as [er' U]. exists er'. rewrite U. reflexivity.
Qed.

(** ** C21 *)
Lemma index_order w v i s :
  (forall vv iv s', in_order w [v; i] s [vv; iv] s' -> eval_expr w (EIndex v i) s = (index_value (e_host w) vv iv, s')) /\
  (forall o s', breaks w [v; i] s o s' -> eval_expr w (EIndex v i) s = (o, s')).
Proof.
  unfold eval_expr, eval_at. cbn [eval]. split.
  - intros v1 v2 s' H. inversion H as [|? ? ? ? s1 ? ? E1 H1]; subst. inversion H1 as [|? ? ? ? s2 ? ? E2 H2]; subst. inversion H2; subst.
    rewrite (bind_ok _ _ _ _ _ E1), (bind_ok _ _ _ _ _ E2). reflexivity.
  - intros o s' H. inversion H as [? ? ? ? ? E N|? ? ? ? s1 ? ? E1 H1]; subst.
    + now apply bind_stop1.
    + rewrite (bind_ok _ _ _ _ _ E1). inversion H1 as [? ? ? ? ? E N|? ? ? ? s2 ? ? E2 H2]; subst.
      * now apply bind_stop1.
      * inversion H2.
Qed.
Lemma array_index w v i s items z s' : in_order w [v; i] s [VArr items; VInt z] s' ->
  (forall x, (0 <= z)%Z -> nth_error items (Z.to_nat z) = Some x -> eval_expr w (EIndex v i) s = (Ok x, s')) /\
  ((z < 0 \/ Z.of_nat (length items) <= z)%Z -> eval_expr w (EIndex v i) s = (Ok VNull, s')).
Proof.
  intros H. destruct (index_order w v i s) as [O _]. rewrite (O _ _ _ H). cbn [index_value]. split.
  - intros x Z E. assert (L : (Z.to_nat z < length items)%nat) by (apply nth_error_Some; congruence).
    replace ((0 <=? z)%Z && (z <? Z.of_nat (length items))%Z) with true by lia.
    f_equal. f_equal. now apply nth_error_nth.
  - intros Z. replace ((0 <=? z)%Z && (z <? Z.of_nat (length items))%Z) with false by lia. reflexivity.
Qed.
Lemma map_index w v i s m k s' : in_order w [v; i] s [VMap m; k] s' ->
  eval_expr w (EIndex v i) s = (Ok (match mget (show_value (e_host w) k) m with Some x => x | None => VNull end), s').
Proof.
  intros H. destruct (index_order w v i s) as [O _]. rewrite (O _ _ _ H). cbn [index_value].
  destruct k; destruct (mget _ m); reflexivity.
Qed.
Lemma bad_index w v i s x k s' : in_order w [v; i] s [x; k] s' ->
  (forall m, x <> VMap m) -> (forall a z, ~ (x = VArr a /\ k = VInt z)) ->
  exists e, eval_expr w (EIndex v i) s = (Err e, s') /\
    everr_text (e_host w) e = lit "index operator not support: " ++ debug_value (e_host w) x.
Proof.
  intros H M A. destruct (index_order w v i s) as [O _]. rewrite (O _ _ _ H). exists (EIndexUnsupported x). split; [|reflexivity].
  destruct x; try reflexivity.
  - destruct k; try reflexivity. exfalso. eapply A; eauto.
  - exfalso. eapply M; eauto.
Qed.
Lemma field_access w e f s o s' : eval_expr w e s = (o, s') ->
  (~ is_ok o -> eval_expr w (EField e f) s = (o, s')) /\
  (forall m, o = Ok (VMap m) -> eval_expr w (EField e f) s = (Ok (match mget f m with Some x => x | None => VNull end), s')) /\
  (forall x, o = Ok x -> (forall m, x <> VMap m) -> exists er, eval_expr w (EField e f) s = (Err er, s') /\
     everr_text (e_host w) er = lit "field operator not support: " ++ debug_value (e_host w) x).
Proof.
  unfold eval_expr, eval_at. intros E. cbn [eval]. repeat split.
  - intros N. now apply bind_stop1.
  - intros m ->. rewrite (bind_ok _ _ _ _ _ E). cbn. destruct (mget f m); reflexivity.
  - intros x -> N. rewrite (bind_ok _ _ _ _ _ E). exists (EFieldUnsupported x). split; [|reflexivity].
    destruct x; try reflexivity. exfalso. eapply N; eauto.
Qed.

(** ** C22 *)
Lemma evp_order w ps : forall s vs s' m, in_order w (flatten ps) s vs s' ->
  evp (e_host w) (call_at w 1) m ps s = (Ok (mextend m (pair_up w vs)), s').
Proof.
  induction ps as [|[k v] ps IH]; intros s vs s' m H; cbn [flatten flat_map fst snd app] in H.
  - inversion H; subst. reflexivity.
  - inversion H as [|? ? ? kv s1 ? ? E1 H1]; subst. inversion H1 as [|? ? ? vv s2 ? ? E2 H2]; subst.
    cbn [evp]. rewrite (bind_ok _ _ _ _ _ E1), (bind_ok _ _ _ _ _ E2). rewrite (IH _ _ _ _ H2). reflexivity.
Qed.
Lemma evp_breaks w ps : forall s o s' m, breaks w (flatten ps) s o s' ->
  evp (e_host w) (call_at w 1) m ps s = (stopped o, s').
Proof.
  induction ps as [|[k v] ps IH]; intros s o s' m H; cbn [flatten flat_map fst snd app] in H; [inversion H|].
  cbn [evp]. inversion H as [? ? ? ? ? E N|? ? ? ? s1 ? ? E1 H1]; subst.
  - now apply bind_stop.
  - rewrite (bind_ok _ _ _ _ _ E1). inversion H1 as [? ? ? ? ? E N|? ? ? ? s2 ? ? E2 H2]; subst.
    + now apply bind_stop.
    + rewrite (bind_ok _ _ _ _ _ E2). now apply IH.
Qed.
Lemma mextend_last_set {V} k (v : V) kvs : mget k (mextend [] kvs) = Some v <-> last_set k kvs v.
Proof. exact (mextend_last k v kvs). Qed.
Lemma map_literal w ps s :
  (forall vs s', in_order w (flatten ps) s vs s' -> exists m, eval_expr w (EMap ps) s = (Ok (VMap m), s') /\
     NoDup (map fst m) /\ forall k v, mget k m = Some v <-> last_set k (pair_up w vs) v) /\
  (forall o s', breaks w (flatten ps) s o s' -> eval_expr w (EMap ps) s = (o, s')).
Proof.
  unfold eval_expr, eval_at. rewrite eval_map. split.
  - intros vs s' H. exists (mextend [] (pair_up w vs)). rewrite (bind_ok _ _ _ _ _ (evp_order _ _ _ _ _ _ H)). split; [reflexivity|].
    split; [apply mextend_nodup; constructor|]. intros. apply mextend_last_set.
  - intros o s' H. pose proof (breaks_not_ok _ _ _ _ _ H). rewrite (bind_stop _ _ _ _ _ (evp_breaks _ _ _ _ _ [] H)); [|destruct o; intros [? [=]]].
    destruct o; auto. exfalso. apply H0. now eexists.
Qed.

(** ** C24 *)
Lemma requests_sent w e s o s' : eval_expr w e s = (o, s') ->
  exists recs tr, c_recs (s_ctx s') = c_recs (s_ctx s) ++ recs /\ s_trace s' = s_trace s ++ tr /\
    sent tr <= call_count e /\ (returns o -> sent tr = length recs) /\ (length recs <= sent tr <= S (length recs)).
Proof.
  intros H. destruct (eval_effect _ _ (call_effect w) _ _ _ _ H) as [_ _ (recs & tr & A & B & C & D & E)]. exists recs, tr. tauto.
Qed.
Lemma block_requests_sent w es s o s' : eval_block w es s = (o, s') ->
  exists recs tr, c_recs (s_ctx s') = c_recs (s_ctx s) ++ recs /\ s_trace s' = s_trace s ++ tr /\
    sent tr <= list_sum (map call_count es) /\ (returns o -> sent tr = length recs) /\ (length recs <= sent tr <= S (length recs)).
Proof.
  intros H. assert (F : Forall (fun e => forall s o s', eval (e_host w) (call_at w 1) e s = (o, s') -> effect (let_names e) (call_count e) s o s') es).
  { apply Forall_forall. intros e _ s0 o0 s0' E. eapply eval_effect; eauto. apply call_effect. }
  destruct (block_effect _ _ es F _ _ _ _ H) as [V R (recs & tr & A & B & C & D & E)]. exists recs, tr. tauto.
Qed.

(** ** requests *)
Lemma var_text_shown w c n : var_text (e_host w) c n = shown w c n.
Proof. reflexivity. Qed.
Lemma message_unique w c t m m' : message_of w c t m -> message_of w c t m' -> m = m'.
Proof. intros (ps & S & ->) (ps' & S' & ->). now rewrite (scan_unique _ _ S _ S'). Qed.
Lemma message_substitute w c t : message_of w c t (substitute (var_text (e_host w) c) t).
Proof.
  destruct (scan_exists t) as [ps S]. exists ps. split; auto. rewrite (substitute_spec _ _ _ S). f_equal.
Qed.
Lemma message_total w c t : exists m, message_of w c t m.
Proof. eexists. apply message_substitute. Qed.

Lemma native_expr w e s : c_reqs (s_ctx s) = [] -> eval_native w e s = eval_expr w e s.
Proof. intros E. now apply at_native. Qed.
Lemma compare_kind k f : compare_op k = Some f -> In k comparison_kinds /\ forall w v1 v2, binop w k v1 v2 = Ok (VBool (f v1 v2)).
Proof.
  intros H. destruct k; inversion H; subst; (split; [cbn; tauto|]); intros; erewrite binop_strict by reflexivity; reflexivity.
Qed.
Lemma compare_none k : compare_op k = None -> ~ In k comparison_kinds.
Proof. intros H X. cbn in X. decompose [or] X; subst; try discriminate; contradiction. Qed.
Lemma operand_iff w e s v s' : c_reqs (s_ctx s) = [] -> (or_null (eval_native w e) s = (Ok v, s') <-> operand w e s v s').
Proof.
  intros R. unfold or_null, operand. rewrite native_expr by auto. destruct (eval_expr w e s) as [[x|er| |] s1]; split; intros H.
  - left. congruence.
  - destruct H as [H|(_ & e' & H)]; congruence.
  - right. inversion H; subst. eauto.
  - destruct H as [H|(-> & e' & H)]; congruence.
  - discriminate.
  - destruct H as [H|(_ & e' & H)]; congruence.
  - discriminate.
  - destruct H as [H|(_ & e' & H)]; congruence.
Qed.
Lemma or_null_reqs w e s o s' : c_reqs (s_ctx s) = [] -> or_null (eval_native w e) s = (o, s') -> c_reqs (s_ctx s') = [].
Proof. intros R. apply local_reqs; auto. apply or_null_local, eval_native_local. Qed.

Lemma asserts_iff w es : forall s as_ s', c_reqs (s_ctx s) = [] ->
  (eval_asserts (e_host w) (eval_native w) es s = (Ok as_, s') <-> asserted w es s as_ s').
Proof.
  induction es as [|e es IH]; intros s as_ s' R.
  - cbn. split; [intros [= <- <-]; constructor|]. intros H. inversion H; subst; reflexivity.
  - assert (OTHER : (forall t l r, e <> EBin t l r) ->
      eval_asserts (e_host w) (eval_native w) (e :: es) s = eval_asserts (e_host w) (eval_native w) es s).
    { intros N. destruct e; try reflexivity. exfalso. eapply N; eauto. }
    destruct e; try (rewrite OTHER by discriminate; rewrite IH by auto; split; [now constructor; try discriminate|
      intros H; inversion H; subst; auto]; fail).
    cbn [eval_asserts]. split.
    + intros H. apply bind_inv in H. destruct H as [(lv & s1 & E1 & H)|(o1 & E & N & O)]; [|destruct o1; inversion O; exfalso; apply N; now eexists].
      apply bind_inv in H. destruct H as [(rv & s2 & E2 & H)|(o1 & E & N & O)]; [|destruct o1; inversion O; exfalso; apply N; now eexists].
      apply bind_inv in H. destruct H as [(as0 & s3 & E3 & H)|(o1 & E & N & O)]; [|destruct o1; inversion O; exfalso; apply N; now eexists].
      pose proof (or_null_reqs _ _ _ _ _ R E1) as R1. pose proof (or_null_reqs _ _ _ _ _ R1 E2) as R2.
      apply operand_iff in E1; auto. apply operand_iff in E2; auto. apply IH in E3; auto.
      inversion H; subst. destruct (compare_op (tkind t)) as [f|] eqn:C.
      * apply compare_kind in C. destruct C as [C1 C2]. eapply at_comparison; eauto.
      * apply compare_none in C. eapply at_operator; eauto.
    + intros H. inversion H as [|? ? ? ? ? N _|? ? ? ? ? ? s1 ? s2 ? ? N O1 O2 H1|? ? ? ? ? ? s1 ? s2 b ? ? N O1 O2 B H1]; subst.
      * exfalso. eapply N; eauto.
      * apply operand_iff in O1; auto. pose proof (or_null_reqs _ _ _ _ _ R O1) as R1.
        apply operand_iff in O2; auto. pose proof (or_null_reqs _ _ _ _ _ R1 O2) as R2. apply IH in H1; auto.
        rewrite (bind_ok _ _ _ _ _ O1), (bind_ok _ _ _ _ _ O2), (bind_ok _ _ _ _ _ H1).
        destruct (compare_op (tkind t)) as [f|] eqn:C; [|reflexivity]. apply compare_kind in C. tauto.
      * apply operand_iff in O1; auto. pose proof (or_null_reqs _ _ _ _ _ R O1) as R1.
        apply operand_iff in O2; auto. pose proof (or_null_reqs _ _ _ _ _ R1 O2) as R2. apply IH in H1; auto.
        rewrite (bind_ok _ _ _ _ _ O1), (bind_ok _ _ _ _ _ O2), (bind_ok _ _ _ _ _ H1).
        destruct (compare_op (tkind t)) as [f|] eqn:C; [|apply compare_none in C; tauto].
        apply compare_kind in C. destruct C as [_ C]. rewrite C in B. inversion B; subst. reflexivity.
Qed.

(** ** C26 *)
Lemma call_request w n args s vs s1 template asserts :
  in_order w args s vs s1 -> mget n (c_reqs (s_ctx s1)) = Some (template, asserts) ->
  eval_expr w (ECall n args) s = request_call w (eval_native w) n template asserts s1.
Proof.
  intros H D. rewrite (args_order _ _ _ _ _ _ H), call_one. unfold ctx_request. rewrite D. reflexivity.
Qed.
Lemma call_reports w n args s vs s1 template asserts msg v s' :
  in_order w args s vs s1 -> mget n (c_reqs (s_ctx s1)) = Some (template, asserts) -> message_of w (s_ctx s1) template msg ->
  (eval_expr w (ECall n args) s = (Ok v, s') <->
   exists rq rs t er m as_ s2,
     client_send (e_prepare w) (e_net w (s_trace s1) msg) msg = Ok (rq, rs, t, er) /\
     to_map (e_host w) rs = Ok m /\
     asserted w asserts (St (Ctx m [] []) (s_trace s1 ++ [Sent msg])) as_ s2 /\
     v = VMap (c_vars (s_ctx s2)) /\
     s' = St (Ctx (c_vars (s_ctx s1)) (c_reqs (s_ctx s1)) (c_recs (s_ctx s1) ++ [Record_ n t rq rs as_ er])) (s_trace s2)).
Proof.
  intros H D M. rewrite (call_request _ _ _ _ _ _ _ _ H D). rewrite <- (message_unique _ _ _ _ _ (message_substitute w (s_ctx s1) template) M).
  clear M. unfold request_call. set (mm := substitute _ template). cbv zeta. split.
  - destruct (client_send _ _ mm) as [[[[rq rs] t] er]|e| |] eqn:CS; try discriminate.
    destruct (to_map (e_host w) rs) as [m|e| |] eqn:TM; try discriminate.
    destruct (eval_asserts _ _ asserts _) as [[as_|e| |] s2] eqn:EA; try discriminate. intros [= <- <-].
    exists rq, rs, t, er, m, as_, s2. apply asserts_iff in EA; auto 10.
  - intros (rq & rs & t & er & m & as_ & s2 & CS & TM & EA & -> & ->). rewrite CS, TM. apply asserts_iff in EA; auto.
    cbn [s_trace emit]. unfold ctx_from. rewrite EA. reflexivity.
Qed.
Lemma asserted_texts w es s as_ s' : asserted w es s as_ s' ->
  Forall2 (fun e a => exists t l r, e = EBin t l r /\
     a_expr a = show_expr l ++ lit " " ++ tlit t ++ lit " " ++ show_expr r /\ a_compare a = tlit t)
    (filter (comparison_expr) es) as_.
Proof.
  induction 1 as [s|e es s as_ s' N _ IH|t l r es s lv s1 rv s2 as_ s3 N _ _ _ IH|t l r es s lv s1 rv s2 b as_ s3 K _ _ _ _ IH].
  - constructor.
  - cbn [filter]. replace (comparison_expr e) with false; auto. destruct e; auto. exfalso. eapply N; eauto.
  - cbn [filter comparison_expr]. destruct (in_dec kind_dec (tkind t) comparison_kinds); [contradiction|auto].
  - cbn [filter comparison_expr]. destruct (in_dec kind_dec (tkind t) comparison_kinds); [|contradiction].
    constructor; auto. exists t, l, r. auto.
Qed.
Lemma asserted_results w es s as_ s' : asserted w es s as_ s' ->
  Forall (fun a => exists k lv rv, In k comparison_kinds /\ a_left a = show_value (e_host w) lv /\
    a_right a = show_value (e_host w) rv /\ binop w k lv rv = Ok (VBool (a_result a))) as_.
Proof. induction 1; auto. constructor; auto. exists (tkind t), lv, rv. auto. Qed.

(** ** C25 *)
Lemma isolated w n args1 args2 s1 s2 vs1 vs2 t1 t2 template asserts msg :
  in_order w args1 s1 vs1 t1 -> in_order w args2 s2 vs2 t2 ->
  mget n (c_reqs (s_ctx t1)) = Some (template, asserts) -> mget n (c_reqs (s_ctx t2)) = Some (template, asserts) ->
  message_of w (s_ctx t1) template msg -> message_of w (s_ctx t2) template msg ->
  e_net w (s_trace t1) msg = e_net w (s_trace t2) msg ->
  exists o recs pr, sent pr = 0 /\ length recs <= 1 /\
    eval_expr w (ECall n args1) s1 =
      (o, St (Ctx (c_vars (s_ctx t1)) (c_reqs (s_ctx t1)) (c_recs (s_ctx t1) ++ recs)) (s_trace t1 ++ Sent msg :: pr)) /\
    eval_expr w (ECall n args2) s2 =
      (o, St (Ctx (c_vars (s_ctx t2)) (c_reqs (s_ctx t2)) (c_recs (s_ctx t2) ++ recs)) (s_trace t2 ++ Sent msg :: pr)).
Proof.
  intros H1 H2 D1 D2 M1 M2 N. rewrite (call_request _ _ _ _ _ _ _ _ H1 D1), (call_request _ _ _ _ _ _ _ _ H2 D2).
  unfold request_call. cbv zeta.
  rewrite (message_unique _ _ _ _ _ (message_substitute w (s_ctx t1) template) M1).
  rewrite (message_unique _ _ _ _ _ (message_substitute w (s_ctx t2) template) M2). rewrite <- N.
  assert (C : forall c, c = Ctx (c_vars c) (c_reqs c) (c_recs c ++ [])) by (intros []; cbn; now rewrite app_nil_r).
  destruct (client_send _ _ msg) as [[[[rq rs] t] er]|e| |] eqn:CS;
    try (match goal with |- context [(?o0, _) = _] => exists o0 end; exists [], []; split; [reflexivity|]; split; [cbn; lia|];
      unfold emit; rewrite <- !C; split; reflexivity).
  destruct (to_map (e_host w) rs) as [m|e| |] eqn:TM;
    try (match goal with |- context [(?o0, _) = _] => exists o0 end; exists [], []; split; [reflexivity|]; split; [cbn; lia|];
      unfold emit; rewrite <- !C; split; reflexivity).
  destruct (asserts_local (e_host w) (eval_native w) (eval_native_local w) asserts (ctx_from m) eq_refl) as (oa & c' & pr & R & Rc & S & Q).
  rewrite !Q. cbn [s_trace emit s_ctx]. destruct oa as [as_|e| |].
  - exists (Ok (VMap (ctx_into_map c'))), [Record_ n t rq rs as_ er], pr. split; [exact S|]. split; [cbn; lia|]. rewrite <- !app_assoc. split; reflexivity.
  - exists (Err e), [], pr. split; [exact S|]. split; [cbn; lia|]. rewrite <- !C, <- !app_assoc. split; reflexivity.
  - exists Panic, [], pr. split; [exact S|]. split; [cbn; lia|]. rewrite <- !C, <- !app_assoc. split; reflexivity.
  - exists Diverge, [], pr. split; [exact S|]. split; [cbn; lia|]. rewrite <- !C, <- !app_assoc. split; reflexivity.
Qed.

(** ** C28, C30 *)
Lemma runs_request w n args s vs s1 template asserts msg :
  in_order w args s vs s1 -> mget n (c_reqs (s_ctx s1)) = Some (template, asserts) -> message_of w (s_ctx s1) template msg ->
  exists o recs pr, sent pr = 0 /\ length recs <= 1 /\
    eval_expr w (ECall n args) s =
      (o, St (Ctx (c_vars (s_ctx s1)) (c_reqs (s_ctx s1)) (c_recs (s_ctx s1) ++ recs)) (s_trace s1 ++ Sent msg :: pr)).
Proof.
  intros H D M. destruct (isolated w n args args s s vs vs s1 s1 template asserts msg H H D D M M eq_refl) as (o & recs & pr & A & B & C & _).
  exists o, recs, pr. auto.
Qed.
Lemma unknown_function w n args s vs s1 : in_order w args s vs s1 -> unshadowed n s1 -> ~ In n native_names ->
  exists e, eval_expr w (ECall n args) s = (Err e, s1) /\ everr_text (e_host w) e = lit "function " ++ n ++ lit " not found".
Proof.
  intros H U N. rewrite (args_order _ _ _ _ _ _ H), call_one. unfold ctx_request. rewrite U.
  exists (EFunctionNotFound n). split; [|reflexivity]. unfold native_call. cbn [In native_names] in N.
  assert (E : forall m, m <> n -> str_eqb n m = false) by (intros m X; apply str_eqb_neq; congruence).
  rewrite !E by tauto. reflexivity.
Qed.

(** ** C29 *)
Lemma pop_rev v vs : pop (rev (v :: vs)) = (Some v, rev vs).
Proof. unfold pop. rewrite rev_involutive. reflexivity. Qed.
Lemma fold_show h l : forall s, fold_left (fun s rv => replace_range s (fst rv) (show_value h (snd rv))) l s =
  fold_left (fun m rv => replace_range m (fst rv) (snd rv)) (map (fun rv => (fst rv, show_value h (snd rv))) l) s.
Proof. induction l as [|[r v] l IH]; intros s; cbn; auto. Qed.
Lemma combine_map {A B C} (f : B -> C) (a : list A) : forall b, map (fun rv => (fst rv, f (snd rv))) (combine a b) = combine a (map f b).
Proof. induction a; intros [|y b]; cbn; auto. f_equal. auto. Qed.
Lemma format_spec w vs : formats w vs (native_format (e_host w) vs).
Proof.
  unfold native_format. destruct vs as [|v vs]; [now constructor|]. rewrite pop_rev.
  destruct v; try (constructor; [discriminate|reflexivity]).
  destruct (scan_exists s) as [ps S]. rewrite !rev_length, (find_count _ _ S).
  destruct (Nat.eqb (length vs) (length (holes ps))) eqn:E.
  - apply Nat.eqb_eq in E. rewrite fold_show, combine_map, map_rev, (format_fold _ _ _ S) by (rewrite map_length; auto). now constructor.
  - apply Nat.eqb_neq in E. econstructor; eauto.
Qed.
Lemma formats_unique w vs o o' : formats w vs o -> formats w vs o' -> (forall v, o = Ok v <-> o' = Ok v) /\
  (forall e e', o = Err e -> o' = Err e' -> everr_text (e_host w) e = everr_text (e_host w) e').
Proof.
  intros H H'. inversion H as [f ps ? S L|f ps ? e S L X|? ? e N X|e X]; subst; inversion H' as [f' ps' ? S' L'|f' ps' ? e' S' L' X'|? ? e' N' X'|e' X']; subst;
    try (exfalso; eapply N; eauto; fail); try (exfalso; eapply N'; eauto; fail);
    try (rewrite (scan_unique _ _ S _ S') in *); try (exfalso; congruence); (split; [intros; try tauto; split; congruence|intros; congruence]).
Qed.
Lemma call_native_at w n args s vs s1 : in_order w args s vs s1 -> unshadowed n s1 ->
  eval_expr w (ECall n args) s = native_call (e_host w) n vs s1.
Proof. intros H U. rewrite (args_order _ _ _ _ _ _ H), call_one. unfold ctx_request. rewrite U. reflexivity. Qed.
Lemma call_format w args s vs s1 : in_order w args s vs s1 -> unshadowed (lit "format") s1 ->
  exists o, formats w vs o /\ eval_expr w (ECall (lit "format") args) s = (o, s1).
Proof. intros H U. exists (native_format (e_host w) vs). split; [apply format_spec|]. now rewrite (call_native_at _ _ _ _ _ _ H U). Qed.

(** ** C32 *)
Lemma call_print w args s vs s1 (line : bool) : let n := if line then lit "println" else lit "print" in
  in_order w args s vs s1 -> unshadowed n s1 ->
  (forall t, formats w vs (Ok (VStr t)) ->
     eval_expr w (ECall n args) s = (Ok VNull, St (s_ctx s1) (s_trace s1 ++ [Printed (if line then t ++ [10%N] else t)]))) /\
  (forall e, formats w vs (Err e) ->
     exists e', eval_expr w (ECall n args) s = (Err e', s1) /\ everr_text (e_host w) e' = everr_text (e_host w) e).
Proof.
  intros n H U. rewrite (call_native_at _ _ _ _ _ _ H U). pose proof (format_spec w vs) as F. split.
  - intros t T. destruct (formats_unique _ _ _ _ F T) as [A _]. destruct (A (VStr t)) as [_ B]. specialize (B eq_refl).
    subst n. destruct line; unfold native_call; cbn [str_eqb]; unfold native_println, native_print; rewrite B; reflexivity.
  - intros e T. destruct (formats_unique _ _ _ _ F T) as [A B].
    destruct (native_format (e_host w) vs) as [v|e'| |] eqn:E.
    + destruct (A v) as [A' _]. specialize (A' eq_refl). discriminate.
    + exists e'. split; [|apply B; auto]. subst n. destruct line; unfold native_call; unfold native_println, native_print; rewrite E; reflexivity.
    + inversion F.
    + inversion F.
Qed.

(** ** C31 *)
Lemma call_length w args s vs s1 : in_order w args s vs s1 -> unshadowed (lit "length") s1 ->
  (forall t, vs = [VStr t] -> fits (Z.of_nat (length (utf8 t))) ->
     eval_expr w (ECall (lit "length") args) s = (Ok (VInt (Z.of_nat (length (utf8 t)))), s1)) /\
  (forall a, vs = [VArr a] -> fits (Z.of_nat (length a)) ->
     eval_expr w (ECall (lit "length") args) s = (Ok (VInt (Z.of_nat (length a))), s1)) /\
  (forall m, vs = [VMap m] -> fits (Z.of_nat (length m)) ->
     eval_expr w (ECall (lit "length") args) s = (Ok (VInt (Z.of_nat (length m))), s1)) /\
  (forall v, vs = [v] -> (forall t, v <> VStr t) -> (forall a, v <> VArr a) -> (forall m, v <> VMap m) ->
     exists e, eval_expr w (ECall (lit "length") args) s = (Err e, s1) /\
       everr_text (e_host w) e = lit "function length not supported type " ++ debug_value (e_host w) v) /\
  (length vs <> 1 -> exists e, eval_expr w (ECall (lit "length") args) s = (Err e, s1) /\
       everr_text (e_host w) e = lit "wrong number of arguments. got=" ++ show_nat (length vs) ++ lit ", want=1").
Proof.
  intros H U. rewrite (call_native_at _ _ _ _ _ _ H U). change (native_call (e_host w) (lit "length") vs s1) with (native_length vs, s1).
  do 3 (split; [intros t -> F; unfold native_length; now rewrite wrap64_fits|]). split.
  - intros v -> A B C. exists (ELengthType v). split; [|reflexivity]. destruct v; try reflexivity; exfalso; [eapply A|eapply B|eapply C]; eauto.
  - intros L. exists (EArgCount (length vs) 1). split.
    + destruct vs as [|v [|v' vs]]; try reflexivity. cbn in L. lia.
    + cbn [everr_text]. rewrite <- ?app_assoc. reflexivity.
Qed.
Lemma push_all {A} (l : list A) : forall a, fold_left (fun a v => a ++ [v]) l a = a ++ l.
Proof. induction l as [|x l IH]; intros a; cbn; [now rewrite app_nil_r|]. rewrite IH, <- app_assoc. reflexivity. Qed.
Lemma call_append w args s vs s1 : in_order w args s vs s1 -> unshadowed (lit "append") s1 ->
  (forall a xs, vs = VArr a :: xs -> eval_expr w (ECall (lit "append") args) s = (Ok (VArr (a ++ xs)), s1)) /\
  (forall v xs, vs = v :: xs -> (forall a, v <> VArr a) -> exists e, eval_expr w (ECall (lit "append") args) s = (Err e, s1) /\
      everr_text (e_host w) e = lit "first parameter must be a array") /\
  (vs = [] -> exists e, eval_expr w (ECall (lit "append") args) s = (Err e, s1) /\
      everr_text (e_host w) e = lit "function length need a parameter").
Proof.
  intros H U. rewrite (call_native_at _ _ _ _ _ _ H U). change (native_call (e_host w) (lit "append") vs s1) with (native_append vs, s1).
  split; [|split].
  - intros a xs ->. unfold native_append. rewrite pop_rev, rev_involutive, push_all. reflexivity.
  - intros v xs -> N. exists EFirstArray. split; [|reflexivity]. unfold native_append. rewrite pop_rev.
    destruct v; try reflexivity. exfalso. eapply N; eauto.
  - intros ->. exists ENeedParameter. split; reflexivity.
Qed.

(** ** C28 *)
Lemma runs_builtin w n args s vs s1 : in_order w args s vs s1 -> unshadowed n s1 -> In n native_names ->
  exists o pr, sent pr = 0 /\ eval_expr w (ECall n args) s = (o, St (s_ctx s1) (s_trace s1 ++ pr)) /\ returns o /\
    forall e, o = Err e -> everr_text (e_host w) e <> lit "function " ++ n ++ lit " not found".
Proof.
  intros H U N. rewrite (call_native_at _ _ _ _ _ _ H U).
  assert (Q : forall n' (o : res), returns o -> (forall e, o = Err e -> everr_text (e_host w) e <> n') ->
    exists o' pr, sent pr = 0 /\ (o, s1) = (o', St (s_ctx s1) (s_trace s1 ++ pr)) /\ returns o' /\ forall e, o' = Err e -> everr_text (e_host w) e <> n').
  { intros n' o R E. exists o, []. rewrite app_nil_r. destruct s1. auto. }
  pose proof (format_spec w vs) as F.
  assert (F' : returns (native_format (e_host w) vs) /\ forall e, native_format (e_host w) vs = Err e -> everr_text (e_host w) e <> lit "function " ++ n ++ lit " not found").
  { split; [inversion F; exact I|]. intros e E. rewrite E in F. inversion F as [|? ? ? ? ? ? X|? ? ? ? X|? X]; subst; rewrite X; try discriminate.
    destruct N as [<-|[<-|[<-|[<-|[<-|[]]]]]]; discriminate. }
  clear F. destruct F' as [R F].
  destruct N as [<-|[<-|[<-|[<-|[<-|[]]]]]].
  1,2: unfold native_call; cbn [str_eqb]; unfold native_println, native_print; destruct (native_format (e_host w) vs) as [v|e| |];
    [eexists (Ok VNull), [Printed _]; split; [reflexivity|split; [reflexivity|split; [exact I|discriminate]]] | now apply Q | destruct R | destruct R].
  - now apply Q.
  - apply Q; unfold native_length; [destruct vs as [|[] [|]]; exact I|]. intros e E. destruct vs as [|[] [|]]; inversion E; subst; discriminate.
  - apply Q; unfold native_append; destruct (pop (rev vs)) as [[[]|] ?]; try exact I; intros e E; inversion E; subst; discriminate.
Qed.

(** ** C27 *)
Lemma passed_iff r : passed r = true <-> Forall (fun a => a_result a = true) (r_asserts r).
Proof.
  unfold passed. assert (G : forall l b, fold_left (fun f a => f && a_result a) l b = true <-> b = true /\ Forall (fun a => a_result a = true) l).
  { induction l as [|a l IH]; intros b; cbn; [split; [intros ->; auto|tauto]|]. rewrite IH, andb_true_iff, Forall_cons_iff. tauto. }
  rewrite G. tauto.
Qed.
Lemma verdict r : exists v d, duration_text (t_total (r_time r)) d /\
  show_record r =
    lit "=== TEST  " ++ r_name r ++ [10%N] ++
    flat_map (fun a => a_expr a ++ lit " => " ++ a_left a ++ lit " " ++ a_compare a ++ lit " " ++ a_right a ++ lit " => "
                       ++ (if a_result a then lit "true" else lit "false") ++ [10%N]) (r_asserts r) ++
    lit "--- " ++ v ++ lit "  " ++ r_name r ++ lit " (" ++ d ++ lit ")" /\
  (v = lit "PASS" <-> forall a, In a (r_asserts r) -> a_result a = true) /\
  (v = lit "FAIL" <-> exists a, In a (r_asserts r) /\ a_result a = false).
Proof.
  exists (if passed r then lit "PASS" else lit "FAIL"), (show_duration (t_total (r_time r))). split; [apply show_duration_text|]. split.
  - reflexivity.
  - rewrite <- Forall_forall, <- passed_iff. split.
    + destruct (passed r); split; auto; discriminate.
    + destruct (passed r) eqn:E.
      * split; [discriminate|]. intros (a & I & F). apply passed_iff in E. rewrite Forall_forall in E. rewrite (E a I) in F. discriminate.
      * split; auto. intros _. assert (X : ~ Forall (fun a => a_result a = true) (r_asserts r)) by (rewrite <- passed_iff; congruence).
        clear E. induction (r_asserts r) as [|a l IH]; [exfalso; auto|]. destruct (a_result a) eqn:R.
        -- destruct IH as (b & I & F); [intros Y; apply X; constructor; auto|]. exists b. cbn. auto.
        -- exists a. cbn. auto.
Qed.

Lemma index_breaks : forall w v i s o s', breaks w [v; i] s o s' -> eval_expr w (EIndex v i) s = (o, s').
Proof. intros w v i s. exact (proj2 (index_order w v i s)). Qed.
