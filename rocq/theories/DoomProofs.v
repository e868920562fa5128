(** Why evaluation aborts or never ends *)
From Verif Require Import SpecDoom TextProofs SyntaxProofs ValueProofs TemplateProofs EvaluatorProofs EvaluatorTop ConnectProofs JsonProofs SafeProofs BlameProofs.
From Coq Require Import Lia.
Open Scope Z_scope.

Section Doom.
Variable w : env.
Notation h := (e_host w).
(** neither a value nor an error *)
Definition lost {A} (o : out everr A) : Prop := o = Panic \/ o = Diverge.
Lemma lost_not_ok {A} (o : out everr A) : lost o -> ~ is_ok o.
Proof. intros [-> | ->] [? [=]]. Qed.
Lemma lost_returns {A} (o : out everr A) : lost o \/ returns o.
Proof. destruct o; cbn; unfold lost; auto. Qed.

Lemma comes_stops e s e' t o s' : comes_to w e s e' t -> ~ is_ok o -> eval_expr w e' t = (o, s') -> eval_expr w e s = (o, s').
Proof.
  intros C N. induction C as [e s|e a x b s vs s1 e' t P O C IH|t0 l r s v s1 e' t K E F C IH|t0 l r s v s1 e' t K E F C IH|
    c y n a x b s v s1 vs s2 e' t E F P O C IH|c y n a x b s v s1 vs s2 e' t E F P O C IH]; intros R; auto; specialize (IH R).
  - apply parts_break. rewrite P. apply breaks_split. exists a, x, b, vs, s1. repeat split; auto.
  - destruct (and_or w t0 l r s _ _ E) as [_ A]. destruct (A v eq_refl) as (_ & A2 & _). rewrite A2; auto.
  - destruct (and_or w t0 l r s _ _ E) as [_ A]. destruct (A v eq_refl) as (_ & _ & A3 & _). rewrite A3; auto.
  - destruct (conditional w c y n s _ _ E) as [_ A]. destruct (A v eq_refl) as (_ & A2). rewrite A2 by auto. apply block_break. subst y.
    apply breaks_split. exists a, x, b, vs, s2. repeat split; auto.
  - destruct (conditional w c y n s _ _ E) as [_ A]. destruct (A v eq_refl) as (A1 & _). rewrite A1 by auto. apply block_break. subst n.
    apply breaks_split. exists a, x, b, vs, s2. repeat split; auto.
Qed.

(** ** operators *)
Lemma arith_lost z : arith h z = Panic <-> h_checks h = true /\ ~ fits z.
Proof.
  unfold arith, fits. destruct (in_i64 z) eqn:E; unfold in_i64, i64_min, i64_max in E; destruct (h_checks h); split; try discriminate; intros; try (split; auto; lia); try (destruct H; try lia; discriminate); auto.
Qed.
Lemma no_result_iff k a b : In k strict_kinds -> (no_result (h_checks h) k a b <-> binop w k (VInt a) (VInt b) = Panic).
Proof.
  intros K. destruct (strict_kind h _ K) as [f F]. rewrite (binop_strict _ _ _ _ _ F). unfold no_result. split.
  - intros [[[-> | ->] D]|[Ch [[-> D]|[[-> D]|[[-> D]|[[-> | ->] D]]]]]]; injection F as <-; cbn [value_div value_rem value_add value_sub value_mul value_shl value_shr];
      try (unfold int_div, int_rem, i64_min; destruct D as [-> | [-> ->]]; reflexivity); try (apply arith_lost; auto; fail);
      unfold int_shl, int_shr; rewrite Ch; destruct ((0 <=? b) && (b <? 64))%bool eqn:Q; auto; exfalso; lia.
  - intros P. destruct k; try (exfalso; revert K; unfold strict_kinds; cbn; intuition discriminate); injection F as <-; try discriminate P;
      cbn [value_div value_rem value_add value_sub value_mul value_shl value_shr] in P; try (apply arith_lost in P; tauto).
    + left. split; auto. unfold int_div, i64_min in P. destruct (Z.eqb_spec b 0); auto. destruct (Z.eqb_spec a (- 2 ^ 63)), (Z.eqb_spec b (-1)); cbn in P; auto; discriminate.
    + left. split; auto. unfold int_rem, i64_min in P. destruct (Z.eqb_spec b 0); auto. destruct (Z.eqb_spec a (- 2 ^ 63)), (Z.eqb_spec b (-1)); cbn in P; auto; discriminate.
    + right. unfold int_shl in P. destruct ((0 <=? b) && (b <? 64))%bool eqn:Q; [discriminate|]. destruct (h_checks h); [|discriminate]. split; auto. do 3 right. split; auto. lia.
    + right. unfold int_shr in P. destruct ((0 <=? b) && (b <? 64))%bool eqn:Q; [discriminate|]. destruct (h_checks h); [|discriminate]. split; auto. do 3 right. split; auto. lia.
Qed.
Lemma no_result_strict k a b : no_result (h_checks h) k a b -> In k strict_kinds.
Proof. unfold no_result, strict_kinds. cbn. intuition (subst; auto 20). Qed.

(** ** assertions *)
Lemma native_eval e s : c_reqs (s_ctx s) = [] -> eval_native w e s = eval_expr w e s.
Proof. intros E. now apply at_native. Qed.
Lemma eval_keeps e s o s' : eval_expr w e s = (o, s') -> c_reqs (s_ctx s') = c_reqs (s_ctx s).
Proof. intros E. now apply frame in E. Qed.
Lemma attempted_app a b s s1 s2 : attempted w a s s1 -> attempted w b s1 s2 -> attempted w (a ++ b) s s2.
Proof. induction 1; cbn [app]; auto. intros. econstructor; eauto. Qed.
Lemma attempted_keeps a s s1 : attempted w a s s1 -> c_reqs (s_ctx s1) = c_reqs (s_ctx s).
Proof. induction 1 as [|e es s o s1 s2 E R A IH]; auto. rewrite IH. eapply eval_keeps; eauto. Qed.
Lemma or_null_cases e s o s' : c_reqs (s_ctx s) = [] -> or_null (eval_native w e) s = (o, s') ->
  c_reqs (s_ctx s') = [] /\ ((exists v, o = Ok v) /\ attempted w [e] s s' \/ lost o /\ eval_expr w e s = (o, s')).
Proof.
  intros E H. unfold or_null in H. rewrite native_eval in H by auto. destruct (eval_expr w e s) as [o1 s1] eqn:X.
  assert (Q : s1 = s') by (destruct o1; congruence). subst s1. split; [rewrite (eval_keeps _ _ _ _ X); auto|].
  destruct o1; injection H as <-; unfold lost; auto; left; (split; [eauto|]); econstructor; eauto using am_nil; exact I.
Qed.
Lemma asserts_lost es : forall s o s', c_reqs (s_ctx s) = [] -> eval_asserts h (eval_native w) es s = (o, s') ->
  c_reqs (s_ctx s') = [] /\
  ((exists l, o = Ok l) /\ attempted w (operands es) s s' \/
   exists a x b s1 o', operands es = a ++ x :: b /\ attempted w a s s1 /\ eval_expr w x s1 = (o', s') /\ lost o' /\ o = stopped o').
Proof.
  induction es as [|e es IH]; intros s o s' R H.
  - injection H as <- <-. split; auto. left. split; [eauto|constructor].
  - destruct e as [z|f|c|x|es1|ps|a i|a f|n|n a|t a|t l r|a|c y n|n es1]; try (destruct (IH _ _ _ R H) as [Q C]; exact (conj Q C)).
    cbn [eval_asserts operands flat_map app] in *. change (flat_map _ es) with (operands es).
    apply bind_inv in H. destruct H as [(lv & s1 & E & H)|(o1 & E & N & ->)]; destruct (or_null_cases _ _ _ _ R E) as [R1 [[[v V] A1]|[L1 X1]]]; try (subst; discriminate); try (destruct L1; discriminate).
    2: { exfalso. subst. apply N. now exists v. }
    2: { split; auto. right. exists [], l, (r :: operands es), s, o1. repeat split; auto. constructor. }
    apply bind_inv in H. destruct H as [(rv & s2 & E2 & H)|(o1 & E2 & N & ->)]; destruct (or_null_cases _ _ _ _ R1 E2) as [R2 [[[v2 V2] A2]|[L2 X2]]]; try (destruct L2; discriminate).
    2: { exfalso. subst. apply N. now exists v2. }
    2: { split; auto. right. exists [l], r, (operands es), s1, o1. repeat split; auto. }
    pose proof (attempted_app _ _ _ _ _ A1 A2) as A. cbn [app] in A.
    apply bind_inv in H. destruct H as [(as_ & s3 & E3 & H)|(o1 & E3 & N & ->)]; destruct (IH _ _ _ R2 E3) as [R3 C].
    + injection H as <- <-. split; auto. left. split; [eauto|]. destruct C as [[_ C]|(a & x & b & s4 & o' & _ & _ & _ & [-> | ->] & Q)]; [|discriminate Q..].
      exact (attempted_app [l; r] _ _ _ _ A C).
    + split; auto. right. destruct C as [[[l0 ->] _]|(a & x & b & s4 & o' & P & C & X & L & ->)]; [exfalso; apply N; now exists l0|].
      exists (l :: r :: a), x, b, s4, o'. split; [cbn [app]; now rewrite P|]. split; [exact (attempted_app [l; r] _ _ _ _ A C)|].
      split; auto. split; auto. destruct L as [-> | ->]; reflexivity.
Qed.
Lemma attempted_asserts es : forall s s', c_reqs (s_ctx s) = [] -> attempted w (operands es) s s' -> exists l, eval_asserts h (eval_native w) es s = (Ok l, s').
Proof.
  intros s s' R A. destruct (eval_asserts h (eval_native w) es s) as [o s2] eqn:E. destruct (asserts_lost _ _ _ _ R E) as [_ [[[l ->] B]|(a & x & b & s1 & o' & P & B & X & L & _)]].
  - assert (Q : forall es s s1 s2, attempted w es s s1 -> attempted w es s s2 -> s1 = s2).
    { clear. intros es s s1 s2 H. revert s2. induction H as [|e es s o s1 s2 E R A IH]; intros s3 B; inversion B; subst; auto. rewrite E in H1. injection H1 as <- <-. auto. }
    rewrite (Q _ _ _ _ A B). eauto.
  - exfalso. rewrite P in A. clear - A B X L. induction B as [|e es s o s1 s9 E R B IH]; cbn [app] in A; inversion A; subst.
    + rewrite X in H1. injection H1 as <- <-. destruct L as [-> | ->]; exact H2.
    + rewrite E in H1. injection H1 as <- <-. auto.
Qed.
Lemma asserts_stop es a x b s s1 o s' : c_reqs (s_ctx s) = [] -> operands es = a ++ x :: b -> attempted w a s s1 -> eval_expr w x s1 = (o, s') -> lost o ->
  eval_asserts h (eval_native w) es s = (stopped o, s').
Proof.
  intros R P A X L. destruct (eval_asserts h (eval_native w) es s) as [oo s2] eqn:E. destruct (asserts_lost _ _ _ _ R E) as [_ [[[l ->] B]|(a' & x' & b' & s1' & o' & P' & B & X' & L' & ->)]].
  - exfalso. rewrite P in B. clear - A B X L. induction A as [|e es s o' s1 s9 E R B' IH]; cbn [app] in B; inversion B; subst.
    + rewrite X in H1. injection H1 as <- <-. destruct L as [-> | ->]; exact H2.
    + rewrite E in H1. injection H1 as <- <-. auto.
  - rewrite P in P'. clear - A B X X' L L' P'. revert a' P' B. induction A as [s|e es s o'' s1 s9 E R A IH]; intros a' P' B.
    + destruct a' as [|e' a']; cbn [app] in P'; injection P' as -> ->.
      * inversion B; subst. rewrite X in X'. injection X' as <- <-. reflexivity.
      * exfalso. inversion B; subst. rewrite X in H1. injection H1 as <- <-. destruct L as [-> | ->]; exact H2.
    + destruct a' as [|e' a']; cbn [app] in P'; injection P' as -> P'.
      * exfalso. inversion B; subst. rewrite E in X'. injection X' as <- <-. destruct L' as [-> | ->]; exact R.
      * inversion B; subst. rewrite E in H1. injection H1 as <- <-. eapply IH; eauto.
Qed.
(** ** requests *)
Lemma to_map_lost rs : to_map h rs = Diverge <-> parse (rs_body rs) = Diverge.
Proof.
  unfold to_map. cbv zeta. destruct (parse (rs_body rs)) as [src| | |]; split; try discriminate; auto. destruct (s_exprs src); discriminate.
Qed.
Lemma answered_sent p x m rq rs t er : client_send p x m = Ok (rq, rs, t, er) -> parse (rs_body rs) = Diverge -> answered x rs.
Proof.
  unfold client_send. destruct (request_from p m) as [rq' ok]. cbv zeta. unfold answered.
  destruct (x_connect x) as [n|e]; [|intros [= _ <- _ _]; discriminate].
  destruct (dur_sub _ n); [|discriminate]. destruct (x_write x); [intros [= _ <- _ _]; discriminate|].
  destruct (response_from (x_reply x)); [|intros [= _ <- _ _]; discriminate].
  repeat (match goal with |- context [match dur_sub ?a ?b with _ => _ end] => destruct (dur_sub a b) end; try discriminate).
  intros [= _ <- _ _] _. eauto.
Qed.
Lemma answered_send x p m rs : ordered x -> answered x rs -> exists rq t er, client_send p x m = Ok (rq, rs, t, er).
Proof.
  intros Or ((d & D) & W & R). destruct (client_send p x m) as [[[[rq rs'] t] er]|e| |] eqn:E.
  - revert E. unfold client_send. destruct (request_from p m) as [rq' ok]. cbv zeta. rewrite D, W, R.
    repeat (match goal with |- context [match dur_sub ?a ?b with _ => _ end] => destruct (dur_sub a b) end; try discriminate).
    intros [= <- <- <- <-]. eauto.
  - exfalso. eapply send_no_err; eauto.
  - exfalso. destruct (send_outcome p x m Or) as (t & X & _). rewrite E in X. discriminate.
  - exfalso. exact (send_not_diverge _ _ _ E).
Qed.
Hypothesis clock : steady w.

Lemma doomed_lost e s o s' : doomed w e s o s' -> lost o /\ eval_expr w e s = (o, s').
Proof.
  induction 1 as [t l r s a b s' O R|t e s z s' E K Ch F|n args s vs s1 template asserts msg rs O D M A P|n args s vs s1 template asserts msg rq rs t er m a x b s2 e s3 o s4 O D M CS TM P A C H [L IH]].
  - split; [now left|]. pose proof (no_result_strict _ _ _ R) as K. rewrite (proj1 (binary_order w t l r s K) _ _ _ O). apply no_result_iff in R; auto. now rewrite R.
  - split; [now left|]. unfold eval_expr, eval_at in *. cbn [eval]. rewrite (bind_ok _ _ _ _ _ E). unfold lift, unary_value. rewrite K. f_equal. apply arith_lost. auto.
  - split; [now right|]. rewrite (call_request _ _ _ _ _ _ _ _ O D). rewrite <- (message_unique _ _ _ _ _ (message_substitute w (s_ctx s1) template) M) in *.
    unfold request_call. destruct (answered_send _ (e_prepare w) (substitute (var_text h (s_ctx s1)) template) rs (clock _ _) A) as (rq & t & er & ->).
    rewrite (proj2 (to_map_lost rs) P). reflexivity.
  - split; auto. rewrite (call_request _ _ _ _ _ _ _ _ O D). rewrite <- (message_unique _ _ _ _ _ (message_substitute w (s_ctx s1) template) M) in *.
    unfold request_call. rewrite CS, TM. unfold ctx_from. cbn [emit s_trace].
    apply (comes_stops _ _ _ _ _ _ C (lost_not_ok _ L)) in IH. change (s_trace (emit (Sent (substitute (var_text h (s_ctx s1)) template)) s1)) with (s_trace s1 ++ [Sent (substitute (var_text h (s_ctx s1)) template)]).
    pose proof (asserts_stop asserts a x b _ _ _ _ (eq_refl : c_reqs (s_ctx (St (Ctx m [] []) _)) = []) P A IH L) as AS. rewrite AS. destruct L as [-> | ->]; reflexivity.
Qed.

(** ** one expression, in states in which calls are accounted for *)
Section Calls.
Variable P : st -> Prop.
Hypothesis P_kept : forall e s o s', P s -> eval_expr w e s = (o, s') -> P s'.
Hypothesis P_call : forall n args s vs s1 o s', P s1 -> in_order w args s vs s1 -> eval_expr w (ECall n args) s = (o, s') -> lost o -> doomed w (ECall n args) s o s'.
Lemma P_order es s vs s' : P s -> in_order w es s vs s' -> P s'.
Proof. intros G O. revert G. induction O as [|e es s v s1 vs s2 E O IH]; eauto. Qed.

Lemma lost_here e s vs s1 o s' : P s -> in_order w (parts e) s vs s1 -> eval_expr w e s = (o, s') -> lost o ->
  doomed w e s o s' \/
  (exists t l r v, e = EBin t l r /\ eval_expr w l s = (Ok v, s1) /\ eval_expr w r s1 = (o, s') /\ (tkind t = KLa /\ ~ counts_false v \/ tkind t = KLo /\ counts_false v)) \/
  (exists c y n v es, e = EIf c y n /\ eval_expr w c s = (Ok v, s1) /\ (~ counts_false v /\ es = y \/ counts_false v /\ es = n) /\ eval_block w es s1 = (o, s')).
Proof.
  assert (NL : forall v : value, ~ lost (Ok v : res)) by (intros v [?|?]; discriminate).
  assert (NE : forall e, ~ lost (Err e : res)) by (intros v [?|?]; discriminate).
  destruct e as [z|f|b|x|es|ps|a i|a f|n|n a|t a|t l r|a|c y n|n es]; cbn [parts]; intros G O E L.
  - injection E as <- <-. destruct (NL _ L). - injection E as <- <-. destruct (NL _ L). - injection E as <- <-. destruct (NL _ L). - injection E as <- <-. destruct (NL _ L).
  - rewrite (proj1 (array_order w es s) _ _ O) in E. injection E as <- <-. destruct (NL _ L).
  - destruct (proj1 (map_literal w ps s) _ _ O) as (mm & X & _). rewrite X in E. injection E as <- <-. destruct (NL _ L).
  - exfalso. destruct (order_two _ _ _ _ _ _ O) as (v & k & ->). rewrite (proj1 (index_order w a i s) _ _ _ O) in E. injection E as E <-.
    destruct v; cbn [index_value] in E; try (subst o; destruct (NE _ L)); destruct k; try (subst o; destruct (NE _ L));
      try destruct (_ && _)%bool; try destruct (mget _ _); subst o; destruct (NL _ L).
  - exfalso. destruct (order_one _ _ _ _ _ O) as (v & -> & X). unfold eval_expr, eval_at in E, X. cbn [eval] in E. rewrite (bind_ok _ _ _ _ _ X) in E.
    unfold lift in E. injection E as E <-. destruct v; cbn [field_value] in E; try (subst o; destruct (NE _ L)). destruct (mget f pairs); subst o; destruct (NL _ L).
  - exfalso. rewrite reads in E. destruct (mget n (c_vars (s_ctx s))) eqn:Q; injection E as <- <-; [destruct (NL _ L)|destruct (NE _ L)].
  - exfalso. destruct (order_one _ _ _ _ _ O) as (v & -> & X). destruct (proj1 (let_binds w n a s _ _ X) v eq_refl) as (s2 & Y & _). rewrite Y in E. injection E as <- <-. destruct (NL _ L).
  - left. destruct (order_one _ _ _ _ _ O) as (v & -> & X). unfold eval_expr, eval_at in E. cbn [eval] in E. rewrite (bind_ok _ _ _ _ _ X) in E.
    unfold lift in E. injection E as E <-. unfold unary_value in E.
    destruct (tkind t) eqn:K; try (subst o; exfalso; destruct (NE _ L)).
    + destruct v; try (subst o; exfalso; destruct (NE _ L)); try (subst o; exfalso; destruct (NL _ L)).
      assert (o = Panic). { subst o. unfold arith in *. destruct (in_i64 _); [destruct (NL _ L)|]. destruct (h_checks h); auto. destruct (NL _ L). }
      subst o. apply arith_lost in H as [H1 H2]. rewrite (proj2 (arith_lost _) (conj H1 H2)). eapply dm_minus; eauto.
    + destruct v as [| | |[]| | |]; try (subst o; exfalso; destruct (NE _ L)); subst o; exfalso; destruct (NL _ L).
  - destruct (in_dec kind_dec (tkind t) strict_kinds) as [K|K].
    + left. destruct (order_two _ _ _ _ _ _ O) as (v & u & ->). rewrite (proj1 (binary_order w t l r s K) _ _ _ O) in E. injection E as E <-.
      assert (o = Panic). { destruct L as [?|L]; auto. subst o. destruct (strict_kind h _ K) as [f F]. rewrite (binop_strict _ _ _ _ _ F) in *. exfalso. eapply strict_not_diverge; eauto. }
      subst o. rewrite H in *. pose proof H as H0. destruct (panics w _ _ _ H) as (za & zb & -> & -> & _). eapply dm_binary; eauto. now apply no_result_iff.
    + destruct (in_dec kind_dec (tkind t) [KLa; KLo]) as [Lg|Lg].
      * right. left. destruct (order_one _ _ _ _ _ O) as (v & -> & X). exists t, l, r, v. split; auto. split; auto.
        destruct (and_or w t l r s _ _ X) as [_ A]. destruct (A v eq_refl) as (A1 & A2 & A3 & A4).
        assert (CD : counts_false v \/ ~ counts_false v) by (rewrite <- falsy_iff; destruct (falsy v); auto).
        cbn [In] in Lg. destruct Lg as [Lg|[Lg|[]]]; symmetry in Lg; destruct CD as [CF|CF].
        -- rewrite A1 in E by auto. injection E as <- <-. destruct (NL _ L).
        -- rewrite A2 in E by auto. auto.
        -- rewrite A3 in E by auto. auto.
        -- rewrite A4 in E by auto. injection E as <- <-. destruct (NL _ L).
      * exfalso. inversion O; subst. assert (N : ~ In (tkind t) (KLa :: KLo :: strict_kinds)). { intros [I|[I|I]]; auto; apply Lg; cbn; auto. }
        destruct (fault_raises _ _ _ _ _ (fa_operator w t l r s1 N)) as (er' & Y & Z). rewrite Y in E. injection E as <- <-. destruct (NE _ L).
  - exfalso. destruct (order_one _ _ _ _ _ O) as (v & -> & X). change (eval_expr w a s = (o, s')) in E. rewrite X in E. injection E as <- <-. destruct (NL _ L).
  - right. right. destruct (order_one _ _ _ _ _ O) as (v & -> & X). destruct (conditional w c y n s _ _ X) as [_ A]. destruct (A v eq_refl) as (A1 & A2).
    assert (CD : counts_false v \/ ~ counts_false v) by (rewrite <- falsy_iff; destruct (falsy v); auto). destruct CD as [CF|CF].
    + rewrite A1 in E by auto. exists c, y, n, v, n. repeat split; auto.
    + rewrite A2 in E by auto. exists c, y, n, v, y. repeat split; auto.
  - left. exact (P_call n es s vs s1 o s' (P_order _ _ _ _ G O) O E L).
Qed.
Lemma block_lost es s o s' : eval_block w es s = (o, s') -> lost o -> breaks w es s o s'.
Proof.
  intros E L. destruct (order_or_break w es s) as [(vs & s1 & O)|(o1 & s1 & B)].
  - unfold eval_block in E. rewrite (exprs_in_order _ _ _ _ _ O) in E. injection E as <- <-. destruct L; discriminate.
  - rewrite (block_break _ _ _ _ _ B) in E. injection E as -> ->. exact B.
Qed.
Lemma lost_cause e : forall s o s', P s -> eval_expr w e s = (o, s') -> lost o -> exists e' t, comes_to w e s e' t /\ doomed w e' t o s'.
Proof.
  induction e as [e IH] using inside_ind. intros s o s' G R L.
  assert (BR : forall es s0, P s0 -> (forall x, In x es -> In x (inside e)) -> breaks w es s0 o s' ->
    exists a x b vs s1 e' t, es = a ++ x :: b /\ in_order w a s0 vs s1 /\ comes_to w x s1 e' t /\ doomed w e' t o s').
  { intros es s0 G0 I B. apply breaks_split in B. destruct B as (a & x & b & vs & s1 & -> & O & X & _).
    destruct (IH x (I x ltac:(apply in_app_iff; right; now left)) s1 o s' (P_order _ _ _ _ G0 O) X L) as (e' & t & C & F).
    exists a, x, b, vs, s1, e', t. auto. }
  destruct (order_or_break w (parts e) s) as [(vs & s1 & O)|(o1 & s1 & B)].
  - pose proof (P_order _ _ _ _ G O) as G1.
    destruct (lost_here e s vs s1 o s' G O R L) as [F|[(t & l & r & v & -> & X & Y & K)|(c & y & n & v & es & -> & X & K & Y)]].
    + exists e, s. split; auto. constructor.
    + destruct (IH r ltac:(cbn; auto) s1 o s' G1 Y L) as (e' & t' & C & F). exists e', t'. split; auto.
      destruct K as [[K V]|[K V]]; [eapply ct_and|eapply ct_or]; eauto.
    + apply block_lost in Y; auto. destruct (BR es s1) as (a & x & b & vs' & s2 & e' & t & Q & O2 & C & F); auto.
      { intros z I. cbn [inside]. right. apply in_app_iff. destruct K as [[_ ->]|[_ ->]]; auto. }
      exists e', t. split; auto. destruct K as [[V ->]|[V ->]]; [eapply ct_then|eapply ct_else]; eauto.
  - rewrite (parts_break _ _ _ _ _ B) in R. injection R as -> ->.
    destruct (BR (parts e) s) as (a & x & b & vs & s2 & e' & t & Q & O2 & C & F); auto using parts_inside.
    exists e', t. split; auto. eapply ct_part; eauto.
Qed.
End Calls.

Lemma native_not_lost n vs s : ~ lost (fst (native_call h n vs s)).
Proof.
  intros [H|H]; destruct (native_call h n vs s) as [o s'] eqn:E; cbn [fst] in H; subst o.
  - destruct (native_safe true (fun _ => True) h n vs s _ _ I E) as [_ Q]. apply Q. reflexivity.
  - destruct (native_safe false (fun _ => True) h n vs s _ _ I E) as [_ Q]. apply Q. reflexivity.
Qed.
Lemma local_cause e s o s' : c_reqs (s_ctx s) = [] -> eval_expr w e s = (o, s') -> lost o -> exists e' t, comes_to w e s e' t /\ doomed w e' t o s'.
Proof.
  apply (lost_cause (fun s => c_reqs (s_ctx s) = [])).
  - intros e0 s0 o0 s0' G E. rewrite (eval_keeps _ _ _ _ E). exact G.
  - intros n args s0 vs s1 o0 s0' G O E L. exfalso. assert (U : unshadowed n s1) by (unfold unshadowed; now rewrite G).
    rewrite (call_native_at _ _ _ _ _ _ O U) in E. apply (native_not_lost n vs s1). rewrite E. exact L.
Qed.
Lemma call_cause n args s vs s1 o s' : in_order w args s vs s1 -> eval_expr w (ECall n args) s = (o, s') -> lost o -> doomed w (ECall n args) s o s'.
Proof.
  intros O E L. destruct (mget n (c_reqs (s_ctx s1))) as [[template asserts]|] eqn:D.
  - rewrite (call_request _ _ _ _ _ _ _ _ O D) in E. unfold request_call in E. cbv zeta in E.
    pose proof (message_substitute w (s_ctx s1) template) as M. set (msg := substitute _ template) in *.
    destruct (client_send _ _ msg) as [[[[rq rs] t] er]|e| |] eqn:CS.
    + destruct (to_map h rs) as [m|e| |] eqn:TM.
      * unfold ctx_from in E. cbn [emit s_trace] in E.
        destruct (eval_asserts _ _ _ _) as [oa sl] eqn:A. destruct (asserts_lost asserts (St (Ctx m [] []) (s_trace s1 ++ [Sent msg])) _ _ eq_refl A) as [_ [[[l ->] _]|(a & x & b & s2 & o' & P & B & X & L' & ->)]].
        { injection E as <- <-. destruct L; discriminate. }
        assert (R2 : c_reqs (s_ctx s2) = []) by (rewrite (attempted_keeps _ _ _ B); reflexivity).
        destruct (local_cause _ _ _ _ R2 X L') as (e' & t' & C & F).
        assert (Q : o = o' /\ s' = St (s_ctx s1) (s_trace sl)) by (destruct L' as [-> | ->]; injection E as <- <-; auto). destruct Q as [-> ->].
        eapply dm_assert; eauto.
      * injection E as <- <-. destruct L; discriminate.
      * exfalso. eapply to_map_no_panic; eauto.
      * injection E as <- <-. apply to_map_lost in TM. eapply dm_body; eauto. eapply answered_sent; eauto.
    + injection E as <- <-. destruct L; discriminate.
    + exfalso. destruct (send_outcome (e_prepare w) _ msg (clock (s_trace s1) msg)) as (t & X & _). rewrite CS in X. discriminate.
    + exfalso. exact (send_not_diverge _ _ _ CS).
  - exfalso. rewrite (call_native_at _ _ _ _ _ _ O D) in E. apply (native_not_lost n vs s1). rewrite E. exact L.
Qed.
End Doom.
Theorem doom w e s o s' : steady w -> o = Panic \/ o = Diverge ->
  (eval_expr w e s = (o, s') <-> exists e' t, comes_to w e s e' t /\ doomed w e' t o s').
Proof.
  intros Ck L. split.
  - intros E. apply (lost_cause w (fun _ => True)); auto. intros. eapply call_cause; eauto.
  - intros (e' & t & C & F). destruct (doomed_lost w Ck _ _ _ _ F) as [_ E]. eapply comes_stops; eauto. now apply lost_not_ok.
Qed.
Theorem doom_block w es s o s' : steady w -> o = Panic \/ o = Diverge ->
  (eval_block w es s = (o, s') <->
   exists a x b vs s1 e' t, es = a ++ x :: b /\ in_order w a s vs s1 /\ comes_to w x s1 e' t /\ doomed w e' t o s').
Proof.
  intros Ck L. split.
  - intros E. apply block_lost in E; auto. apply breaks_split in E. destruct E as (a & x & b & vs & s1 & -> & O & X & _).
    apply doom in X; auto. destruct X as (e' & t & C & F). exists a, x, b, vs, s1, e', t. auto.
  - intros (a & x & b & vs & s1 & e' & t & -> & O & C & F). apply block_break, breaks_split. exists a, x, b, vs, s1. repeat split; auto.
    + apply doom; eauto.
    + now apply lost_not_ok.
Qed.
