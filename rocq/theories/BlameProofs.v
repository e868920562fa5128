(** Which part of a program a runtime error comes from *)
From Verif Require Import SpecBlame TextProofs SyntaxProofs ValueProofs TemplateProofs EvaluatorProofs EvaluatorTop.
From Coq Require Import Lia.
Open Scope nat_scope.

Section Blame.
Variable w : env.
Notation h := (e_host w).
Definition raises (e : expr) (s : st) (m : str) (s' : st) : Prop := exists er, eval_expr w e s = (Err er, s') /\ everr_text h er = m.

Lemma not_ok_err er : ~ is_ok (@Err everr value er).
Proof. intros [? [=]]. Qed.
Lemma breaks_split es s o s' : breaks w es s o s' <-> exists a x b vs s1, es = a ++ x :: b /\ in_order w a s vs s1 /\ eval_expr w x s1 = (o, s') /\ ~ is_ok o.
Proof.
  split.
  - induction 1 as [e es s o s1 E N|e es s v s1 o s2 E _ IH].
    + exists [], e, es, [], s. repeat split; auto. constructor.
    + destruct IH as (a & x & b & vs & s3 & -> & O & X & N). exists (e :: a), x, b, (v :: vs), s3. repeat split; auto. econstructor; eauto.
  - intros (a & x & b & vs & s1 & -> & O & X & N). induction O as [s|e es s v s1 vs s2 E O IH]; cbn [app]; [now apply br_here|]. eapply br_later; eauto.
Qed.
Lemma order_one e s vs s' : in_order w [e] s vs s' -> exists v, vs = [v] /\ eval_expr w e s = (Ok v, s').
Proof. intros O. inversion O as [|? ? ? ? ? ? ? E O']; subst. inversion O'; subst. eauto. Qed.
Lemma order_two a b s vs s' : in_order w [a; b] s vs s' -> exists v u, vs = [v; u].
Proof. intros O. inversion O as [|? ? ? ? ? ? ? E O']; subst. inversion O' as [|? ? ? ? ? ? ? E' O'']; subst. inversion O''; subst. eauto. Qed.
(** an expression stops where one of its parts stops *)
Lemma parts_break e s o s' : breaks w (parts e) s o s' -> eval_expr w e s = (o, s').
Proof.
  destruct e as [z|f|b|x|es|ps|a i|a f|n|n a|t a|t l r|a|c y n|n es]; cbn [parts]; intros B; try solve [inversion B].
  - now apply array_order.
  - now apply map_literal.
  - now apply index_order.
  - inversion B as [? ? ? ? ? E N|? ? ? ? ? ? ? E B']; subst; [|inversion B']. now apply (field_access w a f s o s').
  - inversion B as [? ? ? ? ? E N|? ? ? ? ? ? ? E B']; subst; [|inversion B']. now apply (let_binds w n a s o s').
  - inversion B as [? ? ? ? ? E N|? ? ? ? ? ? ? E B']; subst; [|inversion B']. now apply (unary_order w t a s o s').
  - destruct (in_dec kind_dec (tkind t) strict_kinds) as [K|K]; [now apply binary_order|].
    destruct (in_dec kind_dec (tkind t) [KLa; KLo]) as [L|L]; [|inversion B].
    inversion B as [? ? ? ? ? E N|? ? ? ? ? ? ? E B']; subst; [|inversion B']. apply (and_or w t l r s o s' E); auto. cbn in L. intuition auto.
  - inversion B as [? ? ? ? ? E N|? ? ? ? ? ? ? E B']; subst; [|inversion B']. exact E.
  - inversion B as [? ? ? ? ? E N|? ? ? ? ? ? ? E B']; subst; [|inversion B']. now apply (conditional w c y n s o s').
  - now apply args_break.
Qed.
Lemma block_break es s o s' : breaks w es s o s' -> eval_block w es s = (o, s').
Proof. intros B. now apply exprs_breaks. Qed.
Lemma comes_raises e s e' t m s' : comes_to w e s e' t -> raises e' t m s' -> raises e s m s'.
Proof.
  intros C. induction C as [e s|e a x b s vs s1 e' t P O C IH|t0 l r s v s1 e' t K E F C IH|t0 l r s v s1 e' t K E F C IH|
    c y n a x b s v s1 vs s2 e' t E F P O C IH|c y n a x b s v s1 vs s2 e' t E F P O C IH]; intros R; auto; specialize (IH R);
    destruct IH as (er & X & M); exists er; (split; [|exact M]).
  - apply parts_break. rewrite P. apply breaks_split. exists a, x, b, vs, s1. repeat split; auto. apply not_ok_err.
  - destruct (and_or w t0 l r s _ _ E) as [_ A]. destruct (A v eq_refl) as (_ & A2 & _). rewrite A2; auto.
  - destruct (and_or w t0 l r s _ _ E) as [_ A]. destruct (A v eq_refl) as (_ & _ & A3 & _). rewrite A3; auto.
  - destruct (conditional w c y n s _ _ E) as [_ A]. destruct (A v eq_refl) as (_ & A2). rewrite A2 by auto. apply block_break. subst y.
    apply breaks_split. exists a, x, b, vs, s2. repeat split; auto. apply not_ok_err.
  - destruct (conditional w c y n s _ _ E) as [_ A]. destruct (A v eq_refl) as (A1 & _). rewrite A1 by auto. apply block_break. subst n.
    apply breaks_split. exists a, x, b, vs, s2. repeat split; auto. apply not_ok_err.
Qed.

(** ** calls *)
Lemma misused_iff n vs s m : misused w n vs m <-> exists er, native_call h n vs s = (Err er, s) /\ everr_text h er = m.
Proof.
  assert (FE : forall n, In n formatting -> forall er s', (native_call h n vs s = (Err er, s') <-> native_format h vs = Err er /\ s' = s)).
  { intros f F er s'. pose proof (format_spec w vs) as FS. cbn [formatting In] in F. destruct F as [<-|[<-|[<-|[]]]]; unfold native_call; cbn [str_eqb];
      unfold native_println, native_print, lift; [| |change (str_eqb (lit "format") (lit "println")) with false; change (str_eqb (lit "format") (lit "print")) with false];
      destruct (native_format h vs) eqn:Q; cbn; split; try (intros [= <- <-]; auto); try (intros [[= <-] ->]; auto); intros [? ?]; try discriminate; intuition discriminate. }
  split.
  - intros M. destruct M as [n vs N|n I|n v vs I V|n f ps vs I SC L|v vs V|vs L|v A B C].
    + exists (EFunctionNotFound n). split; [|reflexivity]. unfold native_call. cbn [In native_names] in N.
      assert (E : forall m, m <> n -> str_eqb n m = false) by (intros m X; apply str_eqb_neq; congruence). rewrite !E by tauto. reflexivity.
    + exists ENeedParameter. split; [|reflexivity]. destruct I as [<-|I]; [reflexivity|]. now apply FE.
    + exists EFirstString. split; [|reflexivity]. apply FE; auto. split; auto. unfold native_format. rewrite pop_rev. destruct v; auto. exfalso. eapply V; eauto.
    + exists (EArgCount (length vs) (length (holes ps))). split; [|reflexivity]. apply FE; auto. split; auto. unfold native_format. rewrite pop_rev.
      rewrite !rev_length, (find_count _ _ SC). destruct (Nat.eqb_spec (length vs) (length (holes ps))); [contradiction|reflexivity].
    + exists EFirstArray. split; [|reflexivity]. change (native_call h (lit "append") (v :: vs) s) with (native_append (v :: vs), s).
      unfold native_append. rewrite pop_rev. destruct v; auto. exfalso. eapply V; eauto.
    + exists (EArgCount (length vs) 1). split; [|cbn [everr_text]; rewrite <- ?app_assoc; reflexivity].
      change (native_call h (lit "length") vs s) with (native_length vs, s). destruct vs as [|v [|v' vs]]; try reflexivity. cbn in L. lia.
    + exists (ELengthType v). split; [|reflexivity]. change (native_call h (lit "length") [v] s) with (native_length [v], s).
      destruct v; try reflexivity; exfalso; [eapply A|eapply B|eapply C]; eauto.
  - intros (er & E & <-). destruct (in_dec (list_eq_dec N.eq_dec) n native_names) as [I|I].
    + assert (FM : In n formatting -> misused w n vs (everr_text h er)).
      { intros F. apply FE in E; auto. destruct E as [E _]. destruct vs as [|v vs]; [injection E as <-; apply mu_nothing; now right|].
        unfold native_format in E. rewrite pop_rev in E. destruct v; try (injection E as <-; now apply mu_string).
        destruct (scan_exists s0) as [ps SC]. rewrite !rev_length, (find_count _ _ SC) in E.
        destruct (Nat.eqb_spec (length vs) (length (holes ps))); [discriminate|]. injection E as <-. now apply mu_holes. }
      cbn [native_names In] in I. destruct I as [<-|[<-|[<-|[<-|[<-|[]]]]]]; try (apply FM; cbn [formatting In]; auto; fail).
      * change (native_call h (lit "length") vs s) with (native_length vs, s) in E. injection E as E.
        destruct vs as [|v [|v' vs]]; cbn [native_length] in E.
        -- injection E as <-. now apply (mu_one w []).
        -- destruct v; try discriminate; injection E as <-; apply mu_length; discriminate.
        -- injection E as <-. now apply (mu_one w (v :: v' :: vs)).
      * change (native_call h (lit "append") vs s) with (native_append vs, s) in E. injection E as E. destruct vs as [|v vs].
        -- injection E as <-. apply mu_nothing. now left.
        -- unfold native_append in E. rewrite pop_rev in E. destruct v; try discriminate; injection E as <-; now apply mu_array.
    + unfold native_call in E. cbn [In native_names] in I.
      assert (X : forall m, m <> n -> str_eqb n m = false) by (intros m X; apply str_eqb_neq; congruence). rewrite !X in E by tauto.
      injection E as <-. now apply mu_unknown.
Qed.
Lemma native_err_state n vs s er s' : native_call h n vs s = (Err er, s') -> s' = s.
Proof.
  unfold native_call, native_println, native_print, lift. repeat destruct (str_eqb _ _); try destruct (native_format h vs); intros [= _ <-]; reflexivity.
Qed.
Lemma call_never_errs n args s vs s1 d er s' : in_order w args s vs s1 -> mget n (c_reqs (s_ctx s1)) = Some d -> eval_expr w (ECall n args) s <> (Err er, s').
Proof.
  intros O D. rewrite (args_order _ _ _ _ _ _ O), call_one. unfold ctx_request. rewrite D. destruct d as [t as_]. unfold request_call. cbv zeta.
  destruct (client_send _ _ _) as [[[[rq rs] tm] e]|e| |] eqn:C; try discriminate; [|exfalso; eapply send_no_err; eauto].
  destruct (to_map _ _) as [m|e'| |] eqn:T; try discriminate; [|exfalso; eapply to_map_no_err; eauto].
  destruct (eval_asserts _ _ _ _) as [[l|e'| |] sl] eqn:A; try discriminate. exfalso. eapply asserts_no_err; eauto.
Qed.

(** ** one expression *)
Lemma fault_raises e s m s' : fault w e s m s' -> raises e s m s'.
Proof.
  intros F. destruct F as [n s U|a i s v k s' O A B|a f s v s' E A|t a s v s' E K A|t l r s v1 v2 s' O K A B|t l r s v1 v2 s' O K A|t l r s K|n args s vs s' m O U M].
  - exists (EIdentNotFound n). rewrite reads, U. auto.
  - destruct (bad_index w a i s v k s' O A B) as (er & X & Y). now exists er.
  - destruct (field_access w a f s _ _ E) as (_ & _ & X). destruct (X v eq_refl A) as (er & Y & Z). now exists er.
  - exists (EUnaryUnknown t v). split; [|reflexivity]. unfold eval_expr, eval_at. cbn [eval]. rewrite (bind_ok _ _ _ _ _ E). unfold lift, unary_value.
    destruct (tkind t), v; try reflexivity; try congruence; exfalso; apply A; split; auto; constructor.
  - destruct (binary_order w t l r s) as [X _].
    { unfold arithmetic in K. cbn in K. unfold strict_kinds. cbn. intuition auto. }
    destruct (mismatch w (tkind t) v1 v2 K A B) as (er & Y & Z). exists er. rewrite (X _ _ _ O), Y. auto.
  - destruct (binary_order w t l r s) as [X _].
    { unfold bit_operator in K. cbn in K. unfold strict_kinds. cbn. intuition auto. }
    destruct (bit_mismatch w (tkind t) v1 v2 K A) as (er & Y & Z). exists er. rewrite (X _ _ _ O), Y. auto.
  - exists (EBinaryUnsupported t l r). split; [|reflexivity]. unfold eval_expr, eval_at. cbn [eval].
    destruct (tkind t); try reflexivity; exfalso; apply K; cbn; auto 30.
  - destruct (proj1 (misused_iff n vs s' m) M) as (er & Y & Z). exists er. rewrite (call_native_at _ _ _ _ _ _ O U). auto.
Qed.
Lemma binop_err k v1 v2 er : In k strict_kinds -> binop w k v1 v2 = Err er ->
  (arithmetic k /\ ~ (is_number v1 /\ is_number v2) /\ ~ (k = KAdd /\ both_str v1 v2)) \/ (bit_operator k /\ ~ both_int v1 v2).
Proof.
  intros K E. destruct (strict_kind h _ K) as [f F]. rewrite (binop_strict _ _ _ _ _ F) in E.
  assert (AR : forall z, arith h z <> Err er) by (intros z; unfold arith; destruct (in_i64 z), (h_checks h); discriminate).
  assert (NB : ~ (is_number VNull)) by (intros X; inversion X).
  assert (D : forall a b, int_div a b <> Err er /\ int_rem a b <> Err er).
  { intros a b. unfold int_div, int_rem. destruct (b =? 0)%Z; [split; discriminate|]. destruct (_ && _)%bool; split; discriminate. }
  assert (SH : forall a b, int_shl h a b <> Err er /\ int_shr h a b <> Err er).
  { intros a b. unfold int_shl, int_shr. destruct (_ && _)%bool; [split; discriminate|]. destruct (h_checks h); split; discriminate. }
  assert (D1 := fun a b => proj1 (D a b)). assert (D2 := fun a b => proj2 (D a b)). assert (S1 := fun a b => proj1 (SH a b)). assert (S2 := fun a b => proj2 (SH a b)).
  clear D SH NB.
  destruct k; try (exfalso; revert K; unfold strict_kinds; cbn; intuition discriminate); cbn [strict_op] in F; injection F as <-; try discriminate;
    first [ left; split; [unfold arithmetic; cbn; solve [auto 10]|]; split;
            [intros [A B]; inversion A; inversion B; subst; cbn in E; try discriminate; congruence
            |intros [Q (a & b & -> & ->)]; first [discriminate Q|discriminate E]]
          | right; split; [unfold bit_operator; cbn; solve [auto 10]|]; intros (a & b & -> & ->); cbn in E; try discriminate; congruence ].
Qed.
Lemma raised_here e s vs s1 m s' : in_order w (parts e) s vs s1 -> raises e s m s' ->
  fault w e s m s' \/
  (exists t l r v, e = EBin t l r /\ eval_expr w l s = (Ok v, s1) /\ raises r s1 m s' /\ (tkind t = KLa /\ ~ counts_false v \/ tkind t = KLo /\ counts_false v)) \/
  (exists c y n v es er, e = EIf c y n /\ eval_expr w c s = (Ok v, s1) /\ (~ counts_false v /\ es = y \/ counts_false v /\ es = n) /\
     eval_block w es s1 = (Err er, s') /\ everr_text h er = m).
Proof.
  destruct e as [z|f|b|x|es|ps|a i|a f|n|n a|t a|t l r|a|c y n|n es]; cbn [parts]; intros O (er & E & M).
  - discriminate E. - discriminate E. - discriminate E. - discriminate E.
  - rewrite (proj1 (array_order w es s) _ _ O) in E. discriminate.
  - destruct (proj1 (map_literal w ps s) _ _ O) as (mm & X & _). rewrite X in E. discriminate.
  - left. destruct (order_two _ _ _ _ _ O) as (v & k & ->). rewrite (proj1 (index_order w a i s) _ _ _ O) in E. injection E as E <-. subst m.
    destruct v; cbn [index_value] in E; try (injection E as <-; eapply fa_index; eauto; [discriminate|intros ? ? [? ?]; discriminate]).
    + destruct k; try (injection E as <-; eapply fa_index; eauto; [discriminate|intros ? ? [? ?]; discriminate]). destruct (_ && _)%bool; discriminate.
    + destruct k; destruct (mget _ _); discriminate.
  - left. destruct (order_one _ _ _ _ O) as (v & -> & X). unfold eval_expr, eval_at in E, X. cbn [eval] in E. rewrite (bind_ok _ _ _ _ _ X) in E.
    unfold lift in E. injection E as E <-. destruct v; cbn [field_value] in E; try (injection E as <-; subst m; eapply fa_field; [exact X|discriminate]).
    destruct (mget f pairs); discriminate.
  - left. rewrite reads in E. destruct (mget n (c_vars (s_ctx s))) eqn:Q; [discriminate|]. injection E as <- <-. subst m. now constructor.
  - destruct (order_one _ _ _ _ O) as (v & -> & X). destruct (proj1 (let_binds w n a s _ _ X) v eq_refl) as (s2 & Y & _). rewrite Y in E. discriminate.
  - left. destruct (order_one _ _ _ _ O) as (v & -> & X). unfold eval_expr, eval_at in E, X. cbn [eval] in E. rewrite (bind_ok _ _ _ _ _ X) in E.
    unfold lift in E. injection E as E <-.
    assert (AR : forall z, arith h z <> Err er) by (intros z; unfold arith; destruct (in_i64 z), (h_checks h); discriminate).
    assert (Q : er = EUnaryUnknown t v /\ tkind t <> KNot /\ ~ (tkind t = KSub /\ is_number v)).
    { unfold unary_value in E. destruct (tkind t); try (injection E as <-; repeat split; try discriminate; intros [? _]; discriminate).
      - destruct v as [| | | | | |]; try (injection E as <-; repeat split; try discriminate; intros [_ I]; inversion I); try discriminate. exfalso. eapply AR; eauto.
      - destruct v as [| | |[]| | |]; discriminate. }
    destruct Q as (-> & A & B). subst m. now eapply fa_unary.
  - destruct (in_dec kind_dec (tkind t) strict_kinds) as [K|K].
    + left. destruct (order_two _ _ _ _ _ O) as (v & u & ->). rewrite (proj1 (binary_order w t l r s K) _ _ _ O) in E. injection E as E <-.
      destruct (binop_err _ _ _ _ K E) as [(A & B & C)|(A & B)].
      * destruct (mismatch w _ _ _ A B C) as (er' & Y & Z). rewrite Y in E. injection E as <-. rewrite Z in M. subst m. eapply fa_arithmetic; eauto.
      * destruct (bit_mismatch w _ _ _ A B) as (er' & Y & Z). rewrite Y in E. injection E as <-. rewrite Z in M. subst m. eapply fa_bits; eauto.
    + destruct (in_dec kind_dec (tkind t) [KLa; KLo]) as [L|L].
      * right. left. destruct (order_one _ _ _ _ O) as (v & -> & X). exists t, l, r, v. split; auto. split; auto.
        destruct (and_or w t l r s _ _ X) as [_ A]. destruct (A v eq_refl) as (A1 & A2 & A3 & A4).
        assert (CD : counts_false v \/ ~ counts_false v) by (rewrite <- falsy_iff; destruct (falsy v); auto).
        cbn [In] in L. destruct L as [L|[L|[]]]; symmetry in L; destruct CD as [CF|CF].
        -- rewrite A1 in E by auto. discriminate.
        -- rewrite A2 in E by auto. split; [now exists er|]. auto.
        -- rewrite A3 in E by auto. split; [now exists er|]. auto.
        -- rewrite A4 in E by auto. discriminate.
      * left. inversion O; subst. assert (N : ~ In (tkind t) (KLa :: KLo :: strict_kinds)). { intros [I|[I|I]]; auto; apply L; cbn; auto. }
        destruct (fault_raises _ _ _ _ (fa_operator w t l r s1 N)) as (er' & Y & Z). rewrite Y in E. injection E as <- <-. rewrite Z. now constructor.
  - exfalso. destruct (order_one _ _ _ _ O) as (v & -> & X). change (eval_expr w a s = (Err er, s')) in E. congruence.
  - right. right. destruct (order_one _ _ _ _ O) as (v & -> & X). destruct (conditional w c y n s _ _ X) as [_ A]. destruct (A v eq_refl) as (A1 & A2).
    assert (CD : counts_false v \/ ~ counts_false v) by (rewrite <- falsy_iff; destruct (falsy v); auto). destruct CD as [CF|CF].
    + rewrite A1 in E by auto. exists c, y, n, v, n, er. repeat split; auto.
    + rewrite A2 in E by auto. exists c, y, n, v, y, er. repeat split; auto.
  - left. destruct (mget n (c_reqs (s_ctx s1))) as [d|] eqn:D.
    + exfalso. eapply call_never_errs; eauto.
    + rewrite (call_native_at _ _ _ _ _ _ O D) in E. pose proof (native_err_state _ _ _ _ _ E) as ->. eapply fa_call; eauto. apply (misused_iff n vs s1 m). eauto.
Qed.

(** ** all *)
Lemma block_raises es s er s' : eval_block w es s = (Err er, s') -> breaks w es s (Err er) s'.
Proof.
  intros E. destruct (order_or_break w es s) as [(vs & s1 & O)|(o & s1 & B)].
  - unfold eval_block in E. rewrite (exprs_in_order _ _ _ _ _ O) in E. discriminate.
  - rewrite (block_break _ _ _ _ B) in E. injection E as -> ->. exact B.
Qed.
Definition inside (e : expr) : list expr :=
  match e with EBin _ a b => [a; b] | EIf c y n => c :: y ++ n | e => parts e end.
Lemma parts_inside e x : In x (parts e) -> In x (inside e).
Proof.
  destruct e; cbn [parts inside]; auto.
  - destruct (in_dec _ _ _); auto. destruct (in_dec _ _ _); intros I; [destruct I as [<-|[]]; now left|destruct I].
  - intros [<-|[]]. now left.
Qed.
Lemma inside_ind (P : expr -> Prop) : (forall e, (forall x, In x (inside e) -> P x) -> P e) -> forall e, P e.
Proof.
  intros H e. induction e as [z|f|b|x|es IH|ps IH|e i IHe IHi|e f IHe|n|n e IHe|t e IHe|t l r IHl IHr|e IHe|c a b IHc IHa IHb|n es IH] using expr_ind2;
    apply H; cbn [inside parts]; try (intros ? []; fail); rewrite ?Forall_forall in *; auto;
    try (intros y Iy; cbn [In] in Iy; repeat (destruct Iy as [<-|Iy]; auto); destruct Iy; fail).
  - intros y Iy. unfold flatten in Iy. apply in_flat_map in Iy. destruct Iy as (kv & I & J). destruct (IH _ I). destruct J as [<-|[<-|[]]]; auto.
  - intros y [<-|Iy]; auto. apply in_app_iff in Iy. destruct Iy; auto.
Qed.
Lemma blame_expr e s m s' : (exists er, eval_expr w e s = (Err er, s') /\ everr_text h er = m) <-> exists e' t, comes_to w e s e' t /\ fault w e' t m s'.
Proof.
  split.
  - revert s m s'. induction e as [e IH] using inside_ind. intros s m s' R.
    assert (BR : forall es s0 er, (forall x, In x es -> In x (inside e)) -> breaks w es s0 (Err er) s' -> everr_text h er = m ->
      exists a x b vs s1 e' t, es = a ++ x :: b /\ in_order w a s0 vs s1 /\ comes_to w x s1 e' t /\ fault w e' t m s').
    { intros es s0 er I B M. apply breaks_split in B. destruct B as (a & x & b & vs & s1 & -> & O & X & _).
      destruct (IH x (I x ltac:(apply in_app_iff; right; now left)) s1 m s' (ex_intro _ er (conj X M))) as (e' & t & C & F).
      exists a, x, b, vs, s1, e', t. auto. }
    destruct (order_or_break w (parts e) s) as [(vs & s1 & O)|(o & s1 & B)].
    + destruct (raised_here e s vs s1 m s' O R) as [F|[(t & l & r & v & -> & X & (er & Y & M) & K)|(c & y & n & v & es & er & -> & X & K & Y & M)]].
      * exists e, s. split; auto. constructor.
      * destruct (IH r ltac:(cbn; auto) s1 m s' (ex_intro _ er (conj Y M))) as (e' & t' & C & F). exists e', t'. split; auto.
        destruct K as [[K V]|[K V]]; [eapply ct_and|eapply ct_or]; eauto.
      * apply block_raises in Y. destruct (BR es s1 er) as (a & x & b & vs' & s2 & e' & t & P & O2 & C & F); auto.
        { intros z I. cbn [inside]. right. apply in_app_iff. destruct K as [[_ ->]|[_ ->]]; auto. }
        exists e', t. split; auto. destruct K as [[V ->]|[V ->]]; [eapply ct_then|eapply ct_else]; eauto.
    + destruct R as (er & E & M). rewrite (parts_break _ _ _ _ B) in E. injection E as -> ->.
      destruct (BR (parts e) s er) as (a & x & b & vs & s2 & e' & t & P & O2 & C & F); auto using parts_inside.
      exists e', t. split; auto. eapply ct_part; eauto.
  - intros (e' & t & C & F). eapply comes_raises; eauto. now apply fault_raises.
Qed.
End Blame.
Theorem blame w e s m s' : (exists er, eval_expr w e s = (Err er, s') /\ everr_text (e_host w) er = m) <->
  exists e' t, comes_to w e s e' t /\ fault w e' t m s'.
Proof. apply blame_expr. Qed.
(** for a program: the first failing expression *)
Theorem blame_block w es s m s' : (exists er, eval_block w es s = (Err er, s') /\ everr_text (e_host w) er = m) <->
  exists a x b vs s1 e' t, es = a ++ x :: b /\ in_order w a s vs s1 /\ comes_to w x s1 e' t /\ fault w e' t m s'.
Proof.
  split.
  - intros (er & E & M). apply block_raises, breaks_split in E. destruct E as (a & x & b & vs & s1 & -> & O & X & _).
    destruct (proj1 (blame_expr w x s1 m s')) as (e' & t & C & F); [now exists er|]. exists a, x, b, vs, s1, e', t. auto.
  - intros (a & x & b & vs & s1 & e' & t & -> & O & C & F). destruct (proj2 (blame_expr w x s1 m s')) as (er & E & M); [now exists e', t|].
    exists er. split; auto. apply block_break, breaks_split. exists a, x, b, vs, s1. repeat split; auto. apply not_ok_err.
Qed.
