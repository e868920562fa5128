(** When parsing ends *)
From Verif Require Import Parser SpecSyntax TextProofs LexerProofs ParserBase ParserSound ParserTop ParserFuel.
Open Scope nat_scope.

Lemma pbind_ends {A B} (x : pres A) (f : A -> toks -> pres B) :
  x <> PFuel -> (forall a t, x = POk a t -> f a t <> PFuel) -> pbind x f <> PFuel.
Proof. destruct x; cbn [pbind]; intros X F; [apply F; auto|discriminate|congruence]. Qed.

Lemma no_bang_prefix u v : no_bang (u ++ v) -> no_bang u.
Proof. intros H a b (x & y & ->). apply H. exists x, (y ++ v). now rewrite <- !app_assoc. Qed.

Lemma let_first e w : syntax false e w -> is_let e -> exists w', w = op KLet "let" :: w'.
Proof. intros S L. destruct e; try contradiction. inversion S; subst; eauto. Qed.

Definition ends (w : toks) : Prop := exists u t, w = u ++ [t] /\ ends_operand (tkind t).
Lemma ends_one k l : ends_operand k -> ends [Tok k l].
Proof. intros K. exists [], (Tok k l). auto. Qed.
Lemma ends_app u v : ends v -> ends (u ++ v).
Proof. intros (x & t & -> & K). exists (u ++ x), t. now rewrite app_assoc. Qed.
Lemma ends_cons t v : ends v -> ends (t :: v).
Proof. apply (ends_app [t]). Qed.

Lemma let_not_operand x e w : unary (tkind x) \/ binary (tkind x) -> syntax false e w -> no_bang (x :: w) -> ~ is_let e.
Proof.
  intros X S N L. destruct (let_first _ _ S L) as [w' ->].
  destruct (N x (op KLet "let")) as [_ Z]; [exists [], w'; auto|]. destruct (Z eq_refl). tauto.
Qed.

Lemma syntax_ends e w : syntax false e w -> ~ is_let e -> no_bang w -> ends w.
Proof.
  induction 1; intros NL NB; try (exfalso; apply NL; exact I);
    try solve [unfold op; repeat ((apply ends_one; unfold ends_operand; simpl; tauto) || apply ends_cons || apply ends_app)].
  - apply ends_cons, IHsyntax; [|now apply no_bang_cons in NB]. eapply let_not_operand; eauto.
  - apply no_bang_app in NB. apply ends_app, ends_cons, IHsyntax2; [|now apply no_bang_cons in NB]. eapply let_not_operand; eauto.
Qed.

(** the state of the operator loop: [l] has just been read *)
Definition reading (p : N) (l : expr) (ts : toks) : Prop :=
  exists ts0 w0, eats ts0 w0 ts /\ no_bang ts0 /\ syntax false l w0 /\ (is_let l -> (13 <= p)%N).

Record term_at (m : nat) : Prop := {
  t_expr : forall p ts, wf ts -> no_bang ts -> 4 * length ts + 4 <= m -> parse_expr m p ts <> PFuel;
  t_loop : forall p l ts, live ts -> no_bang ts -> 4 * length ts + 3 <= m -> reading p l ts -> parse_loop m p l ts <> PFuel;
  t_let : forall ts, live ts -> no_bang ts -> 4 * length ts + 3 <= m -> parse_let m ts <> PFuel;
  t_unary : forall ts, live ts -> no_bang ts -> 4 * length ts + 3 <= m -> parse_unary m ts <> PFuel;
  t_binary : forall l ts, live ts -> no_bang ts -> 4 * length ts + 3 <= m -> parse_binary m l ts <> PFuel;
  t_paren : forall ts, live ts -> no_bang ts -> 4 * length ts + 3 <= m -> parse_paren m ts <> PFuel;
  t_if : forall ts, live ts -> no_bang ts -> 4 * length ts + 3 <= m -> parse_if m ts <> PFuel;
  t_call : forall f ts, live ts -> no_bang ts -> 4 * length ts + 3 <= m -> parse_call m f ts <> PFuel;
  t_list : forall stop ts, live ts -> no_bang ts -> 4 * length ts + 2 <= m -> parse_list m stop ts <> PFuel;
  t_list_loop : forall stop ts, live ts -> no_bang ts -> 4 * length ts + 1 <= m -> parse_list_loop m stop ts <> PFuel;
  t_array : forall ts, live ts -> no_bang ts -> 4 * length ts + 3 <= m -> parse_array m ts <> PFuel;
  t_map : forall ts, live ts -> no_bang ts -> 4 * length ts + 3 <= m -> parse_map m ts <> PFuel;
  t_map_loop : forall ts, live ts -> no_bang ts -> 4 * length ts + 2 <= m -> parse_map_loop m ts <> PFuel;
  t_index : forall l ts, live ts -> no_bang ts -> 4 * length ts + 3 <= m -> parse_index m l ts <> PFuel;
  t_block : forall ts, live ts -> no_bang ts -> 4 * length ts + 3 <= m -> parse_block m ts <> PFuel;
  t_block_loop : forall ts, live ts -> no_bang ts -> 4 * length ts + 1 <= m -> parse_block_loop m ts <> PFuel
}.

Ltac nofuel := let X := fresh in intro X; discriminate X.
Lemma expect_ends k ts : expect k ts <> PFuel.
Proof. unfold expect. destruct (peek ts); [destruct (kind_eqb _ _)|]; discriminate. Qed.

Ltac term IH :=
  solve [nofuel | apply expect_ends
        | eapply (t_expr _ IH); [assumption|auto 12|lia]
        | eapply (t_let _ IH); [assumption|auto 12|lia] | eapply (t_unary _ IH); [assumption|auto 12|lia]
        | eapply (t_binary _ IH); [assumption|auto 12|lia] | eapply (t_paren _ IH); [assumption|auto 12|lia]
        | eapply (t_if _ IH); [assumption|auto 12|lia] | eapply (t_call _ IH); [assumption|auto 12|lia]
        | eapply (t_list _ IH); [assumption|auto 12|lia] | eapply (t_list_loop _ IH); [assumption|auto 12|lia]
        | eapply (t_array _ IH); [assumption|auto 12|lia] | eapply (t_map _ IH); [assumption|auto 12|lia]
        | eapply (t_map_loop _ IH); [assumption|auto 12|lia] | eapply (t_index _ IH); [assumption|auto 12|lia]
        | eapply (t_block _ IH); [assumption|auto 12|lia] | eapply (t_block_loop _ IH); [assumption|auto 12|lia]].
Ltac tbind IH :=
  apply pbind_ends; [term IH|let a := fresh "a" in let t := fresh "ts" in let E := fresh "E" in
    intros a t E; match type of IH with term_at ?n => let Z := constr:(size n) in learn Z E end; tails; semis; tails].
Ltac mS m := destruct m as [|m]; [lia|].

Lemma reading_prim m p e ts ts1 : prim_post ts e ts1 -> no_bang ts -> ~ is_let e -> smaller ts ts1 ->
  4 * length ts + 4 <= S m -> term_at m -> parse_loop m p e ts1 <> PFuel.
Proof.
  intros (w & A & Sx & _) NB NL (L & Z & B) Bm IH. apply (t_loop _ IH); auto; [lia|].
  exists ts, w. split; [exact A|split; [exact NB|split; [exact Sx|intros X; contradiction]]].
Qed.

Lemma term : forall m, term_at m.
Proof.
  induction m as [|m IH]; [constructor; intros; lia|].
  pose proof (sound m) as SO. pose proof (size m) as SZ.
  constructor.
  - intros p ts W NB Bm. cbn [parse_expr].
    destruct (tkind (current ts)) eqn:K; try nofuel;
      (assert (L : live ts) by (apply wf_live; auto; congruence));
      pose proof (eats_one _ L) as A0; try rewrite (tok_eta _ _ K) in A0.
    + apply (t_loop _ IH); auto; [lia|]. exists ts, [Tok KIdent (tlit (current ts))]. split; [exact A0|]. split; auto. split; [constructor|intros []].
    + apply pbind_ends.
      * unfold parse_integer_literal. destruct (digits_val _ _); [destruct (_ <=? _)%Z|]; discriminate.
      * intros e t E. pose proof E as E0. unfold parse_integer_literal in E.
        destruct (digits_val 0 (tlit (current ts))) as [z|] eqn:D; [|discriminate].
        destruct (Z.of_N z <=? i64_max)%Z eqn:Le; inversion E; subst.
        pose proof (digits_val_digits _ _ _ D) as DD. rewrite (digits_val_decimal _ DD) in D. inversion D; subst z.
        apply (t_loop _ IH); auto; [lia|]. exists t, [Tok KInteger (tlit (current t))]. split; [exact A0|]. split; auto. split; [|intros []].
        constructor; auto; [|unfold i64_max in Le; apply Z.leb_le in Le; lia].
        destruct L as (t0 & r & -> & St & _). simpl in *. now apply spelled_integer.
    + apply pbind_ends.
      * unfold parse_float_literal. destruct (parse_f64 _); discriminate.
      * intros e t E. unfold parse_float_literal in E. destruct (parse_f64 _) eqn:D; inversion E; subst.
        apply (t_loop _ IH); auto; [lia|]. exists t, [Tok KFloat (tlit (current t))]. split; [exact A0|]. split; auto. split; [now apply sx_float, FloatLiteral.parse_f64_iff|intros []].
    + rewrite (current_op ts _ (lit "true") L K ltac:(inop)) in A0.
      unfold parse_boolean_literal. rewrite (current_op ts _ (lit "true") L K ltac:(inop)). cbn -[parse_loop].
      apply (t_loop _ IH); auto; [lia|]. eexists _, _. split; [exact A0|]. split; auto. split; [constructor|intros []].
    + rewrite (current_op ts _ (lit "false") L K ltac:(inop)) in A0.
      unfold parse_boolean_literal. rewrite (current_op ts _ (lit "false") L K ltac:(inop)). cbn -[parse_loop].
      apply (t_loop _ IH); auto; [lia|]. eexists _, _. split; [exact A0|]. split; auto. split; [constructor|intros []].
    + apply (t_loop _ IH); auto; [lia|]. exists ts, [Tok KString (tlit (current ts))]. split; [exact A0|]. split; auto. split; [constructor|intros []].
    + tails. apply pbind_ends; [term IH|]. intros e t E.
      destruct (so_unary _ SO _ _ _ L ltac:(right; auto) E) as (P & U & _).
      eapply reading_prim; [exact P|exact NB|destruct e; simpl in *; tauto|eapply (z_unary _ SZ); eauto|lia|exact IH].
    + tails. apply pbind_ends; [term IH|]. intros e t E.
      destruct (so_unary _ SO _ _ _ L ltac:(left; auto) E) as (P & U & _).
      eapply reading_prim; [exact P|exact NB|destruct e; simpl in *; tauto|eapply (z_unary _ SZ); eauto|lia|exact IH].
    + tails. apply pbind_ends; [term IH|]. intros e t E.
      destruct (so_paren _ SO _ _ _ L K E) as (P & x & ->).
      eapply reading_prim; [exact P|exact NB|intros []|eapply (z_paren _ SZ); eauto|lia|exact IH].
    + tails. apply pbind_ends; [term IH|]. intros e t E.
      destruct (so_map _ SO _ _ _ L K E) as (P & x & ->).
      eapply reading_prim; [exact P|exact NB|intros []|eapply (z_map _ SZ); eauto|lia|exact IH].
    + tails. apply pbind_ends; [term IH|]. intros e t E.
      destruct (so_array _ SO _ _ _ L K E) as (P & x & ->).
      eapply reading_prim; [exact P|exact NB|intros []|eapply (z_array _ SZ); eauto|lia|exact IH].
    + tails. apply pbind_ends; [term IH|]. intros e t E.
      destruct (so_let _ SO _ _ _ L K E) as ((w & A & Sx & _) & IL). learn SZ E.
      apply (t_loop _ IH); auto; [lia|]. exists ts, w. split; [exact A|split; [exact NB|split; [exact Sx|intros _; unfold prec_max; lia]]].
    + tails. apply pbind_ends; [term IH|]. intros e t E.
      destruct (so_if _ SO _ _ _ L K E) as (P & x & y & z & ->).
      eapply reading_prim; [exact P|exact NB|intros []|eapply (z_if _ SZ); eauto|lia|exact IH].
  - intros p l ts L NB Bm (ts0 & w0 & A0 & NB0 & Sx0 & LL). cbn [parse_loop].
    destruct (negb (peek_is KSemi ts) && (p <? peek_precedence ts)%N) eqn:C; [|nofuel].
    apply andb_true_iff in C. destruct C as [_ C]. apply N.ltb_lt in C.
    destruct (loop_peek _ _ L C) as (L1 & Z1 & NB1 & t & P & CN & Pt). rewrite P.
    pose proof (precedence_range (tkind t)) as R13.
    assert (NL : ~ is_let l) by (intros X; specialize (LL X); lia).
    assert (Go : forall e w ts1, eats (next ts) w ts1 -> syntax false e (w0 ++ w) -> ~ is_let e ->
      smaller (next ts) ts1 -> parse_loop m p e ts1 <> PFuel).
    { intros e w ts1 A Sx N (L2 & Z2 & B2). apply (t_loop _ IH); auto; [lia|].
      exists ts0, (w0 ++ w). split; [eapply eats_step; eauto|split; [exact NB0|split; [exact Sx|intros X; contradiction]]]. }
    destruct (is_binop (tkind t)) eqn:B.
    + apply pbind_ends; [term IH|]. intros e ts1 E.
      destruct (so_binary _ SO _ _ _ _ L1 E) as (r & w & -> & A1 & Sr & _). rewrite CN in *.
      eapply Go; [exact A1| |intros []|eapply (z_binary _ SZ); eauto].
      apply sx_bin; auto. now apply binary_iff.
    + destruct (precedence_cases (tkind t) ltac:(lia)) as [X|[X|[X|[X|X]]]]; [congruence| | | |]; rewrite X.
      * exfalso. destruct A0 as (u & t1 & r & -> & -> & -> & S1 & W1).
        assert (EO : ends_operand (tkind t1)).
        { destruct (syntax_ends _ _ Sx0 NL) as (u' & t' & E' & K').
          - apply (no_bang_prefix _ r). rewrite <- app_assoc. exact NB0.
          - apply app_inj_tail in E'. destruct E' as [_ ->]. exact K'. }
        destruct r as [|t2 r]; [discriminate|]. simpl in P. inversion P; subst t2.
        destruct (NB0 t1 t) as [Z _]; [exists u, r; auto|]. apply (Z X EO).
      * apply pbind_ends; [term IH|]. intros e ts1 E.
        destruct (so_call _ SO _ _ _ _ L1 ltac:(congruence) E) as (nm & es & w & -> & -> & A1 & Sl & _).
        eapply Go; [exact A1| |intros []|eapply (z_call _ SZ); eauto].
        inversion Sx0; subst. now apply sx_call.
      * apply pbind_ends; [term IH|]. intros e ts1 E.
        destruct (so_index _ SO _ _ _ _ L1 ltac:(congruence) E) as (i & w & -> & A1 & Si & _).
        eapply Go; [exact A1| |intros []|eapply (z_index _ SZ); eauto]. now apply sx_index.
      * unfold parse_field. destruct (expect KIdent (next ts)) as [u ts1|?|] eqn:E1; cbn [pbind];
          [|nofuel|intros _; eapply expect_ends; eauto].
        destruct (eats_expect _ _ _ _ _ _ (eats_one _ L1) E1 ltac:(neof)) as (t1 & A1 & K1 & S1 & C1).
        pose proof (expect_size _ _ _ _ L1 E1 ltac:(neof)) as (L2 & Z2 & B2).
        eapply (Go _ ([current (next ts)] ++ [t1])); [exact A1| |intros []|split; auto; split; auto; lia].
        rewrite CN, C1. destruct L1 as (t3 & r3 & N3 & S3 & _). rewrite N3 in CN. simpl in CN. subst t3.
        rewrite (spelled_op _ _ _ S3 X ltac:(inop)). destruct t1 as [k1 l1]. simpl in K1. subst k1. now apply sx_field.
  - intros ts L NB Bm. cbn [parse_let]. cbv zeta. tails. do 3 tbind IH. nofuel.
  - intros ts L NB Bm. cbn [parse_unary]. cbv zeta. tails. tbind IH. nofuel.
  - intros l ts L NB Bm. cbn [parse_binary]. cbv zeta. tails. tbind IH. nofuel.
  - intros ts L NB Bm. cbn [parse_paren]. tails. do 2 tbind IH. nofuel.
  - intros ts L NB Bm. cbn [parse_if]. tails. do 4 tbind IH.
    destruct (peek_is KElse _) eqn:P; [|nofuel].
    match type of P with peek_is _ ?t = true => match goal with L' : live t |- _ => destruct (peek_next_size _ _ L' P ltac:(neof)) as (? & ? & ?) end end.
    tbind IH. nofuel.
  - intros f ts L NB Bm. cbn [parse_call]. tails. tbind IH. destruct f; nofuel.
  - intros stop ts L NB Bm. cbn [parse_list]. tails. tbind IH. apply pbind_ends; [term IH|]. intros; nofuel.
  - intros stop ts L NB Bm. cbn [parse_list_loop]. tails. destruct (peek_is stop ts); [nofuel|].
    tbind IH. destruct (peek_is stop _).
    + tbind IH. nofuel.
    + do 2 tbind IH. nofuel.
  - intros ts L NB Bm. cbn [parse_array]. tails. tbind IH. nofuel.
  - intros ts L NB Bm. cbn [parse_map]. tails. do 2 tbind IH. nofuel.
  - intros ts L NB Bm. cbn [parse_map_loop]. tails. destruct (peek_is KRb ts); [nofuel|].
    do 3 tbind IH. destruct (peek_is KRb _).
    + tbind IH. nofuel.
    + do 2 tbind IH. nofuel.
  - intros l ts L NB Bm. cbn [parse_index]. tails. do 2 tbind IH. nofuel.
  - intros ts L NB Bm. cbn [parse_block]. tails. do 3 tbind IH. nofuel.
  - intros ts L NB Bm. cbn [parse_block_loop]. tails. destruct (peek_is KRb ts); [nofuel|].
    do 2 tbind IH. nofuel.
Qed.

Lemma top_term m : forall src ts, wf ts -> no_bang ts -> 4 * length ts + 5 <= m -> parse_top m src ts <> PFuel.
Proof.
  induction m as [|m IHm]; intros src ts W NB Bm; [lia|]. cbn [parse_top].
  pose proof (term m) as IH.
  assert (Go : forall src ts1, live ts -> smaller ts ts1 -> parse_top m src (next (skip_semi ts1)) <> PFuel).
  { intros src0 ts1 L (L1 & S1 & B1). destruct (skip_semi_size _ L1) as (L2 & S2 & B2). destruct (next_size _ L2) as (? & ? & ?).
    apply IHm; auto. lia. }
  assert (Ex : live ts -> pbind (parse_expr m prec_min ts) (fun e ts => parse_top m (Source (s_exprs src ++ [e]) (s_requests src) (s_tests src)) (next (skip_semi ts))) <> PFuel).
  { intros L. apply pbind_ends; [term IH|]. intros a t E. apply Go; auto. eapply (z_expr _ (size m)); eauto. }
  destruct (tkind (current ts)) eqn:K; try (apply Ex; apply wf_live; auto; congruence); try nofuel;
    (assert (L : live ts) by (apply wf_live; auto; congruence)); tails.
  - assert (R : parse_request m ts <> PFuel /\ forall r t, parse_request m ts = POk r t -> smaller ts t).
    { unfold parse_request. cbv zeta. split.
      - do 2 tbind IH. destruct (peek_is KLs _) eqn:P; [|nofuel].
        match type of P with peek_is _ ?t = true => match goal with L' : live t |- _ => destruct (peek_next_size _ _ L' P ltac:(neof)) as (? & ? & ?) end end.
        tbind IH. nofuel.
      - intros r t Hr. pose proof (size m) as SZ. zstep SZ Hr. zstep SZ Hr.
        destruct (peek_is KLs _) eqn:P; [|inversion Hr; subst; zdone].
        match type of P with peek_is _ ?t = true => match goal with L' : live t |- _ => destruct (peek_next_size _ _ L' P ltac:(neof)) as (? & ? & ?) end end.
        zstep SZ Hr. inversion Hr; subst. zdone. }
    destruct R as [R1 R2]. apply pbind_ends; auto. intros [[nm ms] es] t E. apply Go; auto. eauto.
  - assert (R : parse_test m ts <> PFuel /\ forall r t, parse_test m ts = POk r t -> smaller ts t).
    { unfold parse_test. cbv zeta. split.
      - do 2 tbind IH. nofuel.
      - intros r t Hr. pose proof (size m) as SZ. do 2 zstep SZ Hr. inversion Hr; subst. zdone. }
    destruct R as [R1 R2]. apply pbind_ends; auto. intros [nm b] t E. apply Go; auto. eauto.
Qed.

Lemma terminates text n : no_bang (segment text) -> 4 * length (segment text) + 5 <= n -> parse_fuel n (segment text) <> PFuel.
Proof. intros H Hn. apply top_term; auto using wf_segment. Qed.

Lemma parse_terminates text : no_bang (segment text) -> parse text <> Diverge.
Proof.
  intros H. unfold parse. pose proof (terminates text (fuel_for (segment text)) H) as T.
  destruct (parse_fuel _ _); try discriminate. exfalso. apply T; auto. unfold fuel_for. lia.
Qed.

Definition ends_operandb (k : kind) : bool := existsb (kind_eqb k) [KIdent; KInteger; KFloat; KTrue; KFalse; KString; KRp; KRb; KRs].
Fixpoint no_bangb (ts : toks) : bool :=
  match ts with
  | a :: (b :: _) as r =>
      negb (kind_eqb (tkind b) KNot && ends_operandb (tkind a)) &&
      negb (kind_eqb (tkind b) KLet && (is_binop (tkind a) || kind_eqb (tkind a) KNot)) && no_bangb r
  | _ => true
  end.
Lemma no_bangb_ok ts : no_bangb ts = true -> no_bang ts.
Proof.
  intros H a b (u & v & ->). induction u as [|x u IH].
  - cbn [app no_bangb] in H. apply andb_prop in H. destruct H as [H _]. apply andb_prop in H. destruct H as [H1 H2].
    rewrite negb_true_iff in H1, H2. split.
    + intros E O. rewrite E in H1. cbn [andb] in H1. rewrite kind_eqb_refl in H1.
      assert (X : ends_operandb (tkind a) = true); [|rewrite X in H1; discriminate].
      apply existsb_exists. exists (tkind a). split; [exact O|apply kind_eqb_refl].
    + intros E. rewrite E, kind_eqb_refl in H2. cbn [andb] in H2. apply orb_false_iff in H2. destruct H2 as [H2 H3].
      rewrite kind_eqb_neq in H3. split.
      * intros [U|U]; [congruence|]. rewrite U in H2. discriminate.
      * intros B. apply binary_iff in B. congruence.
  - apply IH. cbn [app] in H. cbn [no_bangb] in H. destruct (u ++ a :: b :: v) eqn:E; [destruct u; discriminate|].
    apply andb_prop in H. tauto.
Qed.

Lemma parse_finishes text : no_bang (segment text) -> (exists src, parse text = Ok src) \/ (exists e, parse text = Err e).
Proof.
  intros H. pose proof (parse_terminates _ H) as N. unfold parse in *. destruct (parse_fuel _ _); eauto. congruence.
Qed.
