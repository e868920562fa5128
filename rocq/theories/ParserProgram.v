(** Whole programs: completeness, and sources on which parsing never ends *)
From Verif Require Import Parser SpecSyntax TextProofs LexerProofs ParserBase ParserSound ParserTop ParserFuel ParserComplete.
Open Scope N_scope.

Lemma top_expr n src t r : starts (tkind t) = true ->
  parse_top (S n) src (t :: r) =
  pbind (parse_expr n prec_min (t :: r)) (fun e ts => parse_top n (collect src (IExpr e)) (next (skip_semi ts))).
Proof. intros S. cbn [parse_top current]. destruct (tkind t); try discriminate; reflexivity. Qed.

Definition item_wf (i : item) : Prop := forall e, in_item e i -> no_let_operand e /\ prec_ok e.

Lemma item_wf_list (l : list expr) : (forall e, In e l -> no_let_operand e /\ prec_ok e) -> Forall wellformed l.
Proof. rewrite Forall_forall. auto. Qed.

(** what may follow an item that is not closed by [;] *)
Definition free (i : item) (t : token) : Prop :=
  match i with IExpr _ => precedence (tkind t) = 0 /\ tkind t <> KElse | _ => tkind t <> KLs end.

Lemma item_reach i w src R : syntax_item true i w -> item_wf i ->
  forall t rest, tkind t <> KSemi ->
  ev (fun n => parse_top n (collect src i) (t :: rest)) R ->
  ev (fun n => parse_top n src (w ++ op KSemi ";" :: t :: rest)) R /\
  (free i t -> ev (fun n => parse_top n src (w ++ t :: rest)) R).
Proof.
  intros S W t rest K H. destruct complete as (Ce & Cl & _ & Cb).
  inversion S as [e w0 Sx|n m|n m es w0 Sl|n b w0 Sb]; subst.
  - destruct (Ce _ _ Sx (W e eq_refl)) as [_ G]. destruct (G t rest K) as (G1 & ts & G2 & G3).
    destruct (syntax_starts _ _ _ Sx) as (x & r & E & St). split.
    + apply ev_S. rewrite E in *. cbn [app] in *. eapply ev_ext; [intros n; apply top_expr; auto|].
      eapply ev_bind; [exact G2|]. cbv beta. rewrite G3, next_at. exact H.
    + intros [F1 F2]. apply ev_S. rewrite E in *. cbn [app] in *. eapply ev_ext; [intros n; apply top_expr; auto|].
      eapply ev_bind; [apply G1; split; [lia|auto]|]. cbv beta. rewrite skip_not, next_at by auto. exact H.
  - cbn [app]. split; [|intros F]; apply ev_S; cbn [parse_top current tkind op]; unfold parse_request; cbv zeta;
      rewrite (expect_at KIdent) by auto; cbn [pbind]; rewrite (expect_at KTemplate) by auto; cbn [pbind].
    + rewrite peek_is_not by discriminate. cbn [pbind]. rewrite skip_at by auto. rewrite next_at. exact H.
    + rewrite peek_is_not by auto. cbn [pbind]. rewrite skip_not by auto. rewrite next_at. exact H.
  - assert (Wl : Forall wellformed es) by (apply item_wf_list; exact W).
    cbn [app]. rewrite <- !app_assoc. split; [|intros F]; apply ev_S; cbn [parse_top current tkind op]; unfold parse_request; cbv zeta;
      rewrite (expect_at KIdent) by auto; cbn [pbind]; rewrite (expect_at KTemplate) by auto; cbn [pbind];
      rewrite (peek_is_at KLs) by auto; rewrite next_at.
    + eapply ev_bind; [eapply ev_bind; [apply (expr_list es w0 KRs); auto|apply ev_const]|]. cbv beta iota.
      cbn [app]. rewrite skip_at by auto. rewrite next_at. exact H.
    + eapply ev_bind; [eapply ev_bind; [apply (expr_list es w0 KRs); auto|apply ev_const]|]. cbv beta iota.
      cbn [app]. rewrite skip_not by auto. rewrite next_at. exact H.
  - assert (Wl : Forall wellformed b) by (apply item_wf_list; exact W).
    cbn [app]. rewrite <- !app_assoc. split; [|intros F]; apply ev_S; cbn [parse_top current tkind op]; unfold parse_test; cbv zeta;
      rewrite (expect_at KIdent) by auto; cbn [pbind].
    + eapply ev_bind; [eapply ev_bind; [apply (expr_block b w0); auto|apply ev_const]|]. cbv beta iota.
      cbn [app]. rewrite skip_at by auto. rewrite next_at. exact H.
    + eapply ev_bind; [eapply ev_bind; [apply (expr_block b w0); auto|apply ev_const]|]. cbv beta iota.
      cbn [app]. rewrite skip_not by auto. rewrite next_at. exact H.
Qed.

Lemma item_first b i w : syntax_item b i w -> exists t r, w = t :: r /\ tkind t <> KSemi.
Proof.
  destruct 1; try (eexists _, _; split; [reflexivity|discriminate]).
  destruct (syntax_starts _ _ _ H) as (x & r & -> & St). eexists _, _. split; [reflexivity|].
  intros E; rewrite E in St; discriminate.
Qed.
Lemma program_first is w : program is w -> w = [] /\ is = [] \/ exists t r, w = t :: r /\ tkind t <> KSemi.
Proof.
  destruct 1; auto; right; destruct (item_first _ _ _ H) as (t & r & -> & K); eexists _, _; (split; [reflexivity|auto]).
Qed.

Lemma program_reach is w : program is w -> Forall item_wf is -> forall src,
  ev (fun n => parse_top n src (w ++ [eof])) (POk (fold_left collect is src) [eof]).
Proof.
  induction 1 as [|i w S|i w is w' S P IH|i w is w' S N P IH F]; intros W src.
  - apply ev_S. exact (ev_const (POk src [eof])).
  - inversion W; subst. apply (item_reach i w src _ S H1 eof []); [discriminate| |].
    + apply ev_S. exact (ev_const (POk (collect src i) [eof])).
    + destruct i; simpl; [split; [reflexivity|discriminate]|discriminate|discriminate].
  - inversion W; subst. rewrite <- app_assoc. cbn [app].
    destruct (program_first _ _ P) as [[-> ->]|(t & r & E & K)].
    + apply (item_reach i w src _ S H1 eof []); [discriminate|]. apply (IH (Forall_nil _)).
    + specialize (IH H2 (collect src i)). rewrite E in *. cbn [app] in *.
      apply (item_reach i w src _ S H1 t (r ++ [eof]) K). exact IH.
  - inversion W; subst. rewrite <- app_assoc.
    destruct (program_first _ _ P) as [[-> ->]|(t & r & E & K)].
    + apply (item_reach i w src _ S H1 eof []); [discriminate| |].
      * apply (IH (Forall_nil _)).
      * destruct i; simpl; [split; [reflexivity|discriminate]|discriminate|discriminate].
    + specialize (IH H2 (collect src i)). rewrite E in *. cbn [app] in *.
      apply (item_reach i w src _ S H1 t (r ++ [eof]) K); [exact IH|].
      destruct i; simpl; [destruct (N e); auto| |]; eapply F; reflexivity.
Qed.

Lemma ev_parse text r ts : ev (fun n => parse_fuel n (segment text)) (POk r ts) -> parse text = Ok r.
Proof.
  intros [n0 H]. unfold parse. specialize (H n0 (le_n _)).
  rewrite (fuel_suffices text n0) by (rewrite H; discriminate). now rewrite H.
Qed.

Lemma parses text is w : segment text = w ++ [Tok KEof []] -> program is w ->
  (forall i e, In i is -> in_item e i -> no_let_operand e /\ prec_ok e) ->
  exists src, parse text = Ok src /\ s_exprs src = item_exprs is /\
    (forall n d, mget n (s_requests src) = Some d <-> last_def n (item_requests is) d) /\
    (forall n b, mget n (s_tests src) = Some b <-> last_def n (item_tests is) b).
Proof.
  intros S P W. exists (fold_left collect is (Source [] [] [])). split.
  - eapply ev_parse. rewrite S. apply program_reach; auto. rewrite Forall_forall. intros i I e Ie. eauto.
  - rewrite collect_exprs, collect_requests, collect_tests. repeat split; auto; apply mextend_last.
Qed.

Lemma loop_spins p e t x rest : p < 11 -> tkind x = KNot -> forall n, parse_loop n p e (t :: x :: rest) = PFuel.
Proof.
  intros Lp K. induction n as [|n IH]; auto. cbn [parse_loop].
  unfold peek_is, peek_precedence. cbn [peek]. rewrite K. cbn -[N.ltb parse_loop].
  replace (p <? 11) with true by (symmetry; apply N.ltb_lt; auto). exact IH.
Qed.

Lemma spins_prim e w x rest : syntax true e w -> wellformed e -> tkind x = KNot -> ~ is_let e -> ~ is_binary e ->
  forall p, p < 11 -> ev (fun n => parse_expr n p (w ++ x :: rest)) PFuel.
Proof.
  intros S W K Nl Nb p Lp. destruct complete as (Ce & _). destruct (Ce _ _ S W) as [G _]. apply (G Nl); [lia|now apply above_other| |].
  - split; [rewrite K; destruct e; cbn; try lia; destruct Nb; exact I|congruence].
  - exists 0%nat. intros n _. now apply loop_spins.
Qed.

Lemma above_min e w : syntax true e w -> above 0 e.
Proof.
  intros S t a b ->. inversion S; subst.
  match goal with X : binary _ |- _ => apply binary_iff, binop_range in X end. lia.
Qed.

Lemma spins e w x rest : syntax true e w -> tkind x = KNot -> wellformed e ->
  forall p, p < 11 -> above p e -> ev (fun n => parse_expr n p (w ++ x :: rest)) PFuel.
Proof.
  intros S K. induction S; intros W p Lp Ab;
    try (eapply spins_prim; [econstructor; eauto|exact W|exact K|intros []|intros []|exact Lp]; fail).
  - apply wf_sub in W. apply ev_S. cbn [app parse_expr current tkind op]. apply ev_fuel. apply ev_S. cbn [parse_let].
    rewrite (expect_at KIdent) by auto. cbn [pbind]. cbv zeta. rewrite (expect_at KAssign) by auto. cbn [pbind].
    rewrite (next_syntax _ _ _ _ _ S). apply ev_fuel. apply IHS; auto; [reflexivity|]. eapply above_min; eauto.
  - discriminate.
  - pose proof W as W0. apply wf_sub in W. destruct W as (Wl & Wr & Nl & Nr & Pl & Pr).
    specialize (Ab _ _ _ eq_refl). apply binary_iff in H. pose proof (binop_range _ H) as Rg.
    destruct complete as (Ce & _). destruct (Ce _ _ S1 Wl) as [Gl _].
    rewrite <- app_assoc. cbn [app]. apply (Gl Nl); [lia| | |].
    + intros t' a b E. specialize (Pl _ _ _ E). subst l. inversion S1; subst.
      match goal with X : binary (tkind t') |- _ => apply binary_iff in X end.
      rewrite looser_iff in Pl. assert (~ precedence (tkind t') < precedence (tkind t)) by tauto. lia.
    + split; [|intros E; rewrite E in H; discriminate].
      destruct l; cbn [lvl]; try lia. specialize (Pl _ _ _ eq_refl). inversion S1; subst.
      match goal with X : binary (tkind t0) |- _ => apply binary_iff in X end.
      rewrite looser_iff in Pl. assert (~ precedence (tkind t0) < precedence (tkind t)) by tauto. lia.
    + apply loop_step; auto. rewrite H. apply ev_fuel. apply ev_S. cbn [parse_binary current]. cbv zeta.
      rewrite (next_syntax _ _ _ _ _ S2). apply ev_fuel. apply IHS2; auto; [lia|].
      intros t' a b E'. specialize (Pr _ _ _ E'). apply looser_iff in Pr. tauto.
Qed.

Lemma program_spins is w : program is w -> Forall item_wf is -> forall e is0 x rest,
  is = is0 ++ [IExpr e] -> (forall u, w <> u ++ [op KSemi ";"]) -> tkind x = KNot ->
  forall src, ev (fun n => parse_top n src (w ++ x :: rest)) PFuel.
Proof.
  induction 1 as [|i w S|i w is w' S P IH|i w is w' S N P IH F]; intros W e is0 x rest E L K src.
  - destruct is0; discriminate.
  - destruct is0 as [|? is0]; [|destruct is0; discriminate]. inversion E; subst. inversion W; subst.
    inversion S; subst. apply ev_S. destruct (syntax_starts _ _ _ H0) as (t & r & Ew & St).
    pose proof (spins e w x rest H0 K (H1 e eq_refl) 0 ltac:(reflexivity) (above_min _ _ H0)) as Sp.
    rewrite Ew in *. cbn [app] in *. eapply ev_ext; [intros n; apply top_expr; auto|]. now apply ev_fuel.
  - inversion W; subst. destruct (program_first _ _ P) as [[-> ->]|(t & r & Ew & Kt)].
    + exfalso. apply (L w). reflexivity.
    + destruct is0 as [|i0 is0].
      * inversion E; subst. inversion P; discriminate.
      * inversion E; subst. specialize (IH H2 e is0 x rest eq_refl).
        rewrite <- app_assoc. cbn [app].
        assert (L' : forall u, t :: r <> u ++ [op KSemi ";"]).
        { intros u Eu. apply (L (w ++ op KSemi ";" :: u)). rewrite Eu. now rewrite <- app_assoc. }
        specialize (IH L' K (collect src i0)).
        apply (item_reach i0 w src _ S H1 t (r ++ x :: rest) Kt). exact IH.
  - inversion W; subst. destruct is0 as [|i0 is0]; [inversion E; subst; destruct (N e); auto|].
    inversion E; subst. destruct (program_first _ _ P) as [[-> X]|(t & r & Ew & Kt)]; [destruct is0; discriminate|].
    specialize (IH H2 e is0 x rest eq_refl). rewrite <- app_assoc.
    assert (L' : forall u, w' <> u ++ [op KSemi ";"]).
    { intros u Eu. apply (L (w ++ u)). rewrite Eu. now rewrite <- app_assoc. }
    specialize (IH L' K (collect src i0)). rewrite Ew in *. cbn [app] in *.
    apply (item_reach i0 w src _ S H1 t (r ++ x :: rest) Kt); [exact IH|].
    destruct i0; simpl; [destruct (N e0); auto| |]; eapply F; reflexivity.
Qed.

Lemma never_ends text is e w rest : segment text = w ++ op KNot "!" :: rest -> program (is ++ [IExpr e]) w ->
  (forall u, w <> u ++ [op KSemi ";"]) ->
  (forall i e', In i (is ++ [IExpr e]) -> in_item e' i -> no_let_operand e' /\ prec_ok e') ->
  forall n, parse_fuel n (segment text) = PFuel.
Proof.
  intros S P L W n.
  assert (X : ev (fun n => parse_fuel n (segment text)) PFuel).
  { rewrite S. eapply program_spins; eauto. rewrite Forall_forall. intros i I e' Ie. eauto. }
  destruct X as [n0 X].
  destruct (parse_fuel n (segment text)) eqn:E; auto; exfalso;
    pose proof (top_bound n (Source [] [] []) (segment text) (Nat.max n0 (4 * length (segment text) + 5)) (wf_segment text) ltac:(lia)) as B;
    unfold agree, parse_fuel in *; rewrite E in B; specialize (B ltac:(discriminate));
    rewrite X in B by lia; discriminate.
Qed.
