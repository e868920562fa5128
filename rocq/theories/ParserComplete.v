(** Every writing of a tree parses back to the tree *)
From Verif Require Import Parser SpecSyntax TextProofs LexerProofs ParserBase ParserSound ParserTop ParserFuel FloatLiteral.
Open Scope N_scope.

(** [f] gives [r] with enough fuel *)
Definition ev {A} (f : nat -> pres A) (r : pres A) : Prop := exists n0, forall n, (n0 <= n)%nat -> f n = r.

Lemma ev_S {A} (f : nat -> pres A) r : ev (fun n => f (S n)) r -> ev f r.
Proof. intros [n0 H]. exists (S n0). intros [|n] L; [lia|]. apply H. lia. Qed.
Lemma ev_const {A} (x : pres A) : ev (fun _ => x) x.
Proof. exists 0%nat. auto. Qed.
Lemma ev_bind {A B} (f : nat -> pres A) a ts (g : nat -> A -> toks -> pres B) r :
  ev f (POk a ts) -> ev (fun n => g n a ts) r -> ev (fun n => pbind (f n) (g n)) r.
Proof.
  intros [n0 H] [n1 H']. exists (Nat.max n0 n1). intros n L. rewrite H by lia. cbn [pbind]. apply H'. lia.
Qed.
Lemma ev_fuel {A B} (f : nat -> pres A) (g : nat -> A -> toks -> pres B) :
  ev f PFuel -> ev (fun n => pbind (f n) (g n)) PFuel.
Proof. intros [n0 H]. exists n0. intros n L. now rewrite H. Qed.
Lemma ev_ext {A} (f g : nat -> pres A) r : (forall n, f n = g n) -> ev g r -> ev f r.
Proof. intros E [n0 H]. exists n0. intros n L. rewrite E. auto. Qed.

Definition eof := Tok KEof [].
(** the last token of [w] *)
Definition lt (w : toks) : token := last w eof.
Lemma lt_snoc u t : lt (u ++ [t]) = t.
Proof. apply last_last. Qed.
Lemma lt_app u v : v <> [] -> lt (u ++ v) = lt v.
Proof.
  intros N. destruct (exists_last N) as (v' & t & ->). now rewrite app_assoc, !lt_snoc.
Qed.
Lemma lt_cons t v : v <> [] -> lt (t :: v) = lt v.
Proof. apply (lt_app [t]). Qed.

Lemma syntax_nonempty b e w : syntax b e w -> w <> [].
Proof. destruct 1; try discriminate; intros E; apply app_eq_nil in E; destruct E; discriminate. Qed.

(** the tokens an expression can start with *)
Definition starts (k : kind) : bool :=
  match k with
  | KIdent | KInteger | KFloat | KTrue | KFalse | KString | KLet | KNot | KSub | KLp | KIf | KLs | KLb => true
  | _ => false
  end.
Lemma syntax_starts b e w : syntax b e w -> exists t r, w = t :: r /\ starts (tkind t) = true.
Proof.
  induction 1; try (eexists _, _; split; [reflexivity|reflexivity]).
  - destruct IHsyntax1 as (t & r & -> & K). eexists _, _. split; [reflexivity|auto].
  - destruct IHsyntax as (t & r & -> & K). eexists _, _. split; [reflexivity|auto].
  - eexists _, _. split; [reflexivity|]. destruct H as [-> | ->]; reflexivity.
  - destruct IHsyntax1 as (t' & r' & -> & K). eexists _, _. split; [reflexivity|auto].
Qed.

Lemma next_syntax b e w t rest : syntax b e w -> next (t :: w ++ rest) = w ++ rest.
Proof. intros S. apply syntax_nonempty in S. destruct w; [congruence|reflexivity]. Qed.
Lemma peek_syntax b e w t rest k : syntax b e w -> starts k = false -> peek_is k (t :: w ++ rest) = false.
Proof.
  intros S K. destruct (syntax_starts _ _ _ S) as (x & r & -> & St). unfold peek_is. simpl. apply kind_eqb_neq. congruence.
Qed.

(** what may follow *)
Definition follow (q : N) (rest : toks) : Prop :=
  match rest with [] => True | t :: _ => precedence (tkind t) <= q /\ tkind t <> KElse end.
Lemma follow_weak q q' rest : q <= q' -> follow q rest -> follow q' rest.
Proof. destruct rest; simpl; auto. intros ? [? ?]; split; [lia|auto]. Qed.

Lemma follow_prec q t rest : follow q rest -> peek_precedence (t :: rest) <= q.
Proof. unfold peek_precedence. destruct rest; simpl; [lia|tauto]. Qed.
Lemma follow_else q t rest : follow q rest -> peek_is KElse (t :: rest) = false.
Proof. unfold peek_is. destruct rest; simpl; auto. intros [_ H]. apply kind_eqb_neq. congruence. Qed.

Lemma loop_stop p e t rest q : q <= p -> follow q rest -> ev (fun n => parse_loop n p e (t :: rest)) (POk e (t :: rest)).
Proof.
  intros L F. apply ev_S. cbn [parse_loop]. apply (follow_prec _ t) in F.
  replace (p <? peek_precedence (t :: rest)) with false by (symmetry; apply N.ltb_ge; lia).
  rewrite andb_false_r. apply ev_const.
Qed.

Lemma expect_at k t x r : tkind x = k -> expect k (t :: x :: r) = POk tt (x :: r).
Proof. intros <-. unfold expect. simpl. now rewrite kind_eqb_refl. Qed.
Lemma peek_is_at k t x r : tkind x = k -> peek_is k (t :: x :: r) = true.
Proof. intros <-. unfold peek_is. simpl. now rewrite kind_eqb_refl. Qed.
Lemma peek_is_not k t x r : tkind x <> k -> peek_is k (t :: x :: r) = false.
Proof. intros E. unfold peek_is. simpl. apply kind_eqb_neq. congruence. Qed.

(** One turn of the operator loop *)
Lemma loop_step p e t x r (R : pres expr) :
  p < precedence (tkind x) ->
  ev (fun n => if is_binop (tkind x) then
              pbind (parse_binary n e (x :: r)) (fun e ts => parse_loop n p e ts)
            else
              match tkind x with
              | KLp => pbind (parse_call n e (x :: r)) (fun e ts => parse_loop n p e ts)
              | KLs => pbind (parse_index n e (x :: r)) (fun e ts => parse_loop n p e ts)
              | KDot => pbind (parse_field e (x :: r)) (fun e ts => parse_loop n p e ts)
              | _ => parse_loop n p e (t :: x :: r)
              end) R ->
  ev (fun n => parse_loop n p e (t :: x :: r)) R.
Proof.
  intros L H. apply ev_S. cbn [parse_loop].
  assert (S : peek_is KSemi (t :: x :: r) = false).
  { apply peek_is_not. intros E. rewrite E in L. cbn in L. lia. }
  rewrite S. change (peek_precedence (t :: x :: r)) with (precedence (tkind x)).
  replace (p <? precedence (tkind x)) with true by (symmetry; apply N.ltb_lt; auto). exact H.
Qed.

Definition wellformed e := no_let_operand e /\ prec_ok e.

(** [e], written [w], is read at precedence [p] and the loop goes on *)
Definition reach e w : Prop := wellformed e ->
  (~ is_let e -> forall p rest R, p <= 11 -> above p e -> follow (lvl e) rest ->
     ev (fun n => parse_loop n p e (lt w :: rest)) R -> ev (fun n => parse_expr n p (w ++ rest)) R) /\
  (forall t rest, tkind t <> KSemi ->
     (follow 0 (t :: rest) -> ev (fun n => parse_expr n 0 (w ++ t :: rest)) (POk e (lt w :: t :: rest))) /\
     exists ts, ev (fun n => parse_expr n 0 (w ++ op KSemi ";" :: t :: rest)) (POk e ts) /\
       skip_semi ts = op KSemi ";" :: t :: rest).

Definition reach_list es w : Prop := Forall wellformed es ->
  forall stop t0 st rest, tkind st = stop -> stop = KRp \/ stop = KRs ->
  ev (fun n => parse_list_loop n stop (t0 :: w ++ st :: rest)) (POk es (lt (t0 :: w) :: st :: rest)).
Definition reach_pairs ps w : Prop := Forall (fun kv => wellformed (fst kv) /\ wellformed (snd kv)) ps ->
  forall t0 rest,
  ev (fun n => parse_map_loop n (t0 :: w ++ op KRb "}" :: rest)) (POk ps (lt (t0 :: w) :: op KRb "}" :: rest)).
Definition reach_block es w : Prop := Forall wellformed es ->
  forall t0 rest,
  ev (fun n => parse_block_loop n (t0 :: w ++ op KRb "}" :: rest)) (POk es (lt (t0 :: w) :: op KRb "}" :: rest)).

Lemma skip_not t0 t rest : tkind t <> KSemi -> skip_semi (t0 :: t :: rest) = t0 :: t :: rest.
Proof. intros K. unfold skip_semi. now rewrite peek_is_not. Qed.
Lemma skip_at t0 t rest : tkind t = KSemi -> skip_semi (t0 :: t :: rest) = t :: rest.
Proof. intros K. unfold skip_semi. now rewrite peek_is_at. Qed.

(** the second half of [reach] follows from the first when [e] is not a [let] *)
Lemma reach_of e w : (wellformed e -> ~ is_let e) -> (forall t a b, e = EBin t a b -> binary (tkind t)) ->
  (wellformed e -> forall p rest R, p <= 11 -> above p e -> follow (lvl e) rest ->
     ev (fun n => parse_loop n p e (lt w :: rest)) R -> ev (fun n => parse_expr n p (w ++ rest)) R) -> reach e w.
Proof.
  intros NL B H W. split; [intros _; now apply H|].
  assert (G : forall rest, follow 0 rest -> ev (fun n => parse_expr n 0 (w ++ rest)) (POk e (lt w :: rest))).
  { intros rest F. apply H; auto; [lia| | |].
    - intros t a b E. apply B in E. apply binary_iff, binop_range in E. lia.
    - eapply follow_weak; [|exact F]. lia.
    - eapply loop_stop; [|exact F]. lia. }
  intros t rest K. split; [intros F; apply (G (t :: rest)); auto|].
  eexists. split; [apply (G (op KSemi ";" :: t :: rest)); simpl; split; [lia|discriminate]|].
  now apply skip_at.
Qed.

Ltac notlet := let X := fresh in intros _ X; exact X.
Ltac notbin := let X := fresh in intros ? ? ? X; discriminate X.
Ltac prim := apply reach_of; [notlet|notbin|]; intros W p rest R Lp Ab F H.

Lemma wf_sub e : wellformed e ->
  match e with
  | EArr es | ECall _ es => Forall wellformed es
  | EMap ps => Forall (fun kv => wellformed (fst kv) /\ wellformed (snd kv)) ps
  | EIndex e i => wellformed e /\ wellformed i /\ ~ is_let e /\ ~ is_unary e /\ ~ is_binary e
  | EField e _ => wellformed e /\ ~ is_let e /\ ~ is_unary e /\ ~ is_binary e
  | ELet _ v => wellformed v
  | EParen v => wellformed v
  | EUn _ v => wellformed v /\ ~ is_let v /\ ~ is_binary v
  | EBin t l r => wellformed l /\ wellformed r /\ ~ is_let l /\ ~ is_let r /\
      (forall t' a b, l = EBin t' a b -> ~ looser (tkind t') (tkind t)) /\
      (forall t' a b, r = EBin t' a b -> looser (tkind t) (tkind t'))
  | EIf c cs alt => wellformed c /\ Forall wellformed cs /\ Forall wellformed alt
  | _ => True
  end.
Proof.
  assert (Z : forall l, Forall no_let_operand l -> Forall prec_ok l -> Forall wellformed l).
  { intros l A B. rewrite Forall_forall in *. split; auto. }
  intros [A B]. apply everywhere_eq in A, B. unfold wellformed, no_let_operand, prec_ok.
  destruct e; simpl in A, B; try tauto.
  - apply Z; tauto.
  - destruct A as [_ A], B as [_ B]. rewrite Forall_forall in *. intros kv I. specialize (A _ I). specialize (B _ I). simpl in *. tauto.
  - split; [tauto|]. split; apply Z; tauto.
  - apply Z; tauto.
Qed.

Lemma lvl_other e : ~ is_unary e -> ~ is_binary e -> lvl e = 13.
Proof. destruct e; simpl; tauto. Qed.
Lemma above_other p e : ~ is_binary e -> above p e.
Proof. intros N t a b ->. destruct N. exact I. Qed.

Ltac evbind := eapply ev_bind; [|].
Ltac evS := apply ev_S.

Lemma expr_list es w stop st rest t0 : tkind st = stop -> stop = KRp \/ stop = KRs -> reach_list es w -> Forall wellformed es ->
  ev (fun n => parse_list n stop (t0 :: w ++ st :: rest)) (POk es (st :: rest)).
Proof.
  intros K O H W. evS. cbn [parse_list]. eapply ev_bind; [apply H; auto|].
  rewrite (expect_at stop) by auto. apply ev_const.
Qed.

Lemma expr_block es w t0 rest : reach_block es w -> Forall wellformed es ->
  ev (fun n => parse_block n (t0 :: op KLb "{" :: w ++ op KRb "}" :: rest)) (POk es (op KRb "}" :: rest)).
Proof.
  intros H W. evS. cbn [parse_block]. rewrite (expect_at KLb) by auto. cbn [pbind].
  eapply ev_bind; [apply H; auto|]. rewrite (expect_at KRb) by auto. apply ev_const.
Qed.

Lemma next_at t x r : next (t :: x :: r) = x :: r.
Proof. reflexivity. Qed.

Lemma inner e w t rest : reach e w -> wellformed e -> tkind t <> KSemi -> follow 0 (t :: rest) ->
  ev (fun n => parse_expr n 0 (w ++ t :: rest)) (POk e (lt w :: t :: rest)).
Proof. intros H W K F. destruct (H W) as [_ G]. now apply G. Qed.

Ltac closer := first [discriminate | split; [cbn; lia|discriminate]].

Ltac nostart := solve [reflexivity | match goal with O : _ \/ _ |- _ => destruct O as [O|O]; rewrite O; reflexivity end].

Lemma complete :
  (forall e w, syntax true e w -> reach e w) /\
  (forall es w, syntax_list true es w -> reach_list es w) /\
  (forall ps w, syntax_pairs true ps w -> reach_pairs ps w) /\
  (forall es w, syntax_block true es w -> reach_block es w).
Proof.
  apply (syntax_all true (fun e w _ => reach e w) (fun es w _ => reach_list es w)
           (fun ps w _ => reach_pairs ps w) (fun es w _ => reach_block es w)).
  - (* int *) intros l N D B. prim. evS. cbn [parse_expr app current tkind tlit]. cbn [lt last] in H.
    unfold parse_integer_literal. cbn [current tlit]. rewrite (digits_val_decimal _ D).
    replace (Z.of_N (decimal l) <=? i64_max)%Z with true by (symmetry; apply Z.leb_le; unfold i64_max; lia). exact H.
  - (* float *) intros l f E. prim. evS. cbn [parse_expr app current tkind tlit]. cbn [lt last] in H.
    unfold parse_float_literal. cbn [current tlit]. apply parse_f64_iff in E. rewrite E. exact H.
  - prim. evS. exact H.
  - prim. evS. exact H.
  - intros s. prim. evS. exact H.
  - intros n. prim. evS. exact H.
  - (* array *) intros es w S IH. prim. apply wf_sub in W. evS. cbn [app]. cbn [parse_expr app current tkind op].
    eapply ev_bind; [|rewrite lt_cons, lt_snoc in H by (destruct w; discriminate); exact H].
    evS. cbn [parse_array]. rewrite <- app_assoc. eapply ev_bind; [apply (expr_list es w KRs); auto|]. apply ev_const.
  - (* map *) intros ps w S IH. prim. apply wf_sub in W. evS. cbn [app]. cbn [parse_expr app current tkind op].
    eapply ev_bind; [|rewrite lt_cons, lt_snoc in H by (destruct w; discriminate); exact H].
    evS. cbn [parse_map]. rewrite <- app_assoc. eapply ev_bind; [apply IH; auto|].
    cbn [app]. rewrite (expect_at KRb) by auto. apply ev_const.
  - (* index *) intros e w i wi S IH Si IHi. prim. apply wf_sub in W. destruct W as (We & Wi & N1 & N2 & N3).
    rewrite <- app_assoc. destruct (IH We) as [G _].
    apply (G N1); auto using above_other; [rewrite lvl_other by auto; closer|].
    cbn [app]. apply loop_step; [cbn; lia|]. cbn [is_binop tkind op].
    rewrite lt_app, lt_cons, lt_snoc in H by (try destruct wi; discriminate).
    eapply ev_bind; [|exact H]. evS. cbn [parse_index]. rewrite <- app_assoc. cbn [app].
    rewrite (next_syntax _ _ _ _ _ Si).
    eapply ev_bind; [apply (inner _ _ _ _ IHi); auto; closer|]. rewrite (expect_at KRs) by auto. apply ev_const.
  - (* field *) intros e w f S IH. prim. apply wf_sub in W. destruct W as (We & N1 & N2 & N3).
    rewrite <- app_assoc. destruct (IH We) as [G _].
    apply (G N1); auto using above_other; [rewrite lvl_other by auto; closer|].
    cbn [app]. apply loop_step; [cbn; lia|]. cbn [is_binop tkind op].
    rewrite lt_app in H by discriminate. exact H.
  - (* let *) intros n v w S IH W. split; [intros X; destruct X; exact I|].
    apply wf_sub in W.
    assert (G : forall rest, let ts := op KLet "let" :: Tok KIdent n :: op KAssign "=" :: w ++ rest in
      forall ts', ev (fun n => parse_expr n 0 (w ++ rest)) (POk v ts') ->
      ev (fun n => parse_expr n 0 ts) (POk (ELet n v) (skip_semi ts'))).
    { intros rest ts ts' Hv. evS. unfold ts. cbn [parse_expr current tkind op].
      eapply ev_bind.
      - evS. cbn [parse_let]. rewrite (expect_at KIdent) by auto. cbn [pbind]. cbv zeta. rewrite (expect_at KAssign) by auto. cbn [pbind].
        rewrite (next_syntax _ _ _ _ _ S).
        eapply ev_bind; [exact Hv|]. apply ev_const.
      - evS. cbn [parse_loop]. replace (prec_max <? peek_precedence (skip_semi ts')) with false
          by (symmetry; apply N.ltb_ge; pose proof (peek_precedence_range (skip_semi ts')); unfold prec_max; lia).
        rewrite andb_false_r. apply ev_const. }
    intros t rest K. destruct (IH W) as [_ IH']. destruct (IH' t rest K) as (H1 & ts & H2 & H3). split.
    + intros F. cbn [app]. pose proof (G (t :: rest) _ (H1 F)) as H. rewrite !lt_cons by (try discriminate; eauto using syntax_nonempty).
      rewrite skip_not in H by auto. exact H.
    + cbn [app]. eexists. split; [apply (G (op KSemi ";" :: t :: rest) _ H2)|].
      rewrite H3. now apply skip_not.
  - discriminate.
  - (* unary *) intros t e w U S IH. prim. apply wf_sub in W. destruct W as (We & N1 & N2).
    evS. cbn [app]. cbn [parse_expr current].
    assert (Hn : syntax true e w) by auto. apply syntax_nonempty in Hn. rewrite lt_cons in H by auto.
    assert (X : ev (fun n => parse_unary n (t :: w ++ rest)) (POk (EUn t e) (lt w :: rest))).
    { evS. cbn [parse_unary current]. cbv zeta.
      assert (P : precedence (tkind t) + (if kind_eqb (tkind t) KSub then 2 else 0) = 11) by (destruct U as [-> | ->]; reflexivity).
      rewrite P. rewrite (next_syntax _ _ _ _ _ S).
      destruct (IH We) as [G _]. eapply ev_bind; [|apply ev_const].
      apply (G N1 11 rest); [lia|now apply above_other| |eapply loop_stop; [|exact F]; cbn; lia].
      eapply follow_weak; [|exact F]. destruct e; cbn [lvl]; try lia; exfalso; apply N2; exact I. }
    destruct U as [-> | ->]; (eapply ev_bind; [exact X|exact H]).
  - (* binary *) intros t l wl r wr B Sl IHl Sr IHr. apply reach_of; [notlet|intros ? ? ? [= <- _ _]; auto|].
    intros W p rest R Lp Ab F H. apply wf_sub in W. destruct W as (Wl & Wr & Nl & Nr & Pl & Pr).
    specialize (Ab _ _ _ eq_refl). cbn [lvl] in F. apply binary_iff in B. pose proof (binop_range _ B) as Rg.
    destruct (IHl Wl) as [Gl _]. destruct (IHr Wr) as [Gr _].
    rewrite lt_app, lt_cons in H by (try discriminate; eauto using syntax_nonempty).
    rewrite <- app_assoc. cbn [app]. apply (Gl Nl); auto.
    + intros t' a b E. specialize (Pl _ _ _ E). subst l. inversion Sl; subst.
      match goal with X : binary (tkind t') |- _ => apply binary_iff in X end.
      rewrite looser_iff in Pl. assert (~ precedence (tkind t') < precedence (tkind t)) by tauto. lia.
    + split; [|intros E; rewrite E in B; discriminate].
      destruct l; cbn [lvl]; try lia. specialize (Pl _ _ _ eq_refl). inversion Sl; subst.
      match goal with X : binary (tkind t0) |- _ => apply binary_iff in X end.
      rewrite looser_iff in Pl. assert (~ precedence (tkind t0) < precedence (tkind t)) by tauto. lia.
    + apply loop_step; auto. rewrite B. eapply ev_bind; [|exact H].
      evS. cbn [parse_binary current]. cbv zeta.
      rewrite (next_syntax _ _ _ _ _ Sr).
      eapply ev_bind; [|apply ev_const].
      apply (Gr Nr (precedence (tkind t)) rest); [lia| | |eapply loop_stop; [|exact F]; lia].
      * intros t' a b E'. specialize (Pr _ _ _ E'). apply looser_iff in Pr. tauto.
      * eapply follow_weak; [|exact F]. destruct r; cbn [lvl]; try lia.
        specialize (Pr _ _ _ eq_refl). apply looser_iff in Pr. lia.
  - (* paren *) intros e w S IH. prim. apply wf_sub in W. evS. cbn [app]. cbn [parse_expr current tkind op].
    rewrite lt_cons, lt_snoc in H by (destruct w; discriminate).
    eapply ev_bind; [|exact H]. evS. cbn [parse_paren]. rewrite <- app_assoc. cbn [app].
    rewrite (next_syntax _ _ _ _ _ S).
    eapply ev_bind; [apply (inner _ _ _ _ IH); auto; closer|]. rewrite (expect_at KRp) by auto. apply ev_const.
  - (* if *) intros c wc cs wcs Sc IHc Ss IHs. prim. apply wf_sub in W. destruct W as (Wc & Ws & _).
    evS. cbn [app]. cbn [parse_expr current tkind op].
    assert (E1 : lt (op KIf "if" :: op KLp "(" :: wc ++ op KRp ")" :: op KLb "{" :: wcs ++ [op KRb "}"]) = op KRb "}").
    { change (lt ((op KIf "if" :: op KLp "(" :: wc) ++ (op KRp ")" :: op KLb "{" :: wcs) ++ [op KRb "}"]) = op KRb "}").
      now rewrite app_assoc, lt_snoc. }
    rewrite E1 in H. eapply ev_bind; [|exact H]. evS. cbn [parse_if]. rewrite (expect_at KLp) by auto. cbn [pbind].
    rewrite <- app_assoc. cbn [app].
    rewrite (next_syntax _ _ _ _ _ Sc).
    eapply ev_bind; [apply (inner _ _ _ _ IHc); auto; closer|]. rewrite (expect_at KRp) by auto. cbn [pbind].
    rewrite <- app_assoc. cbn [app]. eapply ev_bind; [apply (expr_block cs wcs); auto|]. cbv beta.
    rewrite (follow_else _ _ _ F). apply ev_const.
  - (* if else *) intros c wc cs wcs alt walt Sc IHc Ss IHs Sa IHa. prim. apply wf_sub in W. destruct W as (Wc & Ws & Wa).
    evS. cbn [app]. cbn [parse_expr current tkind op].
    assert (E1 : lt (op KIf "if" :: op KLp "(" :: wc ++ op KRp ")" :: op KLb "{" :: wcs ++
       op KRb "}" :: op KElse "else" :: op KLb "{" :: walt ++ [op KRb "}"]) = op KRb "}").
    { change (lt ((op KIf "if" :: op KLp "(" :: wc) ++ (op KRp ")" :: op KLb "{" :: wcs) ++
       (op KRb "}" :: op KElse "else" :: op KLb "{" :: walt) ++ [op KRb "}"]) = op KRb "}").
      now rewrite !app_assoc, lt_snoc. }
    rewrite E1 in H. eapply ev_bind; [|exact H]. evS. cbn [parse_if]. rewrite (expect_at KLp) by auto. cbn [pbind].
    rewrite <- app_assoc. cbn [app].
    rewrite (next_syntax _ _ _ _ _ Sc).
    eapply ev_bind; [apply (inner _ _ _ _ IHc); auto; closer|]. rewrite (expect_at KRp) by auto. cbn [pbind].
    rewrite <- app_assoc. cbn [app]. eapply ev_bind; [apply (expr_block cs wcs); auto|]. cbv beta.
    rewrite (peek_is_at KElse) by auto. rewrite next_at. rewrite <- app_assoc. cbn [app].
    eapply ev_bind; [apply (expr_block alt walt); auto|]. apply ev_const.
  - (* call *) intros n es w S IH. prim. apply wf_sub in W. evS. cbn [app]. cbn [parse_expr current tkind tlit].
    rewrite !lt_cons, lt_snoc in H by (destruct w; discriminate).
    apply loop_step; [cbn; lia|]. cbn [is_binop tkind op]. eapply ev_bind; [|exact H].
    evS. cbn [parse_call]. rewrite <- app_assoc. cbn [app]. eapply ev_bind; [apply (expr_list es w KRp); auto|]. apply ev_const.
  - (* lists *) intros W stop t0 st rest K O. evS. cbn [app parse_list_loop]. rewrite (peek_is_at stop) by auto. apply ev_const.
  - intros e w S IH W stop t0 st rest K O. inversion W; subst. evS. cbn [parse_list_loop].
    pose proof (syntax_nonempty _ _ _ S) as N. rewrite lt_cons by auto.
    rewrite (peek_syntax _ _ _ _ _ _ S) by nostart. rewrite (next_syntax _ _ _ _ _ S). eapply ev_bind.
    + apply (inner _ _ _ _ IH); auto; destruct O as [X|X]; simpl; rewrite X; closer.
    + cbv beta. rewrite (peek_is_at (tkind st)) by auto.
      eapply ev_bind; [|apply ev_const]. evS. cbn [parse_list_loop]. rewrite (peek_is_at (tkind st)) by auto. apply ev_const.
  - intros e w es w' S IH Sl IHl W stop t0 st rest K O. inversion W; subst. evS. cbn [parse_list_loop].
    pose proof (syntax_nonempty _ _ _ S) as N. rewrite lt_cons, lt_app by (try discriminate; destruct w; discriminate).
    rewrite <- app_assoc. cbn [app].
    rewrite (peek_syntax _ _ _ _ _ _ S) by nostart. rewrite (next_syntax _ _ _ _ _ S).
    eapply ev_bind; [apply (inner _ _ _ _ IH); auto; closer|]. cbv beta.
    rewrite peek_is_not by (destruct O as [X|X]; rewrite X; discriminate).
    rewrite (expect_at KComma) by auto. cbn [pbind]. eapply ev_bind; [apply IHl; auto|]. apply ev_const.
  - (* maps *) intros W t0 rest. evS. cbn [app parse_map_loop]. rewrite (peek_is_at KRb) by auto. apply ev_const.
  - intros k wk v wv Sk IHk Sv IHv W t0 rest. inversion W as [|? ? [W1 W2] _]; subst. cbn [fst snd] in *. evS. cbn [parse_map_loop].
    pose proof (syntax_nonempty _ _ _ Sk) as Nk. pose proof (syntax_nonempty _ _ _ Sv) as Nv.
    rewrite lt_cons, lt_app, lt_cons by (try discriminate; auto; destruct wk; discriminate).
    rewrite <- app_assoc. cbn [app].
    rewrite (peek_syntax _ _ _ _ _ _ Sk) by nostart. rewrite (next_syntax _ _ _ _ _ Sk).
    eapply ev_bind; [apply (inner _ _ _ _ IHk); auto; closer|]. rewrite (expect_at KColon) by auto. cbn [pbind].
    rewrite (next_syntax _ _ _ _ _ Sv).
    eapply ev_bind; [apply (inner _ _ _ _ IHv); auto; closer|]. cbv beta. rewrite (peek_is_at KRb) by auto.
    eapply ev_bind; [|apply ev_const]. evS. cbn [parse_map_loop]. rewrite (peek_is_at KRb) by auto. apply ev_const.
  - intros k wk v wv ps w' Sk IHk Sv IHv Sp IHp W t0 rest. inversion W as [|? ? [W1 W2] W3]; subst. cbn [fst snd] in *. evS. cbn [parse_map_loop].
    pose proof (syntax_nonempty _ _ _ Sk) as Nk. pose proof (syntax_nonempty _ _ _ Sv) as Nv.
    rewrite lt_cons, lt_app, lt_cons, lt_app by (try discriminate; auto; try (destruct wk; discriminate); destruct wv; discriminate).
    rewrite <- app_assoc. cbn [app]. rewrite <- app_assoc. cbn [app].
    rewrite (peek_syntax _ _ _ _ _ _ Sk) by nostart. rewrite (next_syntax _ _ _ _ _ Sk).
    eapply ev_bind; [apply (inner _ _ _ _ IHk); auto; closer|]. rewrite (expect_at KColon) by auto. cbn [pbind].
    rewrite (next_syntax _ _ _ _ _ Sv).
    eapply ev_bind; [apply (inner _ _ _ _ IHv); auto; closer|]. cbv beta. rewrite peek_is_not by discriminate.
    rewrite (expect_at KComma) by auto. cbn [pbind]. eapply ev_bind; [apply IHp; auto|]. apply ev_const.
  - (* blocks *) intros W t0 rest. evS. cbn [app parse_block_loop]. rewrite (peek_is_at KRb) by auto. apply ev_const.
  - intros e w S IH W t0 rest. inversion W; subst. evS. cbn [parse_block_loop].
    pose proof (syntax_nonempty _ _ _ S) as N. rewrite lt_cons by auto.
    rewrite (peek_syntax _ _ _ _ _ _ S) by nostart. rewrite (next_syntax _ _ _ _ _ S).
    eapply ev_bind; [apply (inner _ _ _ _ IH); auto; closer|]. cbv beta. rewrite skip_not by discriminate.
    eapply ev_bind; [|apply ev_const]. evS. cbn [parse_block_loop]. rewrite (peek_is_at KRb) by auto. apply ev_const.
  - intros e w es w' S IH Ss IHs W t0 rest. inversion W; subst. evS. cbn [parse_block_loop].
    pose proof (syntax_nonempty _ _ _ S) as N. rewrite lt_cons, lt_app by (try discriminate; destruct w; discriminate).
    rewrite <- app_assoc. cbn [app].
    assert (Y : exists t' rest', w' ++ op KRb "}" :: rest = t' :: rest' /\ tkind t' <> KSemi).
    { inversion Ss as [|e0 w0 Hx|e0 w0 es0 w1 Hx|]; subst; [eexists _, _; split; [reflexivity|discriminate]| | |discriminate];
        destruct (syntax_starts _ _ _ Hx) as (y & r & -> & Sy); eexists _, _; (split; [reflexivity|]);
        intros Z; rewrite Z in Sy; discriminate. }
    destruct Y as (t' & rest' & Y & K). specialize (IHs H2 (op KSemi ";") rest). rewrite Y in *.
    destruct (IH H1) as [_ G]. destruct (G t' rest' K) as (_ & ts & G1 & G2).
    rewrite (peek_syntax _ _ _ _ _ _ S) by nostart. rewrite (next_syntax _ _ _ _ _ S).
    eapply ev_bind; [exact G1|]. cbv beta. rewrite G2. eapply ev_bind; [exact IHs|]. apply ev_const.
  - discriminate.
Qed.
