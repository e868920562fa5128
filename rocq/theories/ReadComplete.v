(** Everything SpecReading.v describes is accepted, and read in that way only *)
From Verif Require Import Parser SpecReading TextProofs LexerProofs ParserBase ParserSound ParserTop ParserFuel ParserComplete ParserProgram ReadSound FloatLiteral.
Open Scope N_scope.

Lemma reads_syntax :
  (forall k e w, reads k e w -> syntax false e w) /\
  (forall stop es w, reads_list stop es w -> syntax_list false es w) /\
  (forall ps w, reads_pairs ps w -> syntax_pairs false ps w) /\
  (forall es w, reads_block es w -> syntax_block false es w).
Proof.
  apply (reads_all (fun k e w _ => syntax false e w) (fun stop es w _ => syntax_list false es w)
           (fun ps w _ => syntax_pairs false ps w) (fun es w _ => syntax_block false es w)); intros; subst; try (constructor; auto; fail).
Qed.
Lemma reads_sx k e w : reads k e w -> syntax false e w.
Proof. apply reads_syntax. Qed.
Lemma reads_nonempty k e w : reads k e w -> w <> [].
Proof. intros R. eapply syntax_nonempty, reads_sx; eauto. Qed.

(** [e], written [w] and followed by a token of kind [k], is read at precedence [p] *)
Definition arrive k e w : Prop :=
  (~ is_let e -> forall p x rest R, tkind x = k -> p <= 11 -> high p e -> open k e ->
     ev (fun n => parse_loop n p e (lt w :: x :: rest)) R -> ev (fun n => parse_expr n p (w ++ x :: rest)) R) /\
  (is_let e -> forall p x rest, tkind x = k -> ev (fun n => parse_expr n p (w ++ x :: rest)) (POk e (lt w :: x :: rest))).

Definition arrive_list stop es w : Prop := stop = KRp \/ stop = KRs ->
  forall t0 st rest, tkind st = stop ->
  ev (fun n => parse_list_loop n stop (t0 :: w ++ st :: rest)) (POk es (lt (t0 :: w) :: st :: rest)).
Definition arrive_pairs ps w : Prop := forall t0 rest,
  ev (fun n => parse_map_loop n (t0 :: w ++ op KRb "}" :: rest)) (POk ps (lt (t0 :: w) :: op KRb "}" :: rest)).
Definition arrive_block es w : Prop := forall t0 rest,
  ev (fun n => parse_block_loop n (t0 :: w ++ op KRb "}" :: rest)) (POk es (lt (t0 :: w) :: op KRb "}" :: rest)).

Lemma stops p e t x rest : precedence (tkind x) <= p ->
  ev (fun n => parse_loop n p e (t :: x :: rest)) (POk e (t :: x :: rest)).
Proof.
  intros L. apply ev_S. cbn [parse_loop]. rewrite pk_prec. unfold pk. cbn [tl first].
  replace (p <? precedence (tkind x)) with false by (symmetry; apply N.ltb_ge; lia).
  rewrite andb_false_r. apply ev_const.
Qed.

Lemma let_or_not e : is_let e \/ ~ is_let e.
Proof. destruct e; cbn; auto. Qed.

(** a whole expression *)
Lemma whole k e w x rest : arrive k e w -> reads k e w -> over k e -> tkind x = k ->
  ev (fun n => parse_expr n 0 (w ++ x :: rest)) (POk e (lt w :: x :: rest)).
Proof.
  intros [A B] R O <-. destruct (let_or_not e) as [D|D]; [now apply B|].
  assert (Z : precedence (tkind x) <= 0).
  { destruct (N.lt_ge_cases 0 (precedence (tkind x))) as [C|C]; [|lia]. apply carries_prec in C. destruct (D (O C)). }
  apply A; auto; [lia| | |now apply stops].
  - intros t I. apply (edge_binary _ _ _ R) in I. apply binary_iff, binop_range in I. lia.
  - destruct e; cbn; auto; right; lia.
Qed.

Lemma over_zero k e : precedence k = 0 -> over k e.
Proof. intros P C. apply carries_prec in C. lia. Qed.

(** an expression inside brackets *)
Lemma bracketed k e w x rest : arrive k e w -> reads k e w -> tkind x = k -> precedence k = 0 ->
  ev (fun n => parse_expr n 0 (w ++ x :: rest)) (POk e (lt w :: x :: rest)).
Proof. intros A R E P. apply (whole k); auto. now apply over_zero. Qed.

(** an operand *)
Lemma operand k e w x rest p : arrive k e w -> p <= 11 -> high p e -> open k e -> is_let e \/ precedence k <= p ->
  tkind x = k -> ev (fun n => parse_expr n p (w ++ x :: rest)) (POk e (lt w :: x :: rest)).
Proof.
  intros [A B] L H O D <-. destruct (let_or_not e) as [X|X]; [now apply B|]. destruct D as [D|D]; [contradiction|].
  apply A; auto. now apply stops.
Qed.

Lemma arrive_of k e w : ~ is_let e ->
  (forall p x rest R, tkind x = k -> p <= 11 -> high p e -> open k e ->
     ev (fun n => parse_loop n p e (lt w :: x :: rest)) R -> ev (fun n => parse_expr n p (w ++ x :: rest)) R) ->
  arrive k e w.
Proof. intros NL H. split; [auto|contradiction]. Qed.

Lemma list_arrives es w stop st rest t0 : tkind st = stop -> stop = KRp \/ stop = KRs -> arrive_list stop es w ->
  ev (fun n => parse_list n stop (t0 :: w ++ st :: rest)) (POk es (st :: rest)).
Proof.
  intros K O H. evS. cbn [parse_list]. eapply ev_bind; [apply H; auto|].
  rewrite (expect_at stop) by auto. apply ev_const.
Qed.

Lemma block_arrives es w t0 rest : arrive_block es w ->
  ev (fun n => parse_block n (t0 :: op KLb "{" :: w ++ op KRb "}" :: rest)) (POk es (op KRb "}" :: rest)).
Proof.
  intros H. evS. cbn [parse_block]. rewrite (expect_at KLb) by auto. cbn [pbind].
  eapply ev_bind; [apply H; auto|]. rewrite (expect_at KRb) by auto. apply ev_const.
Qed.

Lemma next_reads k e w t rest : reads k e w -> next (t :: w ++ rest) = w ++ rest.
Proof. intros R. eapply next_syntax, reads_sx; eauto. Qed.
Lemma peek_reads k e w t rest k' : reads k e w -> starts k' = false -> peek_is k' (t :: w ++ rest) = false.
Proof. intros R. eapply peek_syntax, reads_sx; eauto. Qed.

Lemma block_first es w : reads_block es w -> starts (first w KRb) = true \/ w = [] /\ es = [].
Proof.
  destruct 1; auto; left; destruct (syntax_starts _ _ _ (reads_sx _ _ _ H)) as (t & r & -> & S); exact S.
Qed.

Lemma block_split es w rest : reads_block es w -> exists x r, w ++ op KRb "}" :: rest = x :: r /\ tkind x = first w KRb /\ tkind x <> KSemi.
Proof.
  intros R. destruct (block_first _ _ R) as [S|[-> ->]].
  - destruct w as [|x r]; [discriminate|]. exists x, (r ++ op KRb "}" :: rest). split; auto. split; auto.
    cbn [first] in S. intros E. rewrite E in S. discriminate.
  - eexists _, _. split; [reflexivity|]. split; [reflexivity|discriminate].
Qed.

Ltac aprim := apply arrive_of; [intros X; exact X|]; intros p x rest R Kx Lp Hi Op H.

Lemma arrives :
  (forall k e w, reads k e w -> arrive k e w) /\
  (forall stop es w, reads_list stop es w -> arrive_list stop es w) /\
  (forall ps w, reads_pairs ps w -> arrive_pairs ps w) /\
  (forall es w, reads_block es w -> arrive_block es w).
Proof.
  apply (reads_all (fun k e w _ => arrive k e w) (fun stop es w _ => arrive_list stop es w)
           (fun ps w _ => arrive_pairs ps w) (fun es w _ => arrive_block es w)).
  - (* int *) intros k l N D B. aprim. evS. cbn [parse_expr app current tkind tlit]. cbn [lt last] in H.
    unfold parse_integer_literal. cbn [current tlit]. rewrite (digits_val_decimal _ D).
    replace (Z.of_N (decimal l) <=? i64_max)%Z with true by (symmetry; apply Z.leb_le; unfold i64_max; lia). exact H.
  - (* float *) intros k l f E. aprim. evS. cbn [parse_expr app current tkind tlit]. cbn [lt last] in H.
    unfold parse_float_literal. cbn [current tlit]. apply parse_f64_iff in E. rewrite E. exact H.
  - intros k. aprim. evS. exact H.
  - intros k. aprim. evS. exact H.
  - intros k s. aprim. evS. exact H.
  - intros k n. aprim. evS. exact H.
  - (* array *) intros k es w S IH. aprim. evS. cbn [app]. cbn [parse_expr app current tkind op].
    eapply ev_bind; [|rewrite lt_cons, lt_snoc in H by (destruct w; discriminate); exact H].
    evS. cbn [parse_array]. rewrite <- app_assoc. eapply ev_bind; [apply (list_arrives es w KRs); auto|]. apply ev_const.
  - (* map *) intros k ps w S IH. aprim. evS. cbn [app]. cbn [parse_expr app current tkind op].
    eapply ev_bind; [|rewrite lt_cons, lt_snoc in H by (destruct w; discriminate); exact H].
    evS. cbn [parse_map]. rewrite <- app_assoc. eapply ev_bind; [apply IH; auto|].
    cbn [app]. rewrite (expect_at KRb) by auto. apply ev_const.
  - (* index *) intros k e w i wi S IH Ap Si IHi. aprim.
    rewrite <- app_assoc. cbn [app]. destruct IH as [G _].
    assert (NL : ~ is_let e) by (destruct e; cbn in *; auto).
    apply (G NL); auto; [destruct e; cbn in *; auto|].
    apply loop_step; [cbn; lia|]. cbn [is_binop tkind op].
    rewrite lt_app, lt_cons, lt_snoc in H by (try destruct wi; discriminate).
    eapply ev_bind; [|exact H]. evS. cbn [parse_index]. rewrite <- app_assoc. cbn [app].
    rewrite (next_reads _ _ _ _ _ Si).
    eapply ev_bind; [apply (bracketed KRs); eauto|]. rewrite (expect_at KRs) by auto. apply ev_const.
  - (* field *) intros k e w f S IH Ap. aprim.
    rewrite <- app_assoc. cbn [app]. destruct IH as [G _].
    assert (NL : ~ is_let e) by (destruct e; cbn in *; auto).
    apply (G NL); auto; [destruct e; cbn in *; auto|].
    apply loop_step; [cbn; lia|]. cbn [is_binop tkind op].
    rewrite lt_app in H by discriminate. exact H.
  - (* let *) intros k n v w S IH O Ns. split; [intros X; destruct X; exact I|]. intros _ p x rest Kx.
    evS. cbn [app parse_expr current tkind op].
    eapply ev_bind.
    + evS. cbn [parse_let]. rewrite (expect_at KIdent) by auto. cbn [pbind]. cbv zeta. rewrite (expect_at KAssign) by auto. cbn [pbind].
      rewrite (next_reads _ _ _ _ _ S). eapply ev_bind; [apply (whole k); eauto|]. rewrite skip_not by congruence. apply ev_const.
    + rewrite !lt_cons by (try discriminate; eapply reads_nonempty; eauto).
      apply stops. pose proof (precedence_range (tkind x)). unfold prec_max. lia.
  - (* let; *) intros k n v w S IH. split; [intros X; destruct X; exact I|]. intros _ p x rest Kx.
    evS. cbn [app parse_expr current tkind op].
    eapply ev_bind.
    + evS. cbn [parse_let]. rewrite (expect_at KIdent) by auto. cbn [pbind]. cbv zeta. rewrite (expect_at KAssign) by auto. cbn [pbind].
      rewrite <- app_assoc. cbn [app]. rewrite (next_reads _ _ _ _ _ S).
      eapply ev_bind; [apply (bracketed KSemi); eauto|]. rewrite skip_at by auto. apply ev_const.
    + rewrite !lt_cons, lt_snoc by (try discriminate; destruct w; discriminate).
      apply stops. pose proof (precedence_range (tkind x)). unfold prec_max. lia.
  - (* unary *) intros k t e w U S IH Ed. aprim.
    evS. cbn [app]. cbn [parse_expr current].
    pose proof (reads_nonempty _ _ _ S) as Hn. rewrite lt_cons in H by auto.
    assert (X : ev (fun n => parse_unary n (t :: w ++ x :: rest)) (POk (EUn t e) (lt w :: x :: rest))).
    { evS. cbn [parse_unary current]. cbv zeta.
      assert (P : precedence (tkind t) + (if kind_eqb (tkind t) KSub then 2 else 0) = 11) by (destruct U as [-> | ->]; reflexivity).
      rewrite P. rewrite (next_reads _ _ _ _ _ S). eapply ev_bind; [|apply ev_const].
      apply (operand k); auto; [lia|intros y I; rewrite Ed in I; destruct I|].
      destruct e; cbn in *; auto; try discriminate. destruct Op; [contradiction|auto]. }
    destruct U as [-> | ->]; (eapply ev_bind; [exact X|exact H]).
  - (* binary *) intros k t l wl r wr B Sl IHl Sr IHr Nl Pl Pr. aprim.
    apply binary_iff in B. pose proof (binop_range _ B) as Rg. destruct IHl as [Gl _].
    rewrite lt_app, lt_cons in H by (try discriminate; eapply reads_nonempty; eauto).
    rewrite <- app_assoc. cbn [app]. apply (Gl Nl); auto.
    + intros t' I. apply Hi. now right.
    + destruct l; cbn [open]; auto; [right; lia|].
      destruct (N.lt_ge_cases (precedence (tkind t0)) (precedence (tkind t))) as [C|C]; [left|right; lia].
      eapply Pl; [reflexivity|]. apply looser_iff. split; [|auto]. inversion Sl; subst. now apply binary_iff.
    + apply loop_step; [apply Hi; now left|]. rewrite B. eapply ev_bind; [|exact H].
      evS. cbn [parse_binary current]. cbv zeta.
      rewrite (next_reads _ _ _ _ _ Sr). eapply ev_bind; [|apply ev_const].
      assert (HiR : high (precedence (tkind t)) r) by (intros t' I; apply Pr in I; apply looser_iff in I; tauto).
      apply (operand k); auto; [lia|].
      destruct r; cbn [open]; auto; destruct Op as [Op|Op]; try contradiction; right; [lia|].
      specialize (HiR t0 (or_introl eq_refl)). lia.
  - (* paren *) intros k e w S IH. aprim. evS. cbn [app]. cbn [parse_expr current tkind op].
    rewrite lt_cons, lt_snoc in H by (destruct w; discriminate).
    eapply ev_bind; [|exact H]. evS. cbn [parse_paren]. rewrite <- app_assoc. cbn [app].
    rewrite (next_reads _ _ _ _ _ S).
    eapply ev_bind; [apply (bracketed KRp); eauto|]. rewrite (expect_at KRp) by auto. apply ev_const.
  - (* if *) intros k c wc cs wcs Sc IHc Ss IHs Ne. aprim.
    evS. cbn [app]. cbn [parse_expr current tkind op].
    assert (E1 : lt (op KIf "if" :: op KLp "(" :: wc ++ op KRp ")" :: op KLb "{" :: wcs ++ [op KRb "}"]) = op KRb "}").
    { change (lt ((op KIf "if" :: op KLp "(" :: wc) ++ (op KRp ")" :: op KLb "{" :: wcs) ++ [op KRb "}"]) = op KRb "}").
      now rewrite app_assoc, lt_snoc. }
    rewrite E1 in H. eapply ev_bind; [|exact H]. evS. cbn [parse_if]. rewrite (expect_at KLp) by auto. cbn [pbind].
    rewrite <- app_assoc. cbn [app].
    rewrite (next_reads _ _ _ _ _ Sc).
    eapply ev_bind; [apply (bracketed KRp); eauto|]. rewrite (expect_at KRp) by auto. cbn [pbind].
    rewrite <- app_assoc. cbn [app]. eapply ev_bind; [apply (block_arrives cs wcs); auto|]. cbv beta.
    rewrite peek_is_not by congruence. apply ev_const.
  - (* if else *) intros k c wc cs wcs alt walt Sc IHc Ss IHs Sa IHa. aprim.
    evS. cbn [app]. cbn [parse_expr current tkind op].
    assert (E1 : lt (op KIf "if" :: op KLp "(" :: wc ++ op KRp ")" :: op KLb "{" :: wcs ++
       op KRb "}" :: op KElse "else" :: op KLb "{" :: walt ++ [op KRb "}"]) = op KRb "}").
    { change (lt ((op KIf "if" :: op KLp "(" :: wc) ++ (op KRp ")" :: op KLb "{" :: wcs) ++
       (op KRb "}" :: op KElse "else" :: op KLb "{" :: walt) ++ [op KRb "}"]) = op KRb "}").
      now rewrite !app_assoc, lt_snoc. }
    rewrite E1 in H. eapply ev_bind; [|exact H]. evS. cbn [parse_if]. rewrite (expect_at KLp) by auto. cbn [pbind].
    rewrite <- app_assoc. cbn [app].
    rewrite (next_reads _ _ _ _ _ Sc).
    eapply ev_bind; [apply (bracketed KRp); eauto|]. rewrite (expect_at KRp) by auto. cbn [pbind].
    rewrite <- app_assoc. cbn [app]. eapply ev_bind; [apply (block_arrives cs wcs); auto|]. cbv beta.
    rewrite (peek_is_at KElse) by auto. rewrite next_at. rewrite <- app_assoc. cbn [app].
    eapply ev_bind; [apply (block_arrives alt walt); auto|]. apply ev_const.
  - (* call *) intros k n es w S IH. aprim. evS. cbn [app]. cbn [parse_expr current tkind tlit].
    rewrite !lt_cons, lt_snoc in H by (destruct w; discriminate).
    apply loop_step; [cbn; lia|]. cbn [is_binop tkind op]. eapply ev_bind; [|exact H].
    evS. cbn [parse_call]. rewrite <- app_assoc. cbn [app]. eapply ev_bind; [apply (list_arrives es w KRp); auto|]. apply ev_const.
  - (* lists *) intros stop O t0 st rest K. evS. cbn [app parse_list_loop]. rewrite (peek_is_at stop) by auto. apply ev_const.
  - intros stop e w S IH O t0 st rest K. evS. cbn [parse_list_loop].
    pose proof (reads_nonempty _ _ _ S) as N. rewrite lt_cons by auto.
    rewrite (peek_reads _ _ _ _ _ _ S) by nostart. rewrite (next_reads _ _ _ _ _ S). eapply ev_bind.
    + apply (bracketed stop); eauto; destruct O as [X|X]; rewrite X; reflexivity.
    + cbv beta. rewrite (peek_is_at stop) by auto.
      eapply ev_bind; [|apply ev_const]. evS. cbn [parse_list_loop]. rewrite (peek_is_at stop) by auto. apply ev_const.
  - intros stop e w es w' S IH Sl IHl O t0 st rest K. evS. cbn [parse_list_loop].
    pose proof (reads_nonempty _ _ _ S) as N. rewrite lt_cons, lt_app by (try discriminate; destruct w; discriminate).
    rewrite <- app_assoc. cbn [app].
    rewrite (peek_reads _ _ _ _ _ _ S) by nostart. rewrite (next_reads _ _ _ _ _ S).
    eapply ev_bind; [apply (bracketed KComma); eauto|]. cbv beta.
    rewrite peek_is_not by (destruct O as [X|X]; rewrite X; discriminate).
    rewrite (expect_at KComma) by auto. cbn [pbind]. eapply ev_bind; [apply IHl; auto|]. apply ev_const.
  - (* maps *) intros t0 rest. evS. cbn [app parse_map_loop]. rewrite (peek_is_at KRb) by auto. apply ev_const.
  - intros k wk v wv Sk IHk Sv IHv t0 rest. evS. cbn [parse_map_loop].
    pose proof (reads_nonempty _ _ _ Sk) as Nk. pose proof (reads_nonempty _ _ _ Sv) as Nv.
    rewrite lt_cons, lt_app, lt_cons by (try discriminate; auto; destruct wk; discriminate).
    rewrite <- app_assoc. cbn [app].
    rewrite (peek_reads _ _ _ _ _ _ Sk) by nostart. rewrite (next_reads _ _ _ _ _ Sk).
    eapply ev_bind; [apply (bracketed KColon); eauto|]. rewrite (expect_at KColon) by auto. cbn [pbind].
    rewrite (next_reads _ _ _ _ _ Sv).
    eapply ev_bind; [apply (bracketed KRb); eauto|]. cbv beta. rewrite (peek_is_at KRb) by auto.
    eapply ev_bind; [|apply ev_const]. evS. cbn [parse_map_loop]. rewrite (peek_is_at KRb) by auto. apply ev_const.
  - intros k wk v wv ps w' Sk IHk Sv IHv Sp IHp t0 rest. evS. cbn [parse_map_loop].
    pose proof (reads_nonempty _ _ _ Sk) as Nk. pose proof (reads_nonempty _ _ _ Sv) as Nv.
    rewrite lt_cons, lt_app, lt_cons, lt_app by (try discriminate; auto; try (destruct wk; discriminate); destruct wv; discriminate).
    rewrite <- app_assoc. cbn [app]. rewrite <- app_assoc. cbn [app].
    rewrite (peek_reads _ _ _ _ _ _ Sk) by nostart. rewrite (next_reads _ _ _ _ _ Sk).
    eapply ev_bind; [apply (bracketed KColon); eauto|]. rewrite (expect_at KColon) by auto. cbn [pbind].
    rewrite (next_reads _ _ _ _ _ Sv).
    eapply ev_bind; [apply (bracketed KComma); eauto|]. cbv beta. rewrite peek_is_not by discriminate.
    rewrite (expect_at KComma) by auto. cbn [pbind]. eapply ev_bind; [apply IHp; auto|]. apply ev_const.
  - (* blocks *) intros t0 rest. evS. cbn [app parse_block_loop]. rewrite (peek_is_at KRb) by auto. apply ev_const.
  - intros e w es w' S IH Ss IHs t0 rest. evS. cbn [parse_block_loop].
    rewrite lt_cons, lt_app by (try discriminate; destruct w; discriminate).
    rewrite <- app_assoc. cbn [app].
    rewrite (peek_reads _ _ _ _ _ _ S) by nostart. rewrite (next_reads _ _ _ _ _ S).
    eapply ev_bind; [apply (bracketed KSemi); eauto|]. cbv beta. rewrite skip_at by auto.
    eapply ev_bind; [apply IHs|]. apply ev_const.
  - intros e w es w' S IH O Ss IHs t0 rest. evS. cbn [parse_block_loop].
    pose proof (reads_nonempty _ _ _ S) as N. rewrite <- app_assoc.
    rewrite (peek_reads _ _ _ _ _ _ S) by nostart. rewrite (next_reads _ _ _ _ _ S).
    destruct (block_split _ _ rest Ss) as (x & r & E & Kx & Ns).
    pose proof (IHs (lt w) rest) as Y. rewrite E in *.
    eapply ev_bind; [apply (whole (first w' KRb)); eauto|]. cbv beta. rewrite skip_not by auto.
    eapply ev_bind; [exact Y|].
    assert (X : lt (t0 :: w ++ w') = lt (lt w :: w')).
    { destruct w' as [|y w']; [rewrite app_nil_r; rewrite lt_cons by auto; reflexivity|].
      rewrite (lt_cons t0), lt_app, (lt_cons (lt w)) by (try discriminate; destruct w; discriminate). reflexivity. }
    rewrite X. apply ev_const.
Qed.


(** Items *)
Definition arrive_item k i w : Prop := forall src x rest R, tkind x = k ->
  ev (fun n => parse_top n (collect src i) (next (skip_semi (lt w :: x :: rest)))) R ->
  ev (fun n => parse_top n src (w ++ x :: rest)) R.

Lemma item_arrives k i w : reads_item k i w -> arrive_item k i w.
Proof.
  intros S src x rest R Kx H. destruct arrives as (Ce & Cl & _ & Cb).
  inversion S as [k0 e w0 Sx O|k0 n m N|k0 n m es w0 Sl|k0 n b w0 Sb]; subst.
  - destruct (syntax_starts _ _ _ (reads_sx _ _ _ Sx)) as (y & r & E & St).
    apply ev_S. pose proof (whole (tkind x) e w x rest (Ce _ _ _ Sx) Sx O eq_refl) as G.
    rewrite E in *. cbn [app] in *. eapply ev_ext; [intros n; apply top_expr; auto|].
    eapply ev_bind; [exact G|]. exact H.
  - cbn [app]. apply ev_S; cbn [parse_top current tkind op]; unfold parse_request; cbv zeta;
      rewrite (expect_at KIdent) by auto; cbn [pbind]; rewrite (expect_at KTemplate) by auto; cbn [pbind].
    rewrite peek_is_not by auto. cbn [pbind]. exact H.
  - cbn [app]. rewrite <- app_assoc. apply ev_S; cbn [parse_top current tkind op]; unfold parse_request; cbv zeta;
      rewrite (expect_at KIdent) by auto; cbn [pbind]; rewrite (expect_at KTemplate) by auto; cbn [pbind].
    rewrite (peek_is_at KLs) by auto; rewrite next_at.
    eapply ev_bind; [eapply ev_bind; [apply (list_arrives es w0 KRs); eauto|apply ev_const]|]. cbv beta iota.
    cbn [app]. rewrite !lt_cons, lt_snoc in H by (try discriminate; destruct w0; discriminate). exact H.
  - cbn [app]. rewrite <- !app_assoc. apply ev_S; cbn [parse_top current tkind op]; unfold parse_test; cbv zeta;
      rewrite (expect_at KIdent) by auto; cbn [pbind].
    eapply ev_bind; [eapply ev_bind; [apply (block_arrives b w0); eauto|apply ev_const]|]. cbv beta iota.
    cbn [app]. rewrite !lt_cons, lt_snoc in H by (try discriminate; destruct w0; discriminate). exact H.
Qed.

Lemma reads_item_sx k i w : reads_item k i w -> syntax_item false i w.
Proof. destruct 1; constructor; try (eapply reads_sx; eauto); eapply reads_syntax; eauto. Qed.

Lemma items_split is w : reads_items is w -> exists x r, w ++ [eof] = x :: r /\ tkind x = first w KEof /\ tkind x <> KSemi.
Proof.
  destruct 1.
  - eexists _, _. split; [reflexivity|]. split; [reflexivity|discriminate].
  - destruct (item_first _ _ _ (reads_item_sx _ _ _ H)) as (t & r & -> & K). eexists _, _. split; [reflexivity|auto].
  - destruct (item_first _ _ _ (reads_item_sx _ _ _ H)) as (t & r & -> & K). eexists _, _. split; [reflexivity|auto].
Qed.

Lemma items_arrive is w : reads_items is w -> forall src,
  ev (fun n => parse_top n src (w ++ [eof])) (POk (fold_left collect is src) [eof]).
Proof.
  induction 1 as [|i w is w' S P IH|i w is w' S P IH]; intros src.
  - apply ev_S. exact (ev_const (POk src [eof])).
  - rewrite <- app_assoc. cbn [app]. apply (item_arrives _ _ _ S); auto. rewrite skip_at by auto.
    specialize (IH (collect src i)). destruct (items_split _ _ P) as (x & r & E & _). rewrite E in *. rewrite next_at. exact IH.
  - rewrite <- app_assoc. specialize (IH (collect src i)).
    destruct (items_split _ _ P) as (x & r & E & K & N). rewrite E in *.
    apply (item_arrives _ _ _ S); auto. rewrite skip_not by auto. rewrite next_at. exact IH.
Qed.

(** Soundness of whole sources *)
Lemma request_reads n ts r ts' : live ts -> tkind (current ts) = KRequest -> parse_request n ts = POk r ts' ->
  exists w, eats ts w ts' /\ reads_item (pk ts') (IRequest (fst (fst r)) (snd (fst r)) (snd r)) w.
Proof.
  intros L K H. unfold parse_request in H. cbv zeta in H.
  pinv H as u1 ts1 E1. pinv H as u2 ts2 E2.
  destruct (eats_expect _ _ _ _ _ _ (eats_one _ L) E1 ltac:(neof)) as (t1 & A1 & K1 & S1 & C1).
  destruct (eats_expect _ _ _ _ _ _ A1 E2 ltac:(neof)) as (t2 & A2 & K2 & S2 & C2).
  rewrite (current_op ts _ (lit "request") L K ltac:(inop)), (tok_eta _ _ K1), (tok_eta _ _ K2) in A2.
  rewrite C1, C2 in H.
  destruct (peek_is KLs ts2) eqn:P.
  - pinv H as es ts3 E3. inversion H; subst; clear H.
    destruct (eats_peek _ _ _ _ A2 P ltac:(neof)) as (t3 & A3 & K3 & S3 & C3).
    destruct (rs_list _ (rsound n) _ _ _ _ (eats_live _ _ _ A3) E3 ltac:(neof)) as (w & t4 & A4 & K4 & S4 & Sl).
    pose proof (eats_glue _ _ _ _ _ _ A3 A4) as A5.
    rewrite (spelled_op _ _ _ S3 K3 ltac:(inop)), (spelled_op _ _ _ S4 K4 ltac:(inop)) in A5.
    eexists. split; [exact A5|]. cbn [fst snd app]. now apply rt_request_asserts.
  - inversion H; subst; clear H. eexists. split; [exact A2|]. cbn [fst snd app]. apply rt_request.
    apply pk_is_not; auto; discriminate.
Qed.

Lemma test_reads n ts r ts' : live ts -> tkind (current ts) = KTest -> parse_test n ts = POk r ts' ->
  exists w, eats ts w ts' /\ reads_item (pk ts') (ITest (fst r) (snd r)) w.
Proof.
  intros L K H. unfold parse_test in H. cbv zeta in H.
  pinv H as u1 ts1 E1. pinv H as b ts2 E2. inversion H; subst; clear H.
  destruct (eats_expect _ _ _ _ _ _ (eats_one _ L) E1 ltac:(neof)) as (t1 & A1 & K1 & S1 & C1).
  destruct (rs_block _ (rsound n) _ _ _ (eats_live _ _ _ A1) E2) as (w & A2 & Sl).
  pose proof (eats_glue _ _ _ _ _ _ A1 A2) as A3. rewrite C1.
  rewrite (current_op ts _ (lit "test") L K ltac:(inop)), (tok_eta _ _ K1) in A3.
  eexists. split; [exact A3|]. cbn [fst snd app]. now apply rt_test.
Qed.

Definition rtop_post src ts src' : Prop :=
  exists is w l, ts = w ++ [Tok KEof l] /\ reads_items is w /\ src' = fold_left collect is src.

Lemma pk_next ts : live ts -> pk ts = tkind (current (next ts)).
Proof. intros (t & r & -> & S & W). destruct (wf_nonempty _ W) as (x & r' & ->). reflexivity. Qed.

Lemma rtop_step n src ts i w ts1 src' ts' :
  (forall src ts src' ts', wf ts -> parse_top n src ts = POk src' ts' -> rtop_post src ts src') ->
  eats ts w ts1 -> reads_item (pk ts1) i w ->
  parse_top n (collect src i) (next (skip_semi ts1)) = POk src' ts' -> rtop_post src ts src'.
Proof.
  intros IH A Si H. unfold skip_semi in H. destruct (peek_is KSemi ts1) eqn:P.
  - destruct (eats_peek _ _ _ _ A P ltac:(neof)) as (t & A1 & K & S & _).
    rewrite (spelled_op _ _ _ S K ltac:(inop)) in A1.
    destruct (eats_next _ _ _ A1) as [-> W].
    destruct (IH _ _ _ _ W H) as (is & w' & l & -> & Sis & ->).
    exists (i :: is), (w ++ op KSemi ";" :: w'), l. split; [now rewrite <- !app_assoc|].
    split; [|auto]. apply pk_is in P. rewrite P in Si. now apply rs_semi.
  - pose proof (pk_next _ (eats_live _ _ _ A)) as F. destruct (eats_next _ _ _ A) as [-> W].
    destruct (IH _ _ _ _ W H) as (is & w' & l & E & Sis & ->). rewrite E in *.
    exists (i :: is), (w ++ w'), l. split; [now rewrite <- !app_assoc|].
    split; [|auto]. apply rs_next; auto. destruct w'; cbn in *; congruence.
Qed.

Lemma rtop_sound n : forall src ts src' ts', wf ts -> parse_top n src ts = POk src' ts' -> rtop_post src ts src'.
Proof.
  induction n as [|n IH]; [discriminate|]. intros src ts src' ts' W H. cbn [parse_top] in H.
  assert (D : tkind (current ts) = KEof \/ tkind (current ts) = KRequest \/ tkind (current ts) = KTest \/
    (tkind (current ts) <> KEof /\ pbind (parse_expr n prec_min ts) (fun e ts =>
          parse_top n (Source (s_exprs src ++ [e]) (s_requests src) (s_tests src))
            (next (skip_semi ts))) = POk src' ts')).
  { destruct (tkind (current ts)) eqn:K; auto; right; right; right; (split; [discriminate|exact H]). }
  destruct D as [K|[K|[K|[K H']]]].
  - rewrite K in H. inversion H; subst. inversion W as [l|t r S W']; subst; simpl in K; [|destruct (spelled_not_eof _ S K)].
    exists [], [], l. split; auto. split; [constructor|]. auto.
  - rewrite K in H. pinv H as r ts1 E1. destruct r as [[nm m] es].
    destruct (request_reads _ _ _ _ (wf_live _ W ltac:(congruence)) K E1) as (w & A & Si). cbn [fst snd] in *.
    eapply (rtop_step n src ts (IRequest nm m es)); eauto.
  - rewrite K in H. pinv H as r ts1 E1. destruct r as [nm b].
    destruct (test_reads _ _ _ _ (wf_live _ W ltac:(congruence)) K E1) as (w & A & Si). cbn [fst snd] in *.
    eapply (rtop_step n src ts (ITest nm b)); eauto.
  - pinv H' as e ts1 E1.
    destruct (rs_expr _ (rsound n) _ _ _ _ W E1) as (w & A & Sx & D).
    eapply (rtop_step n src ts (IExpr e)); eauto. constructor; auto. now apply done_over.
Qed.

Lemma eof_split text w l : segment text = w ++ [Tok KEof l] -> l = [].
Proof.
  intros S. destruct (segment_shape text) as (ts & S' & _). rewrite S' in S. apply app_inj_tail in S. destruct S as [_ [= <-]]. auto.
Qed.

Lemma exactly text src : parse text = Ok src <-> exists is w,
  segment text = w ++ [Tok KEof []] /\ reads_items is w /\ src = fold_left collect is (Source [] [] []).
Proof.
  split.
  - intros H. unfold parse, parse_fuel in H. destruct (parse_top _ _ _) as [s ts'|?|] eqn:E; inversion H; subst.
    destruct (rtop_sound _ _ _ _ _ (wf_segment text) E) as (is & w & l & S & Si & ->).
    exists is, w. pose proof (eof_split _ _ _ S). subst l. auto.
  - intros (is & w & S & P & ->). eapply ev_parse. rewrite S. apply items_arrive; auto.
Qed.

(** One reading only *)
Lemma ev_unique {A} (f : nat -> pres A) r r' : ev f r -> ev f r' -> r = r'.
Proof. intros [n H] [n' H']. rewrite <- (H (Nat.max n n')), <- (H' (Nat.max n n')) by lia. reflexivity. Qed.

(** one item *)
Definition parse_item (n : nat) (ts : toks) : pres item :=
  match tkind (current ts) with
  | KRequest => pbind (parse_request n ts) (fun '(name, message, asserts) ts => POk (IRequest name message asserts) ts)
  | KTest => pbind (parse_test n ts) (fun '(name, block) ts => POk (ITest name block) ts)
  | _ => pbind (parse_expr n prec_min ts) (fun e ts => POk (IExpr e) ts)
  end.

Lemma item_parsed k i w x rest : reads_item k i w -> tkind x = k ->
  ev (fun n => parse_item n (w ++ x :: rest)) (POk i (lt w :: x :: rest)).
Proof.
  intros S Kx. destruct arrives as (Ce & Cl & _ & Cb).
  inversion S as [k0 e w0 Sx O|k0 n m N|k0 n m es w0 Sl|k0 n b w0 Sb]; subst.
  - destruct (syntax_starts _ _ _ (reads_sx _ _ _ Sx)) as (y & r & E & St).
    pose proof (whole (tkind x) e w x rest (Ce _ _ _ Sx) Sx O eq_refl) as G.
    assert (D : forall n, parse_item n (w ++ x :: rest) = pbind (parse_expr n prec_min (w ++ x :: rest)) (fun e ts => POk (IExpr e) ts)).
    { intros n. rewrite E. unfold parse_item. cbn [app current]. destruct (tkind y); try discriminate; reflexivity. }
    eapply ev_ext; [exact D|]. eapply ev_bind; [exact G|]. apply ev_const.
  - cbn [app]. unfold parse_item; cbn [current tkind op]; unfold parse_request; cbv zeta.
    rewrite (expect_at KIdent) by auto; cbn [pbind]; rewrite (expect_at KTemplate) by auto; cbn [pbind].
    rewrite peek_is_not by auto. cbn [pbind]. apply ev_const.
  - cbn [app]. rewrite <- app_assoc. unfold parse_item; cbn [current tkind op]; unfold parse_request; cbv zeta;
      rewrite (expect_at KIdent) by auto; cbn [pbind]; rewrite (expect_at KTemplate) by auto; cbn [pbind].
    rewrite (peek_is_at KLs) by auto; rewrite next_at.
    eapply ev_bind; [eapply ev_bind; [apply (list_arrives es w0 KRs); eauto|apply ev_const]|]. cbv beta iota.
    cbn [app]. rewrite !lt_cons, lt_snoc by (try discriminate; destruct w0; discriminate). apply ev_const.
  - cbn [app]. rewrite <- !app_assoc. unfold parse_item; cbn [current tkind op]; unfold parse_test; cbv zeta;
      rewrite (expect_at KIdent) by auto; cbn [pbind].
    eapply ev_bind; [eapply ev_bind; [apply (block_arrives b w0); eauto|apply ev_const]|]. cbv beta iota.
    cbn [app]. rewrite !lt_cons, lt_snoc by (try discriminate; destruct w0; discriminate). apply ev_const.
Qed.

Lemma item_once i w x rest i' w' x' rest' :
  reads_item (tkind x) i w -> reads_item (tkind x') i' w' -> w ++ x :: rest = w' ++ x' :: rest' ->
  i = i' /\ x = x' /\ rest = rest'.
Proof.
  intros S S' E. pose proof (item_parsed _ _ _ x rest S eq_refl) as P. pose proof (item_parsed _ _ _ x' rest' S' eq_refl) as P'.
  rewrite E in P. pose proof (ev_unique _ _ _ P P') as X. inversion X; subst. auto.
Qed.

Lemma items_nonempty i is w : reads_items (i :: is) w -> w <> [].
Proof.
  intros R. inversion R; subst; intros E; apply app_eq_nil in E; destruct E as [E E']; subst; try discriminate;
    match goal with H : reads_item _ _ [] |- _ => apply reads_item_sx, item_first in H; destruct H as (? & ? & ? & _); discriminate end.
Qed.

Lemma once_more is : forall w is' w', reads_items is w -> reads_items is' w' -> w ++ [eof] = w' ++ [eof] -> is = is'.
Proof.
  assert (Z : forall i0 is0, ~ reads_items (i0 :: is0) []) by (intros i0 is0 R; now apply items_nonempty in R).
  induction is as [|i is IH]; intros w is' w' R R' E.
  { inversion R; subst. destruct is' as [|i' is']; auto. apply (app_inj_tail [] w') in E. destruct E as [<- _]. destruct (Z _ _ R'). }
  destruct is' as [|i' is'].
  { inversion R'; subst. apply (app_inj_tail w []) in E. destruct E as [-> _]. destruct (Z _ _ R). }
  inversion R as [|i0 w1 is0 w2 S P A B|i0 w1 is0 w2 S P A B]; subst i0 is0 w; clear R;
    inversion R' as [|i1 w1' is1 w2' S' P' A' B'|i1 w1' is1 w2' S' P' A' B']; subst i1 is1 w'; clear R'.
  - assert (E2 : w1 ++ op KSemi ";" :: w2 ++ [eof] = w1' ++ op KSemi ";" :: w2' ++ [eof]).
    { change (w1 ++ (op KSemi ";" :: w2) ++ [eof] = w1' ++ (op KSemi ";" :: w2') ++ [eof]). now rewrite !app_assoc. }
    destruct (item_once i w1 (op KSemi ";") _ i' w1' (op KSemi ";") _ S S' E2) as (-> & _ & X).
    f_equal. eauto.
  - exfalso. destruct (items_split _ _ P') as (x & r & Ex & Kx & N). rewrite <- Kx in S'.
    assert (E2 : w1 ++ op KSemi ";" :: w2 ++ [eof] = w1' ++ x :: r).
    { rewrite <- Ex. change (w1 ++ (op KSemi ";" :: w2) ++ [eof] = w1' ++ w2' ++ [eof]). now rewrite !app_assoc. }
    destruct (item_once i w1 (op KSemi ";") _ i' w1' x r S S' E2) as (_ & <- & _). now apply N.
  - exfalso. destruct (items_split _ _ P) as (x & r & Ex & Kx & N). rewrite <- Kx in S.
    assert (E2 : w1 ++ x :: r = w1' ++ op KSemi ";" :: w2' ++ [eof]).
    { rewrite <- Ex. change (w1 ++ w2 ++ [eof] = w1' ++ (op KSemi ";" :: w2') ++ [eof]). now rewrite !app_assoc. }
    destruct (item_once i w1 x r i' w1' (op KSemi ";") _ S S' E2) as (_ & -> & _). now apply N.
  - destruct (items_split _ _ P) as (x & r & Ex & Kx & N). destruct (items_split _ _ P') as (x' & r' & Ex' & Kx' & N').
    rewrite <- Kx in S. rewrite <- Kx' in S'.
    assert (E2 : w1 ++ x :: r = w1' ++ x' :: r') by (now rewrite <- Ex, <- Ex', !app_assoc).
    destruct (item_once i w1 x r i' w1' x' r' S S' E2) as (-> & <- & <-).
    rewrite <- Ex' in Ex. f_equal. eauto.
Qed.

(** The theorems *)
Lemma accepted text : (exists src, parse text = Ok src) <->
  exists is w, segment text = w ++ [Tok KEof []] /\ reads_items is w.
Proof.
  split.
  - intros [src H]. apply exactly in H. destruct H as (is & w & S & R & _). eauto.
  - intros (is & w & S & R). eexists. apply exactly. eauto.
Qed.

Lemma read_as text src is w : parse text = Ok src -> segment text = w ++ [Tok KEof []] -> reads_items is w ->
  s_exprs src = item_exprs is /\
  (forall n d, mget n (s_requests src) = Some d <-> last_def n (item_requests is) d) /\
  (forall n b, mget n (s_tests src) = Some b <-> last_def n (item_tests is) b).
Proof.
  intros H S R. assert (X : parse text = Ok (fold_left collect is (Source [] [] []))) by (apply exactly; eauto).
  rewrite H in X. inversion X; subst.
  rewrite collect_exprs, collect_requests, collect_tests. repeat split; auto; apply mextend_last.
Qed.

Lemma one_way is is' w : reads_items is w -> reads_items is' w -> is = is'.
Proof. intros A B. exact (once_more _ _ _ _ A B eq_refl). Qed.

Lemma reads_writes is w : reads_items is w -> syntax_items is w.
Proof. induction 1; [constructor|apply sis_semi|apply sis_cons]; auto; eapply reads_item_sx; eauto. Qed.
