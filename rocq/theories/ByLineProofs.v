(** A program typed line by line does what the text does *)
From Verif Require Import TextProofs LexerProofs SyntaxProofs ParserTop ParserProgram CombineProofs EvaluatorTop ReadsProofs LiveProofs RunProofs SpecByLine SpecLive.
Open Scope N_scope.

Lemma messages_app a b : messages (a ++ b) = messages a ++ messages b.
Proof. induction a as [|[t|m] a IH]; cbn; auto. now rewrite IH. Qed.
Lemma unaware_future w t1 t2 : unaware w -> messages t1 = messages t2 -> same_future w t1 t2.
Proof. intros U M tr msg. apply U. now rewrite !messages_app, M. Qed.

Lemma block_alike w es s t : unaware w -> same_effects s t ->
  (forall e r, In e es -> In r (called e) -> mget r (c_reqs (s_ctx s)) = mget r (c_reqs (s_ctx t))) ->
  exists o tr recs v1 v2,
    eval_block w es s = (o, St (Ctx v1 (c_reqs (s_ctx s)) (c_recs (s_ctx s) ++ recs)) (s_trace s ++ tr)) /\
    eval_block w es t = (o, St (Ctx v2 (c_reqs (s_ctx t)) (c_recs (s_ctx t) ++ recs)) (s_trace t ++ tr)) /\
    forall n, mget n v1 = mget n v2.
Proof.
  intros U (V & R & M) C. set (m := St (Ctx (c_vars (s_ctx t)) (c_reqs (s_ctx s)) (c_recs (s_ctx t))) (s_trace t)).
  destruct (live_block w es s m) as (o & tr & recs & v1 & v2 & A & B & D & _); [now apply unaware_future|reflexivity|intros n _; apply V|].
  destruct (block_reads_only w es m t) as (o' & tr' & recs' & v1' & v2' & A' & B' & D'); [reflexivity|intros e I r J; now apply (C e)|reflexivity|].
  unfold m in *. cbn [s_ctx c_vars c_reqs c_recs s_trace] in *. rewrite A' in B. injection B as -> Ev Er Et. apply app_inv_head in Er, Et. subst.
  exists o, tr, recs, v1, v2'. split; auto. split; auto. intros n. specialize (D n). specialize (D' n). cbn in D, D'. specialize (V n).
  destruct D as [[]|], D' as [[]|]; congruence.
Qed.
Lemma block_split w a b s o s1 : eval_block w (a ++ b) s = (o, s1) ->
  (exists v s0 o', eval_block w a s = (Ok v, s0) /\ eval_block w b s0 = (o', s1) /\ (b <> [] -> o' = o) /\ (b = [] -> o = Ok v /\ o' = Ok VNull)) \/
  (~ is_ok o /\ eval_block w a s = (o, s1)).
Proof.
  intros E. destruct b as [|x b].
  - rewrite app_nil_r in E. destruct o as [v|e| |]; [left; exists v, s1, (Ok VNull); repeat split; auto; congruence|right; split; auto; intros [v H]; discriminate H..].
  - rewrite block_app in E by discriminate. destruct (eval_block w a s) as [[v|e| |] s0] eqn:A; [left; exists v, s0, o; repeat split; auto; discriminate|right; injection E as <- <-; split; auto; intros [v H]; discriminate H..].
Qed.
Lemma blank_source l src : blank l -> parse l = Ok src -> s_exprs src = [] /\ s_requests src = [].
Proof.
  intros B P. unfold parse in P. pose proof (blank_segment l [] B) as S. rewrite app_nil_r in S. rewrite S in P. vm_compute in P. injection P as <-. auto.
Qed.
Lemma blank_dec l : blank l \/ ~ blank l.
Proof.
  destruct (forallb is_ws l) eqn:E.
  - left. apply Forall_forall. intros c I. rewrite forallb_forall in E. apply is_ws_iff. auto.
  - right. intros B. assert (forallb is_ws l = true); [|congruence]. apply forallb_forall. intros c I. apply is_ws_iff. unfold blank in B. rewrite Forall_forall in B. auto.
Qed.
Lemma filled_total ls : exists n, filled ls n.
Proof. induction ls as [|l ls [n IH]]; [exists O; constructor|]. destruct (blank_dec l); [exists n; now constructor|exists (S n); now constructor]. Qed.

(** what is called on each line is defined by then *)
Fixpoint agree (srcs : list source) (Q R : amap (str * list expr)) : Prop :=
  match srcs with
  | [] => True
  | src :: rest => (forall e r, In e (s_exprs src) -> In r (called e) -> mget r R = mget r (mextend Q (s_requests src))) /\ agree rest (mextend Q (s_requests src)) R
  end.
Lemma lines_run w : unaware w -> forall ls srcs, Forall2 (fun l src => parse l = Ok src) ls srcs -> ~ In (lit "exit") ls ->
  forall s t, same_effects s t -> agree srcs (c_reqs (s_ctx t)) (c_reqs (s_ctx s)) ->
  forall o s1, eval_block w (flat_map s_exprs srcs) s = (o, s1) -> returns o ->
  exists now later t1 parts tr tr', ls = now ++ later /\ (is_ok o -> later = []) /\ (~ is_ok o -> now <> []) /\
    session w (map Some now) t t1 /\ same_effects s1 t1 /\ s_trace s1 = s_trace s ++ tr /\ s_trace t1 = s_trace t ++ tr' /\ answered_each parts tr tr' /\
    filled now (length parts) /\
    (forall pre l src, now = pre ++ [l] -> parse l = Ok src -> s_exprs src <> [] -> answer w o (last (map snd parts) [])).
Proof.
  intros U ls srcs F. induction F as [|l src ls srcs P F IH]; intros X s t A G o s1 E Rt.
  - cbn in E. injection E as <- <-. exists [], [], t, [], [], []. rewrite !app_nil_r. repeat split; auto; try apply A; try constructor.
    + intros N. exfalso. apply N. now exists VNull.
    + intros pre l src N. destruct pre; discriminate N.
  - cbn [flat_map] in E. cbn [agree] in G. destruct G as [G1 G2].
    assert (X' : ~ In (lit "exit") ls) by (intros I; apply X; now right).
    destruct (blank_dec l) as [B|B].
    + destruct (blank_source l src B P) as [E0 R0]. rewrite E0 in E. rewrite R0 in G2. cbn [app] in E. cbn [mextend fold_left] in G2.
      destruct (IH X' s t A G2 o s1 E Rt) as (now & later & t1 & parts & tr & tr' & -> & L1 & L2 & S & A1 & T1 & T2 & An & Fi & La).
      exists (l :: now), later, t1, parts, tr, tr'. repeat split; auto; try apply A1; try apply An.
      * discriminate.
      * cbn [map]. now apply se_blank.
      * now apply fd_blank.
      * intros pre l' src' N P' N'. destruct pre as [|p pre]; [|apply (La pre l' src'); auto; now inversion N]. inversion N; subst. destruct (blank_source l' src' B P') as [Z _]. congruence.
    + set (t0 := St (Ctx (c_vars (s_ctx t)) (mextend (c_reqs (s_ctx t)) (s_requests src)) (c_recs (s_ctx t))) (s_trace t)).
      destruct (block_alike w (s_exprs src) s t0 U A) as (o1 & tr & recs & v1 & v2 & E1 & E2 & V).
      { intros e r I J. apply (G1 e r I J). }
      unfold t0 in E2. cbn [s_ctx c_vars c_reqs c_recs s_trace] in E2. destruct A as (AV & AR & AM).
      set (s' := St (Ctx v1 (c_reqs (s_ctx s)) (c_recs (s_ctx s) ++ recs)) (s_trace s ++ tr)) in *.
      set (t' := St (Ctx v2 (mextend (c_reqs (s_ctx t)) (s_requests src)) (c_recs (s_ctx t) ++ recs)) (s_trace t ++ tr)) in *.
      assert (NX : l <> lit "exit") by (intros ->; apply X; now left).
      assert (SE : forall x, same_effects s' (printing x t')).
      { intros x. split; [exact V|]. split; [cbn; now rewrite AR|]. cbn. rewrite !messages_app. cbn. now rewrite AM, app_nil_r. }
      destruct (block_split _ _ _ _ _ _ E) as [(v & s0 & o' & Ea & Eb & N1 & N2)|[No Ea]].
      * rewrite E1 in Ea. injection Ea as -> <-.
        assert (Ro : returns o') by (destruct (flat_map s_exprs srcs); [destruct (N2 eq_refl) as [_ ->]; exact I|now rewrite N1]).
        assert (Ok' : is_ok o -> is_ok o') by (intros H; destruct (flat_map s_exprs srcs); [destruct (N2 eq_refl) as [_ ->]; now exists VNull|now rewrite N1]).
        destruct (IH X' s' (printing (show_value (e_host w) v) t') (SE _) G2 o' s1 Eb Ro) as (now & later & t1 & parts & tr1 & tr1' & -> & L1 & L2 & S & A1 & T1 & T2 & An & Fi & La).
        exists (l :: now), later, t1, ((tr, show_value (e_host w) v) :: parts), (tr ++ tr1), ((tr ++ [Printed (show_value (e_host w) v ++ [10])]) ++ tr1').
        split; [reflexivity|]. split; [auto|]. split; [discriminate|]. split.
        { cbn [map]. apply (se_line w l (map Some now) t (printing (show_value (e_host w) v) t') t1 B NX); auto. eapply ld_value; eauto. }
        split; [exact A1|]. split; [rewrite T1; cbn; now rewrite app_assoc|]. split; [rewrite T2; cbn; now rewrite <- !app_assoc|].
        destruct An as [An1 An2]. split; [unfold answered_each; cbn [flat_map fst snd]; rewrite <- An1, <- An2; split; reflexivity|]. split; [now apply fd_line|].
        intros pre l' src' N P' N'. destruct pre as [|p pre]; cbn [app] in N; inversion N as [[N0 Nn]]; subst.
        -- assert (Z : flat_map s_exprs srcs = []).
           { assert (is_ok o') as K. { destruct o' as [x|e| |]; [now exists x|exfalso; apply L2; auto; intros [? ?]; discriminate|destruct Ro..]. }
             rewrite (L1 K) in F. inversion F. reflexivity. }
           destruct (N2 Z) as [-> _]. assert (parts = []) as ->; [|reflexivity]. inversion Fi. now destruct parts.
        -- assert (Z : flat_map s_exprs srcs <> []).
           { apply Forall2_app_inv_l in F. destruct F as (a & b & F1 & _ & ->). apply Forall2_app_inv_l in F1. destruct F1 as (a1 & a2 & _ & F2 & ->).
             inversion F2 as [|? ? ? ? Q _]; subst. assert (y = src') by congruence. subst. rewrite !flat_map_app. cbn [flat_map]. intros H.
             apply app_eq_nil in H. destruct H as [H _]. apply app_eq_nil in H. destruct H as [_ H]. apply app_eq_nil in H. tauto. }
           rewrite <- (N1 Z). specialize (La pre l' src' eq_refl P' N').
           destruct parts as [|q parts]; [|exact La]. exfalso. clear - Fi N' P'. cbn in Fi.
           remember 0%nat as z. remember (pre ++ [l']) as ll. revert pre Heqll. induction Fi; intros pre Heqll; [destruct pre; discriminate| |discriminate].
           destruct pre as [|p pre]; cbn in Heqll; inversion Heqll; subst; [|eapply IHFi; eauto]. destruct (blank_source _ _ H P'). congruence.
      * rewrite E1 in Ea. injection Ea as -> <-. destruct o as [v|er| |]; try contradiction; [exfalso; apply No; now exists v|].
        exists [l], ls, (printing (everr_text (e_host w) er) t'), [(tr, everr_text (e_host w) er)], tr, (tr ++ [Printed (everr_text (e_host w) er ++ [10])]).
        split; [reflexivity|]. split; [intros H; contradiction|]. split; [discriminate|]. split.
        { cbn [map]. apply (se_line w l [] t (printing (everr_text (e_host w) er) t')); auto; [eapply ld_error; eauto|constructor]. }
        split; [apply SE|]. split; [reflexivity|]. split; [cbn; now rewrite <- app_assoc|]. split; [split; cbn; now rewrite app_nil_r|].
        split; [apply fd_line; auto; constructor|]. intros; reflexivity.
Qed.

(** ** lines of text *)
Lemma self_line l : self_contained (l ++ [10]) -> parse l = parse (l ++ [10]).
Proof.
  intros (a & c & b & is & w & E & C & Wc & B & S & _). unfold parse.
  assert (G : segment l = segment (l ++ [10])); [|now rewrite G].
  assert (Q : forall b, blank b -> segment (a ++ c :: b) = w ++ [Tok KEof []]).
  { intros b' B'. pose proof (closed_concat a b' c C Wc w S) as Q. rewrite (segment_ws c _ Wc) in Q. rewrite Q. pose proof (blank_segment b' [] B') as Z. rewrite app_nil_r in Z. rewrite Z. reflexivity. }
  destruct b as [|d b _] using rev_ind.
  - assert (l = a /\ 10 = c) as [-> <-] by (apply app_inj_tail; exact E). rewrite S, Q by constructor. reflexivity.
  - assert (X : l ++ [10] = (a ++ c :: b) ++ [d]) by (rewrite <- app_assoc; exact E). apply app_inj_tail in X. destruct X as [-> <-].
    apply Forall_app in B. destruct B as [B _]. assert (B2 : blank (b ++ [10])) by (apply Forall_app; split; [exact B|constructor; [apply is_ws_iff; reflexivity|constructor]]).
    rewrite <- app_assoc. cbn [app]. rewrite (Q _ B), (Q _ B2). reflexivity.
Qed.
Lemma exit_open : ~ self_contained (lit "exit" ++ [10]).
Proof.
  intros H. destruct (self_parses _ H) as (src & is & w & _ & _ & _ & _ & F & _ & _ & S). specialize (S []). rewrite app_nil_r in S.
  assert (W : w = [Tok KIdent (lit "exit")]).
  { apply (app_inv_tail [Tok KEof []]). change [Tok KEof []] with (segment []) at 1. rewrite <- S. vm_compute. reflexivity. }
  clear S H. destruct F as [|i u is' w' Si _|i u is' w' Si D _ _]; [discriminate W| |].
  - destruct u as [|x [|y u]]; unfold op in W; cbn [app] in W; discriminate W.
  - inversion Si; subst; [eapply D; reflexivity|..]; discriminate W.
Qed.

Lemma extend_get {V} k (l m : amap V) : NoDup (map fst l) -> mget k (mextend m l) = match mget k l with Some v => Some v | None => mget k m end.
Proof.
  intros N. destruct (mget k l) as [v|] eqn:E.
  - rewrite mget_mextend. apply mget_some_in in E. assert (mget k (rev l) = Some v) as ->; auto. apply in_mget; [|now apply in_rev; rewrite rev_involutive].
    rewrite map_rev. now apply NoDup_rev.
  - apply mextend_absent. now apply mget_none.
Qed.
Definition later (srcs : list source) (Q : amap (str * list expr)) := fold_left (fun q s => mextend q (s_requests s)) srcs Q.
Lemma later_absent r srcs : Forall (fun s => mget r (s_requests s) = None) srcs -> forall Q, mget r (later srcs Q) = mget r Q.
Proof. induction 1 as [|s srcs N _ IH]; intros Q; auto. cbn. rewrite IH. apply mextend_absent. now apply mget_none. Qed.
Lemma later_last r srcs : Forall (fun s => NoDup (map fst (s_requests s))) srcs -> forall d, last_of (fun s => mget r (s_requests s)) srcs d -> forall Q, mget r (later srcs Q) = Some d.
Proof.
  induction 1 as [|s srcs N _ IH]; intros d L Q; [destruct L as ([|] & ? & ? & H & _); discriminate H|]. cbn. apply last_of_cons in L. destruct L as [L|[F G]]; [now apply IH|].
  rewrite later_absent by exact F. rewrite extend_get by auto. now rewrite G.
Qed.
Lemma first_agree ls srcs : Forall2 (fun l s => parse l = Ok s) ls srcs -> defined_first ls -> forall Q R, (forall r, mget r R = mget r (later srcs Q)) -> agree srcs Q R.
Proof.
  induction 1 as [|l s ls srcs P F IH]; intros D Q R H; [exact I|]. inversion D as [|? ? D1 D2]; subst. split; [|apply IH; auto].
  intros e r I J. rewrite H. cbn. apply later_absent. apply Forall_forall. intros s' I'.
  clear - F D2 I I' J P. induction F as [|l' s'' ls srcs P' F IH]; [destruct I'|]. destruct I' as [->|I'].
  - eapply D2; eauto. now left.
  - apply IH; auto. intros src e0 r0 A B C l0 src' L. eapply D2; eauto. now right.
Qed.
Lemma one_text_concat ls : one_text ls = List.concat (map (fun l => l ++ [10]) ls).
Proof. unfold one_text. apply flat_map_concat_map. Qed.
Theorem line_by_line w ls : unaware w -> Forall (fun l => self_contained (l ++ [10])) ls -> defined_first ls ->
  exists src, parse (one_text ls) = Ok src /\
  forall o s, eval_block w (s_exprs src) (St (ctx_extend ctx_new (s_requests src)) []) = (o, s) -> returns o ->
  exists now later t parts, ls = now ++ later /\ (is_ok o -> later = []) /\ (~ is_ok o -> now <> []) /\
    session w (map Some now) (St ctx_new []) t /\ same_effects s t /\ answered_each parts (s_trace s) (s_trace t) /\ filled now (length parts) /\
    (forall pre l lsrc, now = pre ++ [l] -> parse l = Ok lsrc -> s_exprs lsrc <> [] -> answer w o (last (map snd parts) [])).
Proof.
  intros U S D. destruct (files_merge (map (fun l => l ++ [10]) ls)) as (srcs & src & F & P & (M1 & M2 & _)); [now apply Forall_map|].
  exists src. rewrite one_text_concat. split; [exact P|]. intros o s E Rt.
  assert (F' : Forall2 (fun l s => parse l = Ok s) ls srcs).
  { clear - S F. revert srcs F. induction S as [|l ls Sl _ IH]; intros srcs F; inversion F; subst; constructor; auto. now rewrite self_line. }
  assert (X : ~ In (lit "exit") ls) by (intros I; rewrite Forall_forall in S; exact (exit_open (S _ I))).
  assert (ND : Forall (fun s => NoDup (map fst (s_requests s))) srcs).
  { clear - F'. induction F' as [|l s ls srcs P _ IH]; constructor; auto. apply collected in P. destruct P as (is & u & _ & _ & _ & _ & _ & N & _). exact N. }
  assert (NR : NoDup (map fst (s_requests src))) by (apply collected in P; destruct P as (is & u & _ & _ & _ & _ & _ & N & _); exact N).
  rewrite M1 in E.
  destruct (lines_run w U ls srcs F' X (St (ctx_extend ctx_new (s_requests src)) []) (St ctx_new [])) with (o := o) (s1 := s) as (now & lat & t & parts & tr & tr' & H); auto.
  - repeat split; reflexivity.
  - apply (first_agree ls); auto. intros r. cbn. rewrite extend_get by auto. cbn [mget]. destruct (mget r (s_requests src)) as [d|] eqn:G.
    + symmetry. apply later_last; auto. now apply M2.
    + symmetry. rewrite later_absent; [reflexivity|]. apply (proj1 (last_of_none (fun s => mget r (s_requests s)) srcs)). intros d L. apply M2 in L. congruence.
  - destruct H as (-> & H1 & H2 & H3 & H4 & H5 & H6 & H7 & H8 & H9). cbn [s_trace app] in H5, H6. rewrite <- H5, <- H6 in H7. exists now, lat, t, parts. auto 10.
Qed.
