(** Lemmas about Lexer.v *)
From Verif Require Import Lexer SpecLex TextProofs LexOneProofs.
From Coq Require Import ZifyBool.
Open Scope N_scope.

Lemma delimiter_kind k k' d : In (k, d) delimiters -> In (k', d) delimiters -> k = k'.
Proof.
  unfold delimiters; simpl. intros [H|[H|[]]] [H'|[H'|[]]]; inversion H; inversion H'; subst; congruence.
Qed.

Lemma spells_not_ws c w t : spells (c :: w) t -> ~ ws c.
Proof.
  intros S Hw. destruct (ws_not_special _ Hw) as (Nd & Nl & N1 & N2 & N3).
  destruct (spells_cases _ _ _ S) as [(k' & D & _)|[(D & _)|[(D & _)|[(k' & b' & D & _)|(D & _)]]]]; try contradiction.
  - apply op_rest_in in D. apply is_ws_iff in Hw. unfold operators in D; simpl in D; decompose [or] D; try contradiction;
      match goal with E : (_, _) = (_, _) |- _ => inversion E; subst; discriminate end.
  - unfold delimiters in D; simpl in D; decompose [or] D; try contradiction;
      match goal with E : (_, _) = (_, _) |- _ => inversion E; congruence end.
Qed.

(** a spelling determines its token *)
Lemma spells_fun w t t' : spells w t -> spells w t' -> t = t'.
Proof.
  intros S S'. destruct (spells_nonempty _ _ S) as (c & w' & ->).
  assert (Dl : forall k, In (k, c) delimiters -> op_rest c = [] /\ ~ digit c /\ ~ letter c).
  { intros k D. unfold delimiters in D; simpl in D; decompose [or] D; try contradiction;
      match goal with E : (_, _) = (_, _) |- _ => inversion E; subst end;
      (split; [reflexivity|unfold digit, letter; lia]). }
  assert (Op : forall k, In (k, w') (op_rest c) -> ~ digit c /\ ~ letter c).
  { intros k D. apply op_rest_in in D. rewrite <- is_digit_iff, <- is_ident_start_iff.
    unfold operators in D; simpl in D; decompose [or] D; try contradiction;
      match goal with E : (_, _) = (_, _) |- _ => inversion E; subst; split; discriminate end. }
  destruct (spells_cases _ _ _ S) as [(k1 & D & ->)|[(D & _ & ->)|[(D & _ & ->)|[(k1 & b1 & D & Nb & E & ->)|(Nw & Nd & Nl & D & Nq & E & ->)]]]];
  destruct (spells_cases _ _ _ S') as [(k2 & D' & ->)|[(D' & _ & ->)|[(D' & _ & ->)|[(k2 & b2 & D' & Nb' & E' & ->)|(Nw' & Nd' & Nl' & D' & Nq' & E' & ->)]]]];
  auto;
  try (exfalso; unfold digit, letter in *; lia);
  try (exfalso; apply Dl in D; destruct D as (D1 & D2 & D3); rewrite ?D1 in *; simpl in *; tauto);
  try (exfalso; apply Dl in D'; destruct D' as (D1 & D2 & D3); rewrite ?D1 in *; simpl in *; tauto);
  try (exfalso; rewrite D in *; simpl in *; tauto);
  try (exfalso; rewrite D' in *; simpl in *; tauto);
  try (exfalso; apply Op in D; tauto);
  try (exfalso; apply Op in D'; tauto);
  try (exfalso; eapply Nq; eassumption);
  try (exfalso; eapply Nq'; eassumption);
  try tauto.
  - f_equal. apply op_rest_in in D. apply op_rest_in in D'.
    assert (U : forall k k' s, In (k, s) operators -> In (k', s) operators -> k = k').
    { clear. intros k k' s D D'.
      assert (N : NoDup (map snd operators)).
      { unfold operators; simpl. repeat constructor; simpl; intros H; decompose [or] H; try discriminate; contradiction. }
      clear -D D' N. induction operators as [|[k0 s0] l IH]; simpl in *; [tauto|].
      inversion N as [|? ? N1 N2]; subst. destruct D as [D|D], D' as [D'|D']; auto.
      - congruence.
      - exfalso. inversion D; subst. apply N1. now apply (in_map snd) in D'.
      - exfalso. inversion D'; subst. apply N1. now apply (in_map snd) in D. }
    eapply U; eauto.
  - subst w'. apply app_inj_tail in E'. destruct E' as [-> _]. f_equal.
    eapply delimiter_kind; eauto.
Qed.

Lemma lex_one_shorter c s k l r : is_ws c = false -> lex_one c s = (k, l, r) -> (length r <= length s)%nat.
Proof.
  intros Hw H. destruct (lex_one_sound _ _ _ _ _ Hw H) as [(w & E & S & _)|(_ & _ & _ & ->)]; [|simpl; lia].
  destruct (spells_nonempty _ _ S) as (c' & w' & ->). simpl in E. inversion E; subst.
  rewrite app_length. lia.
Qed.

Lemma segment_fuel n m s : (length s <= n)%nat -> (length s <= m)%nat -> segment_loop n s = segment_loop m s.
Proof.
  revert m s. induction n as [|n IH]; intros [|m] [|c s]; simpl; intros H1 H2; auto; try lia.
  destruct (is_ws c) eqn:Hw.
  - apply IH; lia.
  - destruct (lex_one c s) as [[k l] r] eqn:E. f_equal.
    pose proof (lex_one_shorter _ _ _ _ _ Hw E). apply IH; lia.
Qed.

(** more fuel changes nothing: [segment] never runs out *)
Lemma segment_fuel_enough n s : (length s <= n)%nat -> segment s = segment_loop n s ++ [Tok KEof []].
Proof. intros H. unfold segment. f_equal. now apply segment_fuel. Qed.

Lemma segment_nil : segment [] = [Tok KEof []].
Proof. reflexivity. Qed.

Lemma segment_ws c s : ws c -> segment (c :: s) = segment s.
Proof. intros H. apply is_ws_iff in H. unfold segment. simpl. now rewrite H. Qed.

Lemma segment_one c s k l r : is_ws c = false -> lex_one c s = (k, l, r) -> segment (c :: s) = Tok k l :: segment r.
Proof.
  intros Hw E. unfold segment. simpl. rewrite Hw, E. simpl. f_equal. f_equal.
  pose proof (lex_one_shorter _ _ _ _ _ Hw E). apply segment_fuel; lia.
Qed.

(** taking the longest spelling is what [lex_one] does *)
Lemma lex_one_complete c w t rest : spells (c :: w) t -> maximal (c :: w) rest ->
  lex_one c (w ++ rest) = (tkind t, tlit t, rest).
Proof.
  intros S M. pose proof (spells_not_ws _ _ _ S) as Hw. apply is_ws_false in Hw.
  destruct (lex_one c (w ++ rest)) as [[k l] r] eqn:E.
  destruct (lex_one_sound _ _ _ _ _ Hw E) as [(w1 & E1 & S1 & M1)|(D & N & El & Er)].
  - assert (length w1 <= length (c :: w))%nat by (eapply M; eauto; exact E1).
    assert (length (c :: w) <= length w1)%nat by (eapply M1; [symmetry; exact E1|eauto]).
    assert (w1 = c :: w /\ r = rest) as [-> ->].
    { change (c :: w ++ rest) with ((c :: w) ++ rest) in E1.
      remember (c :: w) as v. clear -E1 H H0.
      revert w1 E1 H H0. induction v as [|x v IH]; intros [|y w1]; simpl; intros; try lia; auto.
      inversion E1; subst. destruct (IH w1); auto; try lia. subst; auto. }
    pose proof (spells_fun _ _ _ S S1) as ->. reflexivity.
  - exfalso. destruct (spells_cases _ _ _ S) as [(k' & D' & _)|[(D' & _)|[(D' & _)|[(k' & b' & D' & _ & -> & _)|(_ & _ & _ & _ & D' & _)]]]].
    + apply op_rest_in in D'. unfold delimiters in D; simpl in D. destruct D as [[= _ <-]|[[= _ <-]|[]]];
        unfold operators in D'; simpl in D'; decompose [or] D'; try contradiction; discriminate.
    + unfold delimiters, digit in *; simpl in D. destruct D as [[= _ <-]|[[= _ <-]|[]]]; lia.
    + unfold delimiters, letter in *; simpl in D. destruct D as [[= _ <-]|[[= _ <-]|[]]]; lia.
    + apply N. rewrite <- app_assoc. apply in_or_app. right. now left.
    + eapply D'; eauto.
Qed.

Lemma lex_one_unclosed k d body : In (k, d) delimiters -> ~ In d body -> lex_one d body = (k, body, []).
Proof.
  intros D N. assert (Hs : span (fun c => negb (c =? d)) body = (body, [])).
  { apply span_all. apply Forall_forall. intros x Hx. apply negb_true_iff, N.eqb_neq. intros ->; contradiction. }
  unfold delimiters in D; simpl in D. destruct D as [[= <- <-]|[[= <- <-]|[]]];
    unfold lex_one; simpl; unfold lex_quoted, quote, backtick; now rewrite Hs.
Qed.

Lemma delimiter_not_ws k d : In (k, d) delimiters -> is_ws d = false.
Proof. unfold delimiters; simpl. intros [[= _ <-]|[[= _ <-]|[]]]; reflexivity. Qed.

Lemma lexes_segment s ts : lexes s ts -> segment s = ts ++ [Tok KEof []].
Proof.
  induction 1.
  - reflexivity.
  - now rewrite segment_ws.
  - destruct (spells_nonempty _ _ H) as (c & w' & ->). simpl.
    erewrite segment_one; [|apply is_ws_false; eapply spells_not_ws; eauto|eapply lex_one_complete; eauto].
    rewrite IHlexes. now destruct t.
  - rewrite (segment_one _ _ _ _ _ (delimiter_not_ws _ _ H) (lex_one_unclosed _ _ _ H H0)). reflexivity.
Qed.

Lemma lexes_total s : exists ts, lexes s ts.
Proof.
  remember (length s) as n. assert (L : (length s <= n)%nat) by lia. clear Heqn. revert s L.
  induction n as [|n IH]; intros [|c s] L; simpl in *; try (eexists; constructor; fail); try lia.
  destruct (is_ws c) eqn:Hw.
  - destruct (IH s) as [ts Hts]; [lia|]. exists ts. constructor; auto. now apply is_ws_iff.
  - destruct (lex_one c s) as [[k l] r] eqn:E.
    pose proof (lex_one_shorter _ _ _ _ _ Hw E).
    destruct (lex_one_sound _ _ _ _ _ Hw E) as [(w & E1 & S & M)|(D & N & -> & ->)].
    + destruct (IH r) as [ts Hts]; [lia|]. rewrite E1. exists (Tok k l :: ts). econstructor; eauto.
    + exists [Tok k s]. now constructor.
Qed.

Lemma segment_lexes s ts : segment s = ts ++ [Tok KEof []] -> lexes s ts.
Proof.
  intros H. destruct (lexes_total s) as [ts' H']. rewrite (lexes_segment _ _ H') in H.
  apply app_inj_tail in H. destruct H as [-> _]. assumption.
Qed.

Lemma segment_shape s : exists ts, segment s = ts ++ [Tok KEof []] /\ lexes s ts.
Proof. destruct (lexes_total s) as [ts H]. exists ts. split; auto. now apply lexes_segment. Qed.

Lemma spells_not_eof w t : spells w t -> tkind t <> KEof.
Proof.
  intros S. destruct (spells_nonempty _ _ S) as (c & w' & ->).
  destruct (spells_cases _ _ _ S) as [(k' & D & ->)|[(D & _ & ->)|[(D & _ & ->)|[(k' & b' & D & _ & _ & ->)|(_ & _ & _ & _ & _ & _ & ->)]]]]; simpl.
  - apply op_rest_in in D. unfold operators in D; simpl in D; decompose [or] D; try contradiction;
      match goal with E : (_, _) = (_, _) |- _ => inversion E; discriminate end.
  - now destruct (existsb (fun x => x =? 46) w').
  - destruct (keyword_spec (c :: w')) as [K|[K _]]; [|rewrite K; discriminate].
    unfold keywords in K. intros Hk. rewrite Hk in K. simpl in K. decompose [or] K; try contradiction; discriminate.
  - unfold delimiters in D; simpl in D. destruct D as [[= <- _]|[[= <- _]|[]]]; discriminate.
  - discriminate.
Qed.

Lemma lexes_no_eof s ts : lexes s ts -> Forall (fun t => tkind t <> KEof) ts.
Proof.
  induction 1; auto.
  - constructor; auto. eapply spells_not_eof; eauto.
  - repeat constructor. simpl. unfold delimiters in H; simpl in H. destruct H as [[= <- _]|[[= <- _]|[]]]; discriminate.
Qed.

Lemma lexes_laid_out s ts : lexes s ts -> laid_out ts s.
Proof.
  induction 1.
  - apply lo_end. constructor.
  - inversion IHlexes; subst.
    + apply lo_end. constructor; auto.
    + rewrite app_comm_cons. constructor; auto. constructor; auto.
    + rewrite app_comm_cons. apply lo_unclosed; auto. constructor; auto.
  - apply (lo_token [] w t ts rest); auto. constructor.
  - apply (lo_unclosed [] k d body); auto. constructor.
Qed.

(** ** white space after a token always ends it *)
Lemma op_extend k c w k2 e w2 : In (k, c :: w) operators -> In (k2, c :: w ++ e :: w2) operators -> ~ ws e.
Proof.
  intros H1 H2. rewrite <- is_ws_iff.
  assert (A : forall k s, In (k, s) operators -> Forall (fun x => is_ws x = false) s).
  { clear. unfold operators; simpl; intros k s H; decompose [or] H; try contradiction;
      match goal with E : (_, _) = (_, _) |- _ => inversion E; subst; repeat constructor end. }
  apply A in H2. inversion H2; subst. apply Forall_app in H4. destruct H4 as [_ H4]. inversion H4; subst. congruence.
Qed.

Lemma maximal_before_ws c w t rest : spells (c :: w) t -> (rest = [] \/ exists e r, rest = e :: r /\ ws e) ->
  maximal (c :: w) rest.
Proof.
  intros S R. apply maximal_intro. intros w' t' rest' E S'.
  destruct (Nat.le_gt_cases (length w') (length w)) as [|L]; auto. exfalso.
  (* w' strictly extends w, so it contains the first character of rest *)
  assert (X : exists e r w2, rest = e :: r /\ ws e /\ w' = w ++ e :: w2).
  { destruct R as [->|(e & r & -> & He)].
    - exfalso. assert (length (w ++ []) = length (w' ++ rest')) by congruence. rewrite !app_length in H. simpl in H. lia.
    - exists e, r. clear -E L He. revert w' E L. induction w as [|x w IH]; intros [|y w'] E L; simpl in *; try lia.
      + inversion E; subst. eauto.
      + inversion E; subst. destruct (IH w') as (w2 & A & B & ->); auto; [lia|]. eauto. }
  destruct X as (e & r & w2 & -> & He & ->).
  destruct (ws_not_special _ He) as (Ne1 & Ne2 & Ne3 & Ne4 & Ne5).
  destruct (spells_cases _ _ _ S') as [(k2 & D' & _)|[(D' & F' & _)|[(D' & F' & _)|[(k2 & b2 & D' & Nb' & E' & _)|(_ & _ & _ & _ & _ & D' & _)]]]].
  - assert (Hs : ~ ws e); [|contradiction].
    apply op_rest_in in D'.
    assert (A : forall k s, In (k, s) operators -> Forall (fun x => is_ws x = false) s).
    { clear. unfold operators; simpl; intros k s H; decompose [or] H; try contradiction;
        match goal with E : (_, _) = (_, _) |- _ => inversion E; subst; repeat constructor end. }
    apply A in D'. inversion D'; subst. apply Forall_app in H2. destruct H2 as [_ H2]. inversion H2; subst.
    now apply is_ws_false.
  - apply Forall_app in F'. destruct F' as [_ F']. inversion F'; subst. tauto.
  - apply Forall_app in F'. destruct F' as [_ F']. inversion F'; subst. tauto.
  - (* a quotation: [w] must itself be complete *)
    assert (Hw : exists b1, w = b1 ++ [c] /\ ~ In c b1).
    { destruct (spells_cases _ _ _ S) as [(k1 & D & _)|[(D & _)|[(D & _)|[(k1 & b1 & D & Nb & -> & _)|(_ & _ & _ & _ & D & _)]]]].
      - exfalso. apply op_rest_in in D. unfold delimiters in D'; simpl in D'. destruct D' as [[= _ <-]|[[= _ <-]|[]]];
          unfold operators in D; simpl in D; decompose [or] D; try contradiction; discriminate.
      - exfalso. unfold delimiters, digit in *; simpl in D'. destruct D' as [[= _ <-]|[[= _ <-]|[]]]; lia.
      - exfalso. unfold delimiters, letter in *; simpl in D'. destruct D' as [[= _ <-]|[[= _ <-]|[]]]; lia.
      - eauto.
      - exfalso. eapply D; eauto. }
    destruct Hw as (b1 & -> & _). rewrite <- app_assoc in E'. simpl in E'.
    destruct (exists_last (l := e :: w2)) as (x & y & Ex); [discriminate|].
    rewrite Ex in E'. rewrite app_comm_cons, app_assoc in E'. apply app_inj_tail in E'. destruct E' as [E' _].
    apply Nb'. rewrite <- E'. apply in_or_app. right. now left.
  - destruct w; discriminate.
Qed.

Lemma blank_segment gap s : blank gap -> segment (gap ++ s) = segment s.
Proof. induction 1; simpl; auto. now rewrite segment_ws. Qed.

Lemma spells_segment w t rest : spells w t -> (rest = [] \/ exists e r, rest = e :: r /\ ws e) ->
  segment (w ++ rest) = t :: segment rest.
Proof.
  intros S R. destruct (spells_nonempty _ _ S) as (c & w' & ->). simpl.
  erewrite segment_one; [|apply is_ws_false; eapply spells_not_ws; eauto
    |eapply lex_one_complete; eauto; eapply maximal_before_ws; eauto].
  now destruct t.
Qed.

Lemma spaced_segment ts s : spaced ts s -> segment s = ts ++ [Tok KEof []].
Proof.
  induction 1.
  - rewrite <- (app_nil_r gap), blank_segment; auto.
  - rewrite blank_segment; auto. rewrite <- (app_nil_r w). rewrite spells_segment with (t := t); auto.
  - rewrite blank_segment; auto. rewrite spells_segment with (t := t); eauto. rewrite IHspaced. reflexivity.
Qed.

(** ** concatenation *)
Lemma app_split {A} (a : list A) : forall t w r, a ++ t = w ++ r ->
  (exists x, a = w ++ x /\ r = x ++ t) \/ (exists y z, w = a ++ y :: z /\ t = (y :: z) ++ r).
Proof.
  induction a as [|x a IH]; intros t [|y w] r E; simpl in *.
  - left. exists []. auto.
  - right. exists y, w. auto.
  - left. exists (x :: a). auto.
  - inversion E; subst. destruct (IH _ _ _ H1) as [(x' & -> & ->)|(y' & z & -> & ->)]; [left|right]; eauto.
Qed.

Lemma maximal_ws_extend c w t rest tail :
  spells (c :: w) t -> maximal (c :: w) rest -> (exists e r, tail = e :: r /\ ws e) ->
  maximal (c :: w) (rest ++ tail).
Proof.
  intros S M (e & r & -> & He).
  destruct rest as [|x rest]; [apply (maximal_before_ws _ _ _ _ S); simpl; eauto|].
  apply maximal_intro. intros w' t' rest' E S'. rewrite app_assoc in E.
  destruct (app_split _ _ _ _ E) as [(r2 & X & _)|(y & w2 & -> & Y)].
  - (* the spelling lies inside the old text *)
    specialize (M (c :: w') t' r2). simpl in M. rewrite X in M.
    specialize (M eq_refl S'). lia.
  - exfalso. simpl in Y. inversion Y; subst y. clear Y. rewrite <- app_assoc in *.
    destruct (ws_not_special _ He) as (Ne1 & Ne2 & Ne3 & Ne4 & Ne5).
    destruct (spells_cases _ _ _ S') as [(k2 & D' & _)|[(D' & F' & _)|[(D' & F' & _)|[(k2 & b2 & D' & Nb' & E' & _)|(_ & _ & _ & _ & _ & D' & _)]]]].
    + apply op_rest_in in D'.
      assert (A : forall k s, In (k, s) operators -> Forall (fun x => is_ws x = false) s).
      { clear. unfold operators; simpl; intros k s H; decompose [or] H; try contradiction;
          match goal with E : (_, _) = (_, _) |- _ => inversion E; subst; repeat constructor end. }
      apply A in D'. rewrite app_comm_cons, app_assoc in D'. apply Forall_app in D'. destruct D' as [_ D'].
      inversion D'; subst. apply is_ws_iff in He. congruence.
    + rewrite app_assoc in F'. apply Forall_app in F'. destruct F' as [_ F']. inversion F'; subst. tauto.
    + rewrite app_assoc in F'. apply Forall_app in F'. destruct F' as [_ F']. inversion F'; subst. tauto.
    + (* quotation *)
      assert (Hw : exists b1, w = b1 ++ [c] /\ ~ In c b1).
      { destruct (spells_cases _ _ _ S) as [(k1 & D & _)|[(D & _)|[(D & _)|[(k1 & b1 & D & Nb & -> & _)|(_ & _ & _ & _ & D & _)]]]].
        - exfalso. apply op_rest_in in D. unfold delimiters in D'; simpl in D'. destruct D' as [[= _ <-]|[[= _ <-]|[]]];
            unfold operators in D; simpl in D; decompose [or] D; try contradiction; discriminate.
        - exfalso. unfold delimiters, digit in *; simpl in D'. destruct D' as [[= _ <-]|[[= _ <-]|[]]]; lia.
        - exfalso. unfold delimiters, letter in *; simpl in D'. destruct D' as [[= _ <-]|[[= _ <-]|[]]]; lia.
        - eauto.
        - exfalso. eapply D; eauto. }
      destruct Hw as (b1 & -> & _). rewrite <- app_assoc in E'. simpl in E'.
      destruct (exists_last (l := x :: rest ++ e :: w2)) as (y & z & Ey); [discriminate|].
      rewrite Ey in E'. rewrite app_comm_cons, app_assoc in E'. apply app_inj_tail in E'. destruct E' as [E' _].
      apply Nb'. rewrite <- E'. apply in_or_app. right. now left.
    + destruct w; discriminate.
Qed.

Lemma closed_concat a b c : closed a -> ws c -> forall ts, segment a = ts ++ [Tok KEof []] ->
  segment (a ++ c :: b) = ts ++ segment (c :: b).
Proof.
  intros Cl Hc. induction Cl; intros ts E.
  - rewrite segment_nil in E. destruct ts as [|t ts]; [reflexivity|]. inversion E. destruct ts; discriminate.
  - rewrite segment_ws in E by assumption. cbn [app]. rewrite (segment_ws _ (s ++ c :: b)) by assumption. auto.
  - destruct (spells_nonempty _ _ H) as (c' & w' & ->).
    assert (Hw : is_ws c' = false) by (apply is_ws_false; eapply spells_not_ws; eauto).
    simpl in E. rewrite (segment_one _ _ _ _ _ Hw (lex_one_complete _ _ _ _ H H0)) in E.
    destruct ts as [|t' ts]; simpl in E.
    { destruct (segment_shape rest) as (ts & Er & _). rewrite Er in E. destruct ts; discriminate. }
    inversion E as [[Et Er]]; subst. specialize (IHCl _ Er).
    rewrite <- app_assoc. simpl.
    rewrite (segment_one _ _ _ _ _ Hw (lex_one_complete _ _ _ _ H (maximal_ws_extend _ _ _ _ (c :: b) H H0 ltac:(eauto)))).
    now rewrite IHCl.
Qed.

Lemma quoted_extend k d body b : In (k, d) delimiters -> ~ In d body ->
  exists l tl, segment (d :: body ++ 10 :: b) = Tok k (body ++ 10 :: l) :: tl.
Proof.
  intros D N.
  destruct (span (fun c => negb (c =? d)) b) as [l r] eqn:F.
  destruct (span_spec _ _ _ _ F) as (-> & B & C).
  assert (Hs : span (fun c => negb (c =? d)) (body ++ 10 :: l ++ r) = (body ++ 10 :: l, r)).
  { change (10 :: l ++ r) with ((10 :: l) ++ r). rewrite app_assoc. apply span_app; auto.
    apply Forall_app. split; [|constructor; auto].
    - apply Forall_forall. intros x Hx. apply negb_true_iff, N.eqb_neq. intros ->; contradiction.
    - apply negb_true_iff, N.eqb_neq. unfold delimiters in D; simpl in D. intros <-. destruct D as [D|[D|[]]]; inversion D. }
  exists l. eexists.
  apply segment_one; [eapply delimiter_not_ws; eauto|].
  unfold delimiters in D; simpl in D. destruct D as [[= <- <-]|[[= <- <-]|[]]];
    unfold lex_one; simpl; unfold lex_quoted, quote, backtick; rewrite Hs; reflexivity.
Qed.

Lemma lexes_closed_or s ts : lexes s ts -> closed s \/
  exists ts0 k body, ts = ts0 ++ [Tok k body] /\
    forall b, exists l tl, segment (s ++ 10 :: b) = ts0 ++ Tok k (body ++ 10 :: l) :: tl.
Proof.
  induction 1.
  - left. constructor.
  - destruct IHlexes as [C|(ts0 & k & body & -> & Hb)]; [left; now constructor|right].
    exists ts0, k, body. split; auto. intros b. simpl. rewrite segment_ws by auto. apply Hb.
  - destruct IHlexes as [C|(ts0 & k & body & -> & Hb)]; [left; econstructor; eauto|right].
    exists (t :: ts0), k, body. split; auto. intros b. destruct (Hb b) as (l & tl & Hl).
    exists l, tl. destruct (spells_nonempty _ _ H) as (c' & w' & ->).
    assert (Hw : is_ws c' = false) by (apply is_ws_false; eapply spells_not_ws; eauto).
    assert (W10 : ws 10) by (apply is_ws_iff; reflexivity).
    rewrite <- app_assoc. simpl.
    rewrite (segment_one _ _ _ _ _ Hw (lex_one_complete _ _ _ _ H (maximal_ws_extend _ _ _ _ (10 :: b) H H0 ltac:(eauto)))).
    rewrite Hl. now destruct t.
  - right. exists [], k, body. split; auto. intros b. simpl. apply quoted_extend; auto.
Qed.

Lemma closed_iff a : closed a <->
  forall b ts, segment a = ts ++ [Tok KEof []] -> segment (a ++ 10 :: b) = ts ++ segment b.
Proof.
  assert (W10 : ws 10) by (apply is_ws_iff; reflexivity).
  split.
  - intros C b ts E. pose proof (closed_concat a b 10 C W10 ts E) as R. rewrite segment_ws in R by exact W10. exact R.
  - intros H. destruct (segment_shape a) as (ts & E & L).
    destruct (lexes_closed_or _ _ L) as [C|(ts0 & k & body & -> & Hb)]; auto.
    exfalso. specialize (H [] _ E). destruct (Hb []) as (l & tl & Hl). rewrite H in Hl.
    rewrite <- app_assoc in Hl. apply app_inv_head in Hl. simpl in Hl. inversion Hl as [[Hbody _]].
    assert (length body = length (body ++ 10 :: l)) by congruence. rewrite app_length in H0. simpl in H0. lia.
Qed.

Lemma lexes_unique s ts ts' : lexes s ts -> lexes s ts' -> ts' = ts.
Proof.
  intros H H'. apply lexes_segment in H. apply lexes_segment in H'. rewrite H in H'.
  apply app_inj_tail in H'. now destruct H'.
Qed.

Lemma lossless s : exists ts,
  segment s = ts ++ [Tok KEof []] /\ Forall (fun t => tkind t <> KEof) ts /\ laid_out ts s.
Proof.
  destruct (segment_shape s) as (ts & E & L). exists ts. split; auto. split.
  - eapply lexes_no_eof; eauto.
  - now apply lexes_laid_out.
Qed.

Lemma longest_match s : exists ts,
  segment s = ts ++ [Tok KEof []] /\ lexes s ts /\ forall ts', lexes s ts' -> ts' = ts.
Proof.
  destruct (segment_shape s) as (ts & E & L). exists ts. repeat split; auto.
  intros ts' L'. eapply lexes_unique; eauto.
Qed.

Lemma no_separator : exists a b ts,
  closed a /\ segment a = ts ++ [Tok KEof []] /\ segment (a ++ b) <> ts ++ segment b.
Proof.
  exists (lit "le"), (lit "t"), [Tok KIdent (lit "le")]. split; [|split; [reflexivity|discriminate]].
  apply closed_iff. intros b ts E. change (segment (lit "le")) with ([Tok KIdent (lit "le")] ++ [Tok KEof []]) in E.
  apply app_inj_tail in E. destruct E as [<- _].
  assert (W10 : ws 10) by (apply is_ws_iff; reflexivity).
  pose proof (segment_one 108 (101 :: 10 :: b) KIdent (lit "le") (10 :: b) eq_refl eq_refl) as R.
  etransitivity; [exact R|]. reflexivity.
Qed.
