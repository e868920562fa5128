(** Proofs about report_text. *)
From Verif Require Import SpecReport EvaluatorTop DisplayProofs DurationProofs SpecNumber ValueProofs NumberProofs.
From Coq Require Import Lia.
Open Scope N_scope.

(** ** the lines of a report *)
Lemma line_cut (a b : list N) x y : ~ In 10 a -> ~ In 10 b -> a ++ 10 :: x = b ++ 10 :: y -> a = b /\ x = y.
Proof.
  revert b. induction a as [|c a IH]; intros [|d b] A B E; cbn [app] in E.
  - injection E as ->. auto.
  - injection E as <- _. destruct B. now left.
  - injection E as -> _. destruct A. now left.
  - injection E as -> E. destruct (IH b) as [-> ->]; auto; intros I; [apply A|apply B]; now right.
Qed.
Lemma duration_line ns : ~ In 10 (show_duration ns).
Proof.
  destruct (show_duration_text ns) as (p & x & u & k & -> & D & _ & I & _). intros J. apply in_app_or in J. destruct J as [J|J].
  - apply (proj2 (decimal_chars _ _ D)) in J. destruct J as [J|J]; [unfold digit in J; lia|discriminate].
  - assert (U : u = lit "ns" \/ u = 181 :: lit "s" \/ u = lit "ms" \/ u = lit "s").
    { cbn in I. destruct I as [I|[I|[I|[I|[]]]]]; apply (f_equal fst) in I; cbn [fst] in I; subst u; auto. }
    destruct U as [-> |[-> |[-> | ->]]]; cbn in J; intuition discriminate.
Qed.
Definition header_line (r : record) : str := lit "=== TEST  " ++ r_name r.
Definition body_line (a : assertion) : str :=
  a_expr a ++ lit " => " ++ a_left a ++ lit " " ++ a_compare a ++ lit " " ++ a_right a ++ lit " => " ++ show_bool (a_result a).
Definition verdict_line (r : record) : str :=
  lit "--- " ++ (if passed r then lit "PASS" else lit "FAIL") ++ lit "  " ++ r_name r ++ lit " (" ++ show_duration (t_total (r_time r)) ++ lit ")".
Lemma record_lines r x : (show_record r ++ [10]) ++ x = header_line r ++ 10 :: flat_map (fun a => body_line a ++ [10]) (r_asserts r) ++ verdict_line r ++ 10 :: x.
Proof.
  assert (E : flat_map show_assert_line (r_asserts r) = flat_map (fun a => body_line a ++ [10]) (r_asserts r)).
  { apply flat_map_ext. intros a. unfold show_assert_line, body_line. rewrite <- !app_assoc. reflexivity. }
  unfold show_record. rewrite E. unfold header_line, verdict_line. rewrite <- !app_assoc. reflexivity.
Qed.

Lemma out_app (a b : list N) : ~ In 10 a -> ~ In 10 b -> ~ In 10 (a ++ b).
Proof. rewrite in_app_iff. tauto. Qed.
Lemma out_lit (a : list N) : existsb (N.eqb 10) a = false -> ~ In 10 a.
Proof. intros E I. assert (X : existsb (N.eqb 10) a = true) by (apply existsb_exists; exists 10; auto). congruence. Qed.
Lemma body_in_line a : ~ In 10 (a_expr a ++ a_left a ++ a_compare a ++ a_right a) -> ~ In 10 (body_line a).
Proof.
  rewrite !in_app_iff. intros N. unfold body_line. repeat apply out_app; try (apply out_lit; reflexivity); try tauto. destruct (a_result a); apply out_lit; reflexivity.
Qed.
Lemma header_in_line r : ~ In 10 (r_name r) -> ~ In 10 (header_line r).
Proof. intros N. apply out_app; auto. apply out_lit. reflexivity. Qed.
Lemma verdict_in_line r : ~ In 10 (r_name r) -> ~ In 10 (verdict_line r).
Proof.
  intros N. unfold verdict_line. repeat apply out_app; auto using duration_line; try (apply out_lit; reflexivity). destruct (passed r); apply out_lit; reflexivity.
Qed.
Lemma body_end a : exists x, body_line a = x ++ show_bool (a_result a).
Proof. unfold body_line. eexists (a_expr a ++ lit " => " ++ a_left a ++ lit " " ++ a_compare a ++ lit " " ++ a_right a ++ lit " => "). now rewrite <- !app_assoc. Qed.
Lemma body_result a b : body_line a = body_line b -> a_result a = a_result b.
Proof.
  destruct (body_end a) as (x & ->), (body_end b) as (y & ->). intros E. apply (f_equal (@rev _)) in E. rewrite !rev_app_distr in E.
  destruct (a_result a), (a_result b); auto; discriminate.
Qed.
Lemma verdict_end r : exists x, verdict_line r = x ++ [41].
Proof.
  exists (lit "--- " ++ (if passed r then lit "PASS" else lit "FAIL") ++ lit "  " ++ r_name r ++ lit " (" ++ show_duration (t_total (r_time r))).
  unfold verdict_line. rewrite <- !app_assoc. reflexivity.
Qed.
Lemma body_not_verdict a r : body_line a <> verdict_line r.
Proof.
  destruct (body_end a) as (x & ->), (verdict_end r) as (y & ->). intros E. apply (f_equal (@rev _)) in E. rewrite !rev_app_distr in E. destruct (a_result a); discriminate.
Qed.
Lemma bodies_cut r r' x y : ~ In 10 (verdict_line r) -> ~ In 10 (verdict_line r') -> forall l l',
  Forall (fun a => ~ In 10 (body_line a)) l -> Forall (fun a => ~ In 10 (body_line a)) l' ->
  flat_map (fun a => body_line a ++ [10]) l ++ verdict_line r ++ 10 :: x = flat_map (fun a => body_line a ++ [10]) l' ++ verdict_line r' ++ 10 :: y ->
  map a_result l = map a_result l' /\ verdict_line r = verdict_line r' /\ x = y.
Proof.
  intros V V'. induction l as [|a l IH]; intros [|b l'] F F' E; cbn [flat_map] in E; try rewrite <- !app_assoc in E; cbn [app] in E.
  - apply line_cut in E; auto.
  - apply line_cut in E; auto; [|now inversion F']. destruct E as [E _]. symmetry in E. now apply body_not_verdict in E.
  - apply line_cut in E; auto; [|now inversion F]. destruct E as [E _]. now apply body_not_verdict in E.
  - inversion F; inversion F'; subst. apply line_cut in E; auto. destruct E as [E1 E2]. destruct (IH l') as (M & E3 & E4); auto. split; auto. cbn [map]. f_equal; auto. now apply body_result.
Qed.
Lemma verdict_duration r r' : r_name r = r_name r' -> verdict_line r = verdict_line r' -> t_total (r_time r) = t_total (r_time r').
Proof.
  unfold verdict_line. intros -> E. assert (P : passed r = passed r') by (destruct (passed r), (passed r'); auto; discriminate). rewrite P in E.
  repeat apply app_inv_head in E. apply app_inv_tail in E. now apply show_duration_inj.
Qed.
Theorem reports_told rs rs' : Forall in_lines rs -> Forall in_lines rs' -> report_text rs = report_text rs' -> map gist rs = map gist rs'.
Proof.
  revert rs'. induction rs as [|r rs IH]; intros [|r' rs'] F F' E; auto; unfold report_text in E; cbn [flat_map] in E.
  - exfalso. rewrite record_lines in E. unfold header_line in E. discriminate.
  - exfalso. rewrite record_lines in E. unfold header_line in E. discriminate.
  - inversion F as [|? ? [N A] F1]; inversion F' as [|? ? [N' A'] F1']; subst. rewrite !record_lines in E.
    apply line_cut in E; auto using header_in_line. destruct E as [H E]. unfold header_line in H. apply app_inv_head in H.
    apply bodies_cut in E; auto using verdict_in_line; [|eapply Forall_impl; [|exact A]; apply body_in_line|eapply Forall_impl; [|exact A']; apply body_in_line].
    destruct E as (M & V & X). cbn [map]. f_equal; [|apply IH; auto]. unfold gist. rewrite H, M. f_equal. now apply verdict_duration.
Qed.
(** one report: its first and its last line *)
Lemma report_last r r' : ~ In 10 (r_name r) -> ~ In 10 (r_name r') -> show_record r = show_record r' ->
  r_name r = r_name r' /\ passed r = passed r' /\ t_total (r_time r) = t_total (r_time r').
Proof.
  intros Hn Hn' E. assert (Q := f_equal (fun x => (x ++ [10]) ++ []) E). cbv beta in Q. rewrite !record_lines in Q.
  apply line_cut in Q; auto using header_in_line. destruct Q as [H Q]. unfold header_line in H. apply app_inv_head in H. split; auto.
  assert (L : forall r, exists b, flat_map (fun a => body_line a ++ [10]) (r_asserts r) = b /\ (b = [] \/ exists b', b = b' ++ [10])).
  { clear. intros r. eexists. split; [reflexivity|]. induction (r_asserts r) as [|a l [IH|(b & IH)]]; cbn [flat_map]; auto; right.
    - rewrite IH, app_nil_r. eauto.
    - rewrite IH, app_assoc. eauto. }
  assert (G : forall (a b x y : list N), ~ In 10 x -> ~ In 10 y -> (a = [] \/ exists a', a = a' ++ [10]) -> (b = [] \/ exists b', b = b' ++ [10]) -> a ++ x = b ++ y -> x = y).
  { clear. intros a b x y X Y A B E. apply (f_equal (@rev _)) in E. rewrite !rev_app_distr in E. rewrite in_rev in X, Y. rewrite <- (rev_involutive x), <- (rev_involutive y). f_equal.
    destruct A as [-> |(a' & ->)], B as [-> |(b' & ->)]; rewrite ?rev_app_distr in E; cbn [rev app] in E; rewrite ?app_nil_r in E; auto.
    - exfalso. apply X. rewrite E. apply in_or_app. right. now left.
    - exfalso. apply Y. rewrite <- E. apply in_or_app. right. now left.
    - apply line_cut in E; tauto. }
  destruct (L r) as (b & B & LB), (L r') as (b' & B' & LB'). rewrite B, B' in Q. rewrite !app_assoc in Q. apply app_inv_tail in Q.
  pose proof (G _ _ _ _ (verdict_in_line _ Hn) (verdict_in_line _ Hn') LB LB' Q) as V. split; [|now apply verdict_duration].
  unfold verdict_line in V. destruct (passed r), (passed r'); auto; discriminate.
Qed.
Theorem report_verdict r r' : ~ In 10 (r_name r) -> ~ In 10 (r_name r') -> show_record r = show_record r' ->
  r_name r = r_name r' /\ (Forall (fun a => a_result a = true) (r_asserts r) <-> Forall (fun a => a_result a = true) (r_asserts r')) /\ t_total (r_time r) = t_total (r_time r').
Proof. intros N N' E. destruct (report_last r r' N N' E) as (A & B & C). rewrite <- !passed_iff, B. repeat split; auto. Qed.

(** ** assertions *)
Definition compared (w : env) (e : expr) (a : assertion) (s0 : st) : Prop :=
  exists t l r lv s1 rv s2, e = EBin t l r /\ In (tkind t) comparison_kinds /\ operand w l s0 lv s1 /\ operand w r s1 rv s2 /\
    binop w (tkind t) lv rv = Ok (VBool (a_result a)) /\ a_expr a = show_expr e.
Lemma asserted_at w es s as_ s' : asserted w es s as_ s' ->
  Forall2 (fun e a => exists s0, reached_at w es s e s0 /\ compared w e a s0) (filter comparison_expr es) as_.
Proof.
  assert (X : forall e0 es s s1 (P : expr -> assertion -> st -> Prop), (forall as0 s0 before, asserted w before s1 as0 s0 -> exists as1, asserted w (e0 :: before) s as1 s0) ->
    forall es' as_, Forall2 (fun e a => exists s0, reached_at w es s1 e s0 /\ P e a s0) es' as_ -> Forall2 (fun e a => exists s0, reached_at w (e0 :: es) s e s0 /\ P e a s0) es' as_).
  { intros e0 es0 s0 s1 P H es' as0 F. induction F as [|e a es' as0 (s2 & (before & after & as1 & -> & A) & Q) F IH]; constructor; auto.
    exists s2. split; auto. destruct (H _ _ _ A) as (as2 & A2). exists (e0 :: before), after, as2. auto. }
  induction 1 as [s|e es s as_ s' N A IH|t l r es s lv s1 rv s2 as_ s3 N O1 O2 A IH|t l r es s lv s1 rv s2 b as_ s3 K O1 O2 B A IH].
  - constructor.
  - cbn [filter]. replace (comparison_expr e) with false by (destruct e; auto; exfalso; eapply N; eauto). eapply X; [|exact IH]. intros as0 s0 before H. exists as0. now apply at_other.
  - cbn [filter comparison_expr]. destruct (in_dec kind_dec (tkind t) comparison_kinds); [contradiction|]. eapply X; [|exact IH]. intros as0 s0 before H. exists as0. eapply at_operator; eauto.
  - cbn [filter comparison_expr]. destruct (in_dec kind_dec (tkind t) comparison_kinds); [|contradiction]. constructor.
    + exists s. split; [exists [], es, []; split; [reflexivity|constructor]|]. exists t, l, r, lv, s1, rv, s2. auto 9.
    + eapply X; [|exact IH]. intros as0 s0 before H. eexists. eapply at_comparison; eauto.
Qed.

Lemma null_compared w k v b : In k comparison_kinds -> binop w k VNull v = Ok (VBool b) -> (b = true <-> k = KEq /\ v = VNull \/ k = KNe /\ v <> VNull).
Proof.
  intros K. cbn in K. decompose [or] K; try contradiction; subst k; erewrite binop_strict by reflexivity; intros [= <-]; destruct v; cbn; intuition congruence.
Qed.
Lemma compared_null w k v b : In k comparison_kinds -> binop w k v VNull = Ok (VBool b) -> (b = true <-> k = KEq /\ v = VNull \/ k = KNe /\ v <> VNull).
Proof.
  intros K. cbn in K. decompose [or] K; try contradiction; subst k; erewrite binop_strict by reflexivity; intros [= <-]; destruct v; cbn; intuition congruence.
Qed.
(** typed into a session in the same state, the text of an assertion whose sides can be
    computed gives what was reported *)
Theorem report_again w text src n m es s as_ s' : parse text = Ok src -> mget n (s_requests src) = Some (m, es) -> asserted w es s as_ s' ->
  Forall2 (fun e a => exists t l r s0, e = EBin t l r /\ reached_at w es s e s0 /\
    (no_let_operand e -> fractional e -> no_number_field e ->
     forall lv rv s2, in_order w [l; r] s0 [lv; rv] s2 -> line_done w (a_expr a) s0 (LPrinted (printing (if a_result a then lit "true" else lit "false") s2))))
    (filter comparison_expr es) as_.
Proof.
  intros P M A. pose proof (asserted_at _ _ _ _ _ A) as F.
  assert (I : Forall (fun e => In e es) (filter comparison_expr es)) by (apply Forall_forall; intros e I; now apply filter_In in I). clear A.
  induction F as [|e a l as_ (s0 & R & t & x & y & lv & s1 & rv & s2 & -> & K & O1 & O2 & B & T) F IH]; constructor; [|inversion I; auto].
  exists t, x, y, s0. split; auto. split; auto. intros L1 L2 L3 lv' rv' s3 IO. inversion I as [|? ? IE _]; subst.
  destruct (display_round_trip text src (EBin t x y) P) as (src' & P' & E1 & E2 & _); eauto 7.
  assert (SK : In (tkind t) strict_kinds) by (unfold strict_kinds, comparison_kinds in *; cbn [In] in *; tauto).
  pose proof (proj1 (binary_order w t x y s0 SK) _ _ _ IO) as EV. inversion IO as [|? ? ? ? sa ? ? Q1 IO1]; subst. inversion IO1 as [|? ? ? ? sb ? ? Q2 IO2]; subst. inversion IO2; subst.
  assert (lv' = lv /\ sa = s1) as [-> ->] by (destruct O1 as [O1|(_ & err & O1)]; rewrite O1 in Q1; [injection Q1; auto|discriminate]).
  assert (rv' = rv /\ s3 = s2) as [-> ->] by (destruct O2 as [O2|(_ & err & O2)]; rewrite O2 in Q2; [injection Q2; auto|discriminate]).
  rewrite B in EV. rewrite T. replace (if a_result a then lit "true" else lit "false") with (show_value (e_host w) (VBool (a_result a))) by (destruct (a_result a); reflexivity).
  eapply ld_value; [exact P'|]. rewrite E1, E2. destruct s0 as [[vs rq rc] tr]. cbn [s_ctx c_vars c_reqs c_recs s_trace mextend fold_left].
  rewrite block_one. exact EV.
Qed.
(** a side that cannot be computed counts as null *)
Theorem report_unknown w es s as_ s' : asserted w es s as_ s' ->
  Forall2 (fun e a => exists t l r s0 lv rv s1 s2, e = EBin t l r /\ reached_at w es s e s0 /\ operand w l s0 lv s1 /\ operand w r s1 rv s2 /\
    ((exists er, eval_expr w l s0 = (Err er, s1)) -> (a_result a = true <-> tkind t = KEq /\ rv = VNull \/ tkind t = KNe /\ rv <> VNull)) /\
    ((exists er, eval_expr w r s1 = (Err er, s2)) -> (a_result a = true <-> tkind t = KEq /\ lv = VNull \/ tkind t = KNe /\ lv <> VNull)))
    (filter comparison_expr es) as_.
Proof.
  intros A. pose proof (asserted_at _ _ _ _ _ A) as F. clear A.
  induction F as [|e a l as_ (s0 & R & t & x & y & lv & s1 & rv & s2 & -> & K & O1 & O2 & B & T) F IH]; constructor; auto.
  exists t, x, y, s0, lv, rv, s1, s2. split; auto. split; auto. split; auto. split; auto. split; intros (er & E).
  - assert (lv = VNull) as -> by (destruct O1 as [O1|(-> & _)]; [rewrite O1 in E; discriminate|auto]). now apply null_compared with (w := w).
  - assert (rv = VNull) as -> by (destruct O2 as [O2|(-> & _)]; [rewrite O2 in E; discriminate|auto]). now apply compared_null with (w := w).
Qed.
