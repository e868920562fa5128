(** The bytes of a request on the connection, and placeholders with line breaks *)
From Verif Require Import SpecHttp TextProofs TextMore UrlProofs RequestProofs TemplateProofs.
From Coq Require Import ZifyBool ZifyN ZifyNat.
Open Scope N_scope.

(** ** UTF-8 keeps line feeds *)
Lemma utf8_char_lf c : In 10 (utf8_char c) -> c = 10.
Proof.
  unfold utf8_char. destruct (c <? 128); [cbn; intuition|]. destruct (c <? 2048); [|destruct (c <? 65536)]; cbn [In];
    intros H; repeat (destruct H as [H|H]); try contradiction; exfalso; revert H;
    match goal with |- ?a + ?b = _ -> _ => generalize b; intros; lia end.
Qed.
Lemma utf8_lf s : ~ In 10 s -> ~ In 10 (utf8 s).
Proof.
  intros N I. unfold utf8 in I. apply in_flat_map in I. destruct I as (c & C & I). apply utf8_char_lf in I. subst. auto.
Qed.
Lemma utf8_app a b : utf8 (a ++ b) = utf8 a ++ utf8 b.
Proof. apply flat_map_app. Qed.

(** ** where the parts of a request come from *)
Lemma split_next_in (p : str) c s : forall a r, split_next p s = (a, r) -> (In c a -> In c s) /\ (forall b, r = Some b -> In c b -> In c s).
Proof.
  induction s as [|x s IH]; intros a r H; unfold split_next in H; fold split_next in H; destruct (strip_prefix p _) as [q|] eqn:E.
  - inversion H; subst. split; [intros []|]. intros b [= <-] I. apply strip_prefix_iff in E. rewrite E. apply in_app_iff. auto.
  - inversion H; subst. split; [auto|discriminate].
  - inversion H; subst. split; [intros []|]. intros b [= <-] I. apply strip_prefix_iff in E. rewrite E. apply in_app_iff. auto.
  - destruct (split_next p s) as [a' r'] eqn:F. inversion H; subst. destruct (IH _ _ eq_refl) as [A B]. split.
    + cbn. intros [|]; auto.
    + intros b E' I. cbn. right. eauto.
Qed.
Lemma url_path_in c s : In c (u_path (url_from s)) -> c = 47 \/ In c s.
Proof.
  unfold url_from. destruct (split_next (lit "://") s) as [a [r|]] eqn:E1; [|cbn; intuition].
  destruct (split_next (lit "://") r) as [b r'] eqn:E2. 
  destruct (split_once_cases 47 b) as [[N ->]|(x & y & -> & N & ->)].
  - destruct (split_once 58 b) as [[? ?]|]; cbn; intuition.
  - assert (Y : In c y -> In c s).
    { intros I. apply (proj2 (split_next_in _ c _ _ _ E1) r); auto. apply (split_next_in _ c _ _ _ E2). apply in_app_iff. cbn. auto. }
    destruct (split_once 58 x) as [[? ?]|]; cbn; intuition.
Qed.
Lemma request_clean prepare m rq c : request_of prepare m rq c ->
  Forall (fun x => ~ ws x) (u_path (rq_url rq)) /\
  Forall (fun h => ~ In 10 (fst h) /\ ~ In 10 (snd h) /\ ~ In 58 (fst h) /\ trimmed (fst h) (fst h) /\ trimmed (snd h) (snd h)) (rq_headers rq).
Proof.
  assert (SL : ~ ws 47) by (apply is_ws_false; reflexivity).
  intros H. inversion H as [? B|? t line ls wds me u ve hs rest ct body ? T L W M U1 U2 V HB CT BS]; subst; cbn [rq_url rq_headers].
  - split; [repeat constructor; exact SL|constructor].
  - split.
    + destruct (nth_error wds 1) as [w|] eqn:E.
      * rewrite (U1 _ eq_refl). apply Forall_forall. intros x I. apply url_path_in in I. destruct I as [->|I]; auto.
        destruct (words_in _ _ W w) as [_ F]; [eapply nth_error_In; eauto|]. rewrite Forall_forall in F. now apply F.
      * rewrite (U2 eq_refl). repeat constructor; exact SL.
    + assert (LF : forall l, In l ls -> ~ In 10 l) by (intros l I; apply (lines_in _ _ L); cbn; auto).
      clear -HB LF. induction HB as [|l ls B|n v n' v' ls hs rest N T V _ IH|l ls hs rest B N _ IH]; auto.
      * constructor; [|apply IH; intros; apply LF; cbn; auto]. cbn [fst snd].
        specialize (LF _ (or_introl eq_refl)). rewrite in_app_iff in LF. cbn in LF. apply trim_iff in T, V. subst.
        repeat split; try (intros I; apply trim_in in I; tauto); apply trim_iff, trim_id.
      * apply IH. intros; apply LF; cbn; auto.
Qed.

(** ** the wire *)
Lemma version_text_name v : version_text v = version_name v.
Proof. destruct v; reflexivity. Qed.
Lemma request_wire prepare enc m rq c : scalars m -> request_from prepare m = (rq, c) ->
  wire (request_bytes enc rq c)
    (utf8 (method_name (rq_method rq) ++ lit " " ++ u_path (rq_url rq) ++ lit " " ++ version_name (rq_version rq))
       :: map (fun h => utf8 (fst h ++ lit ": " ++ snd h)) (rq_headers rq))
    (content_bytes enc c).
Proof.
  intros S E. pose proof (request_sound prepare m S) as H. rewrite E in H. cbn [fst snd] in H.
  destruct (request_clean _ _ _ _ H) as [P HS]. clear E H S.
  unfold request_bytes, request_head. 
  assert (LF : ~ In 10 (u_path (rq_url rq))).
  { intros I. rewrite Forall_forall in P. apply (P _ I). apply is_ws_iff. reflexivity. }
  match goal with |- wire ?x (?l :: ?ls) ?b => replace x with (l ++ 13 :: 10 :: (utf8 (flat_map (fun hd => fst hd ++ [58; 32] ++ snd hd ++ crlf) (rq_headers rq)) ++ 13 :: 10 :: b)) end.
  2:{ rewrite version_text_name, !utf8_app, <- !app_assoc. reflexivity. }
  apply wr_line.
  - destruct (rq_method rq); discriminate.
  - apply utf8_lf. rewrite !in_app_iff. intros [I|[I|[I|[I|I]]]]; auto; revert I; [destruct (rq_method rq)| | |destruct (rq_version rq)]; cbn; intuition lia.
  - induction HS as [|[n v] hs (N1 & N2 & _) _ IH]; cbn [flat_map map].
    + constructor.
    + cbn [fst snd] in *. rewrite <- !app_assoc. unfold crlf at 1.
      match goal with |- wire ?x (?l :: ?ls) ?b =>
        assert (Q : x = l ++ 13 :: 10 :: utf8 (flat_map (fun hd => fst hd ++ [58; 32] ++ snd hd ++ crlf) hs) ++ 13 :: 10 :: b) end.
      { rewrite !utf8_app, <- !app_assoc. reflexivity. }
      refine (eq_ind_r (fun z => wire z _ _) _ Q).
      apply wr_line; auto.
      * rewrite utf8_app. intros X. apply app_eq_nil in X. destruct X as [_ X]. discriminate X.
      * apply utf8_lf. rewrite !in_app_iff. cbn. intuition lia.
Qed.
Lemma wire_unique bs ls b : wire bs ls b -> forall ls' b', wire bs ls' b' -> ls = ls' /\ b = b'.
Proof.
  assert (X : forall l (r : bytes) body, l <> [] -> ~ In 10 l -> 13 :: 10 :: body <> l ++ 13 :: 10 :: r).
  { intros [|x l] r body N I E; [now apply N|]. inversion E as [[E1 E2]]. subst x. destruct l as [|y l]; [discriminate|].
    inversion E2; subst. apply I. cbn. auto. }
  induction 1 as [body|l bs ls body N I W IH]; intros ls' b' W'.
  - inversion W' as [? E|l' bs' ls'' ? N' I' W'' E]; subst; auto. exfalso. symmetry in E. eapply X; eauto.
  - inversion W' as [? E|l' bs' ls'' ? N' I' W'' E]; subst.
    + exfalso. eapply X; eauto.
    + assert (Z : Some (l' ++ [13], bs') = Some (l ++ [13], bs)).
      { assert (A : forall u v : bytes, ~ In 10 u -> split_once 10 (u ++ 13 :: 10 :: v) = Some (u ++ [13], v)).
        { intros u v NU. transitivity (split_once 10 ((u ++ [13]) ++ 10 :: v)); [now rewrite <- app_assoc|].
          apply split_once_some. rewrite in_app_iff. cbn. intuition lia. }
        etransitivity; [symmetry; exact (A l' bs' I')|]. etransitivity; [exact (f_equal (split_once 10) E)|exact (A l bs I)]. }
      inversion Z as [[Z1 Z2]]. apply app_inj_tail in Z1. destruct Z1 as [-> _]. subst bs'. destruct (IH _ _ W'') as [-> ->]. auto.
Qed.

(** ** placeholders and line breaks *)
Lemma template_lines_nonempty ps : exists l ls, template_lines ps = l :: ls.
Proof.
  induction ps as [|p ps (l & ls & IH)]; [do 2 eexists; reflexivity|]. cbn [template_lines]. rewrite IH.
  destruct p as [c|n]; [destruct (c =? 10)|]; eauto.
Qed.
Lemma fill_cons_hole n ps f : fill (Hole n :: ps) (map f (holes (Hole n :: ps))) = f n ++ fill ps (map f (holes ps)).
Proof. reflexivity. Qed.
Lemma fill_cons_lit c ps f : fill (Lit c :: ps) (map f (holes (Lit c :: ps))) = c :: fill ps (map f (holes ps)).
Proof. reflexivity. Qed.
Lemma pieces_prefix (d : N) u s ps p : ~ In d u -> pieces d s (p :: ps) -> pieces d (u ++ s) ((u ++ p) :: ps).
Proof.
  intros N H. inversion H as [? I|? bs ? I P]; subst.
  - constructor. rewrite in_app_iff. tauto.
  - rewrite app_assoc. constructor; auto. rewrite in_app_iff. tauto.
Qed.
Lemma fill_lines f ps : Forall (fun n => ~ In 10 (f n)) (holes ps) ->
  pieces 10 (fill ps (map f (holes ps))) (map (fun l => fill l (map f (holes l))) (template_lines ps)).
Proof.
  induction ps as [|p ps IH]; intros F; [repeat constructor; auto|].
  destruct (template_lines_nonempty ps) as (l & ls & E). cbn [template_lines]. rewrite E in *. destruct p as [c|n].
  - rewrite fill_cons_lit. specialize (IH F). destruct (c =? 10) eqn:C.
    + apply N.eqb_eq in C. subst c. apply (pc_more 10 []); auto.
    + cbn [map] in *. rewrite fill_cons_lit. apply (pieces_prefix 10 [c]); auto. cbn. lia.
  - rewrite fill_cons_hole. inversion F; subst. specialize (IH H2). cbn [map] in *. rewrite fill_cons_hole. now apply pieces_prefix.
Qed.
Lemma message_lines w c template msg ps : scan template ps -> message_of w c template msg ->
  Forall (fun n => ~ In 10 (shown w c n)) (holes ps) ->
  pieces 10 msg (map (fun l => fill l (map (shown w c) (holes l))) (template_lines ps)).
Proof.
  intros S (ps' & S' & ->) F. rewrite (scan_unique _ _ S' _ S). now apply fill_lines.
Qed.
Lemma scan_lit_lines template ps : scan template ps -> (forall a p n b, template = a ++ p ++ b -> hole p n -> ~ In 10 p) ->
  exists ls, pieces 10 template ls /\ length ls = length (template_lines ps).
Proof.
  induction 1 as [|p n s ps H S IH|c s ps N S IH]; intros D.
  - exists [[]]. split; [constructor; auto|reflexivity].
  - destruct IH as (ls & P & L). { intros a p' n' b -> H'. apply (D (p ++ a) p' n' b); auto. now rewrite <- app_assoc. }
    destruct (template_lines_nonempty ps) as (l & r & E). cbn [template_lines]. rewrite E in *.
    destruct ls as [|x ls]; [discriminate|]. exists ((p ++ x) :: ls). split; [|exact L]. apply pieces_prefix; auto. now apply (D [] p n s).
  - destruct IH as (ls & P & L). { intros a p' n' b -> H'. apply (D (c :: a) p' n' b); auto. }
    destruct (template_lines_nonempty ps) as (l & r & E). cbn [template_lines]. rewrite E in *.
    destruct ls as [|x ls]; [discriminate|]. destruct (c =? 10) eqn:C.
    + apply N.eqb_eq in C. subst c. exists ([] :: x :: ls). split; [|cbn in *; lia]. apply (pc_more 10 []); auto.
    + exists ((c :: x) :: ls). split; [|exact L]. apply (pieces_prefix 10 [c]); auto. cbn. lia.
Qed.
Theorem same_line_count w c template msg tls mls : message_of w c template msg ->
  (forall a p n b, template = a ++ p ++ b -> hole p n -> ~ In 10 p /\ ~ In 10 (shown w c n)) ->
  pieces 10 template tls -> pieces 10 msg mls -> length mls = length tls.
Proof.
  intros M D PT PM. destruct M as (ps & S & ->).
  destruct (scan_lit_lines _ _ S) as (ls & P & L). { intros a p n b E H. now apply (D a p n b). }
  assert (F : Forall (fun n => ~ In 10 (shown w c n)) (holes ps)).
  { clear -S D. induction S as [|p n s ps H S IH|c' s ps N S IH]; [constructor| |].
    - cbn [holes flat_map app]. constructor; [now apply (D [] p n s)|]. apply IH. intros a p' n' b -> H'. apply (D (p ++ a) p' n' b); auto. now rewrite <- app_assoc.
    - apply IH. intros a p' n' b -> H'. apply (D (c' :: a) p' n' b); auto. }
  pose proof (fill_lines _ _ F) as FL. rewrite (pieces_unique _ _ _ PM _ FL), (pieces_unique _ _ _ PT _ P), map_length. auto.
Qed.

(** for the message as parsed *)
Lemma parsed_clean prepare m rq c : scalars m -> request_from prepare m = (rq, c) ->
  Forall (fun x => ~ ws x) (u_path (rq_url rq)) /\
  Forall (fun h => ~ In 10 (fst h) /\ ~ In 10 (snd h) /\ ~ In 58 (fst h) /\ trimmed (fst h) (fst h) /\ trimmed (snd h) (snd h)) (rq_headers rq).
Proof. intros S E. pose proof (request_sound prepare m S) as R. rewrite E in R. exact (request_clean _ _ _ _ R). Qed.
Lemma form_sent prepare enc m rq c : scalars m -> request_from prepare m = (rq, c) ->
  content_type (rq_headers rq) (Some (lit "application/x-www-form-urlencoded")) ->
  exists t line ls rest fs kept, trimmed m t /\ text_lines t (line :: ls) /\ header_block ls (rq_headers rq) rest /\
    field_lines rest fs kept /\ Forall form_char (content_bytes enc c) /\
    form_decodes (content_bytes enc c) (map (fun f => (utf8 (fst f), utf8 (snd f))) fs).
Proof.
  intros S E C. pose proof (request_sound prepare m S) as R. rewrite E in R. cbn in R.
  destruct (form_body _ _ _ _ R C) as (t & line & ls & rest & fs & kept & b & T & L & H & F & -> & FC & FD).
  exists t, line, ls, rest, fs, kept. repeat split; auto.
Qed.
