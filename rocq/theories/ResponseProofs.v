(** Responses *)
From Verif Require Import SpecHttp TextProofs TextMore UrlProofs RequestProofs TemplateProofs Utf8Proofs WireProofs.
From Coq Require Import ZifyBool ZifyN ZifyNat.
Open Scope N_scope.

(** ** one line *)
Lemma scalars_app a b : scalars (a ++ b) <-> scalars a /\ scalars b.
Proof. apply Forall_app. Qed.
Lemma scalar_lf : scalars [10].
Proof. repeat constructor. Qed.
Lemma utf8_char_lf_in c : In c [10] -> utf8_char c = [10].
Proof. intros [<-|[]]. reflexivity. Qed.
(** a line feed byte is a line feed character *)
Lemma utf8_split s (a b : bytes) : utf8 s = a ++ 10 :: b -> exists x y, s = x ++ 10 :: y /\ utf8 x = a /\ utf8 y = b.
Proof.
  revert a. induction s as [|c s IH]; intros a E; [destruct a; discriminate|].
  cbn [utf8 flat_map] in E. fold (utf8 s) in E. destruct (N.eq_dec c 10) as [->|N].
  - change (utf8_char 10) with [10] in E. destruct a as [|x a]; cbn [app] in E; injection E.
    + intros E2. exists [], s. split; [reflexivity|]. split; [reflexivity|exact E2].
    + intros E2 E1. destruct (IH a E2) as (u & v & -> & <- & <-). exists (10 :: u), v. subst x. auto.
  - assert (I : ~ In 10 (utf8_char c)) by (intros I; apply utf8_char_lf in I; auto).
    assert (D : exists a', a = utf8_char c ++ a' /\ utf8 s = a' ++ 10 :: b).
    { revert a E. generalize (utf8_char c) I. clear. intros u. induction u as [|x u IH]; intros I a E; [exists a; auto|].
      destruct a as [|y a]; cbn [app] in E; inversion E; subst; [exfalso; apply I; cbn; auto|].
      destruct (IH (fun J => I (or_intror J)) a H1) as (a' & -> & E'). exists a'. auto. }
    destruct D as (a' & -> & E'). destruct (IH a' E') as (u & v & -> & <- & <-). exists (c :: u), v. auto.
Qed.
Lemma utf8_no_lf s : ~ In 10 (utf8 s) -> ~ In 10 s.
Proof. intros N I. apply N. unfold utf8. apply in_flat_map. exists 10. split; auto. cbn. auto. Qed.

Definition not_lf (c : N) : bool := negb (c =? 10).
Lemma span_lf_some (a b : bytes) : ~ In 10 a -> span (fun c => negb (c =? 10)) (a ++ 10 :: b) = (a, 10 :: b).
Proof.
  intros N. apply span_app.
  - apply Forall_forall. intros c C. destruct (N.eqb_spec c 10); [subst; contradiction|reflexivity].
  - intros c r E. inversion E. reflexivity.
Qed.
Lemma span_lf_none (a : bytes) : ~ In 10 a -> span (fun c => negb (c =? 10)) a = (a, []).
Proof.
  intros N. rewrite <- (app_nil_r a) at 1. apply span_app; [|discriminate].
  apply Forall_forall. intros c C. destruct (N.eqb_spec c 10); [subst; contradiction|reflexivity].
Qed.
Lemma lf_cases (bs : bytes) : ~ In 10 bs \/ exists a b, bs = a ++ 10 :: b /\ ~ In 10 a.
Proof.
  induction bs as [|c bs [IH|(a & b & -> & N)]]; [left; auto| |].
  - destruct (N.eq_dec c 10) as [->|N]; [right; exists [], bs; auto|left; cbn; intuition].
  - destruct (N.eq_dec c 10) as [->|M]; [right; exists [], (a ++ 10 :: b); auto|right; exists (c :: a), b; cbn; intuition].
Qed.

Lemma read_line_full l rest e : ~ In 10 l -> scalars l -> read_line (Reader (utf8 l ++ 10 :: rest) e) = inl (l ++ [10], Reader rest e).
Proof.
  intros N S. unfold read_line. cbn [rd_bytes rd_end].
  match goal with |- context [span ?p ?x] => replace (span p x) with (utf8 l, 10 :: rest) end.
  2:{ symmetry. apply span_lf_some. now apply utf8_lf. }
  change [10] with (utf8 [10]) at 1. rewrite <- utf8_app, decode_encode; auto. apply scalars_app. split; auto using scalar_lf.
Qed.
Lemma read_line_last l : ~ In 10 l -> scalars l -> read_line (Reader (utf8 l) None) = inl (l, Reader [] None).
Proof.
  intros N S. unfold read_line. cbn [rd_bytes rd_end]. rewrite span_lf_none by now apply utf8_lf. now rewrite decode_encode.
Qed.
Lemma read_line_cases bs e : 
  (exists l rest, bs = utf8 l ++ 10 :: rest /\ ~ In 10 l /\ scalars l /\ read_line (Reader bs e) = inl (l ++ [10], Reader rest e)) \/
  (exists l, bs = utf8 l /\ ~ In 10 l /\ scalars l /\ e = None /\ read_line (Reader bs e) = inl (l, Reader [] None)) \/
  (exists t, ~ In 10 bs /\ e = Some t /\ read_line (Reader bs e) = inr (ReadFailed t)) \/
  ((forall s, scalars s -> utf8 s <> bs) /\ read_line (Reader bs e) = inr (ReadFailed invalid_utf8)).
Proof.
  destruct (lf_cases bs) as [N|(a & b & -> & N)].
  - unfold read_line. cbn [rd_bytes rd_end]. rewrite span_lf_none by auto. destruct e as [t|]; [right; right; left; eauto|].
    destruct (utf8_decode bs) as [l|] eqn:D.
    + apply decode_iff in D. destruct D as [S <-]. right; left. exists l. auto using utf8_no_lf.
    + right; right; right. split; auto. intros s S E. rewrite <- E, decode_encode in D; auto. discriminate.
  - destruct (utf8_decode a) as [l|] eqn:D.
    + apply decode_iff in D. destruct D as [S <-]. left. exists l, b. repeat split; auto using utf8_no_lf.
      apply read_line_full; auto using utf8_no_lf.
    + right; right; right. split.
      * intros s S E. apply utf8_split in E. destruct E as (x & y & -> & <- & _). apply scalars_app in S. rewrite decode_encode in D; [discriminate|tauto].
      * unfold read_line. cbn [rd_bytes rd_end].
        match goal with |- context [span ?p ?x] => replace (span p x) with (a, 10 :: b) end.
        2:{ symmetry. now apply span_lf_some. }
        match goal with |- context [utf8_decode ?x] => destruct (utf8_decode x) as [l|] eqn:D2; auto end. exfalso. apply decode_iff in D2. destruct D2 as [S E].
        apply utf8_split in E. destruct E as (x & y & -> & <- & _). apply scalars_app in S. rewrite decode_encode in D; [discriminate|tauto].
Qed.

(** ** words and fields of a line with its line feed *)
Lemma ws_lf : ws 10.
Proof. apply is_ws_iff. reflexivity. Qed.
Lemma words_lf s l : words s l -> words (s ++ [10]) l.
Proof.
  induction 1 as [s B|a w s l A N W E _ IH].
  - constructor. apply blank_app. split; auto. constructor; [apply ws_lf|constructor].
  - rewrite <- !app_assoc. constructor; auto. right. destruct E as [->|(c & r & -> & C)].
    + exists 10, []. split; auto. apply ws_lf.
    + exists c, (r ++ [10]). auto.
Qed.
Lemma split_lf s : split_whitespace (s ++ [10]) = split_whitespace s.
Proof. apply words_iff, words_lf, words_iff. reflexivity. Qed.
Lemma trim_lf s : trim (s ++ [10]) = trim s.
Proof.
  apply trim_iff. destruct (trim_spec s) as (a & b & E & A & B & F & L). exists a, (b ++ [10]). rewrite E at 1.
  rewrite <- !app_assoc. split; auto. split; auto. split; auto. apply blank_app. split; auto. constructor; [apply ws_lf|constructor].
Qed.
Lemma blank_no_colon l : blank l -> ~ In 58 l.
Proof. intros B I. unfold blank in B. rewrite Forall_forall in B. now apply (not_ws_colon), B. Qed.

(** ** header lines *)
Lemma read_line_length bs e l r : read_line (Reader bs e) = inl (l, r) -> l <> [] -> (length (rd_bytes r) < length bs)%nat /\ rd_end r = e.
Proof.
  intros H N. destruct (read_line_cases bs e) as [(x & rest & -> & _ & _ & E)|[(x & -> & _ & _ & -> & E)|[(t & _ & _ & E)|[_ E]]]];
    rewrite E in H; inversion H; subst; cbn [rd_bytes rd_end].
  - split; auto. rewrite app_length. cbn [length]. lia.
  - split; auto. destruct l as [|c l]; [now elim N|]. cbn [utf8 flat_map]. destruct (utf8_char_nonempty c) as (b & q & ->). cbn [length app]. lia.
Qed.
Lemma header_fuel f : forall g r, (length (rd_bytes r) < f)%nat -> (length (rd_bytes r) < g)%nat -> read_header_lines f r = read_header_lines g r.
Proof.
  induction f as [|f IH]; intros g r F G; [lia|]. destruct g as [|g]; [lia|]. cbn [read_header_lines].
  destruct (read_line r) as [[l r']|e] eqn:E; auto. destruct (trim l) as [|c t] eqn:T; auto.
  destruct r as [bs e]. apply read_line_length in E; [|intros ->; discriminate]. cbn [rd_bytes] in *.
  rewrite (IH g r') by lia. reflexivity.
Qed.
(** the fuel given in [response_from] is enough *)
Theorem header_fuel_enough r g : (length (rd_bytes r) < g)%nat -> read_header_lines g r = read_header_lines (S (length (rd_bytes r))) r.
Proof. intros. apply header_fuel; lia. Qed.

Lemma headers_complete bs hs rest : response_headers bs hs rest -> forall f, (length bs < f)%nat ->
  read_header_lines f (Reader bs None) = inl (hs, Reader rest None).
Proof.
  induction 1 as [|l rest N S B|n v n' v' bs hs rest N LF S T V _ IH|l bs hs rest B N LF S _ IH|n v n' v' N LF S T V|l NE N LF S]; intros [|f] F; try lia; cbn [read_header_lines].
  - reflexivity.
  - rewrite read_line_full by auto. rewrite trim_lf. apply trim_blank in B. rewrite B. reflexivity.
  - rewrite read_line_full.
    2:{ rewrite in_app_iff in *. cbn. intuition lia. }
    2:{ apply scalars_app in S. apply scalars_app. split; [tauto|]. constructor; [reflexivity|tauto]. }
    rewrite trim_lf. destruct (trim (n ++ 58 :: v)) as [|c t] eqn:E.
    { exfalso. apply trim_blank, blank_no_colon in E. apply E. rewrite in_app_iff. cbn. auto. }
    rewrite IH by (rewrite app_length in F; cbn in F; lia).
    replace ((n ++ 58 :: v) ++ [10]) with (n ++ 58 :: (v ++ [10])) by (now rewrite <- app_assoc).
    rewrite split_colon by auto. rewrite trim_lf. apply trim_iff in T, V. now subst.
  - rewrite read_line_full by auto. rewrite trim_lf. destruct (trim l) as [|c t] eqn:E; [apply trim_blank in E; contradiction|].
    rewrite IH by (rewrite app_length in F; cbn in F; lia). rewrite split_once_none; auto. rewrite in_app_iff. cbn. intuition lia.
  - rewrite read_line_last.
    2:{ rewrite in_app_iff in *. cbn. intuition lia. }
    2:{ apply scalars_app in S. apply scalars_app. split; [tauto|]. constructor; [reflexivity|tauto]. }
    destruct (trim (n ++ 58 :: v)) as [|c t] eqn:E.
    { exfalso. apply trim_blank, blank_no_colon in E. apply E. rewrite in_app_iff. cbn. auto. }
    destruct f as [|f]. { rewrite utf8_app, app_length in F. cbn in F. lia. }
    cbn [read_header_lines]. change (read_line (Reader [] None)) with (inl ([] : str, Reader [] None) : rres str). cbn [trim drop_while rev].
    rewrite split_colon by auto. apply trim_iff in T, V. now subst.
  - rewrite read_line_last by auto. destruct (trim l) as [|c t] eqn:E; [reflexivity|].
    destruct f as [|f]. { destruct l as [|x l]; [now elim NE|]. cbn [utf8 flat_map] in F. destruct (utf8_char_nonempty x) as (b & q & X). rewrite X in F. cbn in F. lia. }
    cbn [read_header_lines]. change (read_line (Reader [] None)) with (inl ([] : str, Reader [] None) : rres str). cbn [trim drop_while rev].
    now rewrite split_once_none.
Qed.
Lemma lf_shorter (x rest : bytes) : (length rest < length (x ++ 10%N :: rest))%nat.
Proof. rewrite app_length. cbn [length]. lia. Qed.
(** what reading the header lines of any stream gives *)
Lemma headers_total n : forall bs, (length bs <= n)%nat -> forall f, (length bs < f)%nat -> forall e,
  (e = None /\ exists hs rest, response_headers bs hs rest) \/
  (exists t hs rest, e = Some t /\ read_header_lines f (Reader bs e) = inl (hs, Reader rest e)) \/
  (exists t, e = Some t /\ read_header_lines f (Reader bs e) = inr (ReadFailed t)) \/
  ((forall s, scalars s -> utf8 s <> bs) /\ read_header_lines f (Reader bs e) = inr (ReadFailed invalid_utf8)).
Proof.
  induction n as [|n IH]; intros bs L [|f] F e; try lia.
  { destruct bs; [|cbn in L; lia]. destruct e as [t|]; [right; right; left; exists t; split; auto|left; split; auto; do 2 eexists; constructor]. }
  cbn [read_header_lines].
  destruct (read_line_cases bs e) as [(x & rest & -> & N & S & E)|[(x & -> & N & S & -> & E)|[(t & N & -> & E)|[N E]]]]; rewrite E.
  - rewrite trim_lf. destruct (blank_dec x) as [B|B].
    + destruct e as [t|].
      * right; left. exists t, [], rest. apply trim_blank in B. rewrite B. auto.
      * left. split; auto. exists [], rest. now constructor.
    + destruct (trim x) as [|c u] eqn:T; [apply trim_blank in T; contradiction|]. clear c u T.
      pose proof (Nat.lt_le_trans _ _ _ (lf_shorter (utf8 x) rest) L) as L1. pose proof (Nat.lt_le_trans _ _ _ (lf_shorter (utf8 x) rest) (proj1 (Nat.lt_succ_r _ _) F)) as F1. apply (proj1 (Nat.lt_succ_r _ _)) in L1.
      destruct (IH rest L1 f F1 e) as [(-> & hs & r & H)|[(t & hs & r & -> & H)|[(t & -> & H)|[M H]]]].
      * left. split; auto. destruct (split_once_cases 58 x) as [[I _]|(a & b & -> & I & _)].
        -- exists hs, r. now apply rh_other.
        -- exists ((trim a, trim b) :: hs), r. rewrite in_app_iff in N. cbn in N. apply scalars_app in S. destruct S as [S1 S2]. inversion S2; subst.
           apply rh_header; auto using trim_spec; [rewrite in_app_iff; tauto|apply scalars_app; auto].
      * right; left. rewrite H. destruct (split_once 58 (x ++ [10])) as [[a b]|]; eauto.
      * right; right; left. rewrite H. eauto.
      * right; right; right. rewrite H. split; auto. intros s SS Q. apply utf8_split in Q. destruct Q as (u & v & -> & _ & Q).
        apply scalars_app in SS. destruct SS as [_ SS]. inversion SS; subst. now apply (M v).
  - left. split; auto. destruct x as [|c x]; [exists [], []; constructor|].
    destruct (split_once_cases 58 (c :: x)) as [[I _]|(a & b & Q & I & _)].
    + exists [], []. apply rh_last_other; auto. discriminate.
    + rewrite Q in *. exists [(trim a, trim b)], []. rewrite in_app_iff in N. cbn in N. apply scalars_app in S. destruct S as [S1 S2]. inversion S2; subst.
      apply rh_last_header; auto using trim_spec; [rewrite in_app_iff; tauto|apply scalars_app; auto].
  - right; right; left. eauto.
  - right; right; right. auto.
Qed.

(** ** whole responses *)
Lemma status_spec t : status_of t (parse_u16 t).
Proof.
  unfold status_of, parse_u16. destruct t as [x|]; [|right; split; [discriminate|reflexivity]].
  destruct (parse_unsigned u16_max x) as [n|] eqn:E.
  - left. exists x. split; auto. now apply parse_unsigned_iff.
  - right. split; auto. intros y m [= <-] U. apply (parse_unsigned_iff u16_max) in U. congruence.
Qed.
Lemma status_parse t n : status_of t n -> parse_u16 t = n.
Proof.
  intros [(x & -> & U)|[N ->]]; cbn [parse_u16].
  - apply (parse_unsigned_iff u16_max) in U. unfold u16_max in *. now rewrite U.
  - destruct t as [x|]; auto. cbn. rewrite parse_unsigned_none; auto.
Qed.
Lemma parse_text_word t : parse_text t = word_or_empty t.
Proof. destruct t; reflexivity. Qed.

Lemma response_complete bs r : response_of bs r -> response_from (Reader bs None) = inl r.
Proof.
  intros H. inversion H as [line wds bs' status hs rest body N S W ST HD SB R|line wds status N S W ST]; subst; unfold response_from.
  - rewrite read_line_full by auto. rewrite split_lf. cbn [rd_bytes]. rewrite (headers_complete _ _ _ HD) by lia.
    unfold read_to_string. cbn [rd_bytes rd_end]. rewrite decode_encode by auto. apply words_iff in W. rewrite W.
    now rewrite !parse_text_word, (status_parse _ _ ST).
  - rewrite read_line_last by auto. cbn [rd_bytes length]. cbn [read_header_lines]. change (read_line (Reader [] None)) with (inl ([] : str, Reader [] None) : rres str).
    cbn [trim drop_while rev]. cbn [read_to_string rd_bytes rd_end utf8_decode]. apply words_iff in W. rewrite W.
    now rewrite !parse_text_word, (status_parse _ _ ST).
Qed.
Lemma headers_rest_valid bs hs rest : response_headers bs hs rest -> forall s, scalars s -> utf8 s = bs -> exists b, scalars b /\ utf8 b = rest.
Proof.
  induction 1 as [|l rest N S B|n v n' v' bs hs rest N LF S T V _ IH|l bs hs rest B N LF S _ IH|n v n' v' N LF S T V|l NE N LF S]; intros s SS Q;
    try (exists []; split; [constructor|reflexivity]);
    apply utf8_split in Q; destruct Q as (x & y & -> & _ & Q); apply scalars_app in SS; destruct SS as [_ SS]; inversion SS; subst; eauto.
Qed.
(** every valid text is a response *)
Lemma response_exists s : scalars s -> exists r, response_of (utf8 s) r.
Proof.
  intros S. destruct (lf_cases (utf8 s)) as [N|(a & b & E & N)].
  - eexists. apply rsp_short; auto using utf8_no_lf; [apply words_iff; reflexivity|apply status_spec].
  - destruct (utf8_split _ _ _ E) as (x & y & -> & <- & <-). apply scalars_app in S. destruct S as [S1 S2]. inversion S2 as [|? ? _ S3]; subst.
    destruct (headers_total _ (utf8 y) (le_n _) (S (length (utf8 y))) ltac:(lia) None) as [(_ & hs & r & H)|[(t & hs & r & D & _)|[(t & D & _)|[M _]]]]; try discriminate.
    + destruct (headers_rest_valid _ _ _ H y S3 eq_refl) as (body & SB & <-). rewrite E. eexists.
      eapply rsp_full; eauto using utf8_no_lf; [apply words_iff; reflexivity|apply status_spec].
    + exfalso. now apply (M y).
Qed.
Theorem response_iff bs r : response_from (Reader bs None) = inl r <-> response_of bs r.
Proof.
  split; [|apply response_complete]. intros H.
  destruct (utf8_decode bs) as [s|] eqn:D.
  - apply decode_iff in D. destruct D as [S <-]. destruct (response_exists s S) as (r' & R). pose proof (response_complete _ _ R) as Q. congruence.
  - exfalso. unfold response_from in H.
    assert (NV : forall s, scalars s -> utf8 s <> bs). { intros s S E. rewrite <- E, decode_encode in D; auto. discriminate. }
    destruct (read_line_cases bs None) as [(x & rest & -> & N & S & E)|[(x & -> & N & S & _ & E)|[(t & _ & ? & E)|[N E]]]]; rewrite E in H; try discriminate.
    + destruct (headers_total _ rest (le_n _) (Datatypes.S (length rest)) (Nat.lt_succ_diag_r _) None) as [(_ & hs & r' & HD)|[(t & hs & r' & Q & _)|[(t & Q & _)|[M Q]]]]; try discriminate.
      * cbn [rd_bytes] in H. rewrite (headers_complete _ _ _ HD) in H by lia. unfold read_to_string in H. cbn [rd_bytes rd_end] in H.
        destruct (utf8_decode r') as [b|] eqn:DB; [|discriminate]. apply decode_iff in DB. destruct DB as [SB <-].
        enough (V : exists y, scalars y /\ utf8 y = rest).
        { destruct V as (y & SY & <-). apply (NV (x ++ 10 :: y)); [|rewrite utf8_app; reflexivity]. apply scalars_app. split; auto. now constructor. }
        remember (utf8 b) as rb eqn:EB. clear -HD EB SB.
        induction HD as [|l rest N S B|n v n' v' bs hs rest N LF S T V _ IH|l bs hs rest B N LF S _ IH|n v n' v' N LF S T V|l NE N LF S].
        -- exists []. split; [constructor|reflexivity].
        -- exists (l ++ 10 :: b). subst. rewrite utf8_app. split; auto. apply scalars_app. split; auto. now constructor.
        -- destruct (IH EB) as (y & SY & <-). exists ((n ++ 58 :: v) ++ 10 :: y). rewrite !utf8_app. split; [|reflexivity].
           apply scalars_app in S. repeat (apply scalars_app; split); try tauto; constructor; try reflexivity; tauto.
        -- destruct (IH EB) as (y & SY & <-). exists (l ++ 10 :: y). rewrite !utf8_app. split; [|reflexivity].
           apply scalars_app; split; try tauto; constructor; try reflexivity; tauto.
        -- exists (n ++ 58 :: v). split; auto. apply scalars_app in S. apply scalars_app; split; try tauto; constructor; try reflexivity; tauto.
        -- exists l. auto.
      * cbn [rd_bytes] in H. match type of H with context [read_header_lines ?f ?r] => replace (read_header_lines f r) with (@inr (list header * reader) _ (ReadFailed invalid_utf8)) in H by (symmetry; exact Q) end. discriminate.
    + now apply (NV x).
Qed.
(** only the body that is not UTF-8 text makes reading fail, unless the transport does *)
Theorem response_invalid bs : (exists e, response_from (Reader bs None) = inr e) <-> (forall s, scalars s -> utf8 s <> bs).
Proof.
  split.
  - intros [e H] s S <-. destruct (response_exists s S) as (r & R). apply response_complete in R. congruence.
  - intros NV. destruct (response_from (Reader bs None)) as [r|e] eqn:E; eauto. exfalso. apply response_iff in E.
    inversion E as [line wds bs' status hs rest body N S W ST HD SB R|line wds status N S W ST]; subst.
    + pose proof E as E'. apply response_complete in E'.
      enough (V : exists y, scalars y /\ utf8 y = bs').
      { destruct V as (y & SY & <-). apply (NV (line ++ 10 :: y)); [|rewrite utf8_app; reflexivity]. apply scalars_app. split; auto. now constructor. }
      remember (utf8 body) as rb eqn:EB. clear -HD EB SB.
      induction HD as [|l rest N S B|n v n' v' bs hs rest N LF S T V _ IH|l bs hs rest B N LF S _ IH|n v n' v' N LF S T V|l NE N LF S].
      * exists []. split; [constructor|reflexivity].
      * exists (l ++ 10 :: body). subst. rewrite utf8_app. split; auto. apply scalars_app. split; auto. now constructor.
      * destruct (IH EB) as (y & SY & <-). exists ((n ++ 58 :: v) ++ 10 :: y). rewrite !utf8_app. split; [|reflexivity].
        apply scalars_app in S. repeat (apply scalars_app; split); try tauto; constructor; try reflexivity; tauto.
      * destruct (IH EB) as (y & SY & <-). exists (l ++ 10 :: y). rewrite !utf8_app. split; [|reflexivity].
        apply scalars_app; split; try tauto; constructor; try reflexivity; tauto.
      * exists (n ++ 58 :: v). split; auto. apply scalars_app in S. apply scalars_app; split; try tauto; constructor; try reflexivity; tauto.
      * exists l. auto.
    + now apply (NV line).
Qed.
Theorem response_broken bs t : exists u, response_from (Reader bs (Some t)) = inr (ReadFailed u) /\
  (u = t \/ (u = lit "stream did not contain valid UTF-8" /\ forall s, scalars s -> utf8 s <> bs)).
Proof.
  unfold response_from.
  destruct (read_line_cases bs (Some t)) as [(x & rest & -> & N & S & E)|[(x & -> & N & S & ? & E)|[(t' & _ & Q & E)|[N E]]]]; rewrite E; try discriminate.
  - cbn [rd_bytes].
    destruct (headers_total _ rest (le_n _) (Datatypes.S (length rest)) (Nat.lt_succ_diag_r _) (Some t)) as [(? & _)|[(t' & hs & r' & [= <-] & Q)|[(t' & [= <-] & Q)|[M Q]]]]; try discriminate; match goal with |- context [read_header_lines ?f ?r] => match type of Q with _ = ?v => replace (read_header_lines f r) with v by (symmetry; exact Q) end end.
    + exists t. split; auto.
    + exists t. split; auto.
    + exists invalid_utf8. split; auto. right. split; auto. intros s SS V. apply utf8_split in V. destruct V as (u & v & -> & _ & V).
      apply scalars_app in SS. destruct SS as [_ SS]. inversion SS; subst. now apply (M v).
  - inversion Q; subst. exists t'. auto.
  - exists invalid_utf8. auto.
Qed.
