(** Framed responses *)
From Verif Require Import SpecFraming SpecSyntax TextProofs TextMore UrlProofs RequestProofs TemplateProofs Utf8Proofs WireProofs ResponseProofs
  LexOneProofs LexerProofs JsonProofs ParserExamples.
From Coq Require Import ZifyBool ZifyN ZifyNat.
Open Scope N_scope.

Lemma blank_cr : blank [13].
Proof. constructor; [|constructor]. apply is_ws_iff. reflexivity. Qed.
Lemma words_cr s l : words s l -> words (s ++ [13]) l.
Proof.
  induction 1 as [s B|a w s l A N F S W IH].
  - constructor. apply Forall_app. exact (conj B blank_cr).
  - rewrite <- !app_assoc. constructor; auto. destruct S as [->|(c & r & -> & C)]; right; cbn [app]; eauto.
    exists 13, []. split; auto. pose proof blank_cr as B. now inversion B.
Qed.
Lemma trimmed_cr s t : trimmed s t -> trimmed (s ++ [13]) t.
Proof.
  intros (a & b & -> & A & B & X). exists a, (b ++ [13]). rewrite <- !app_assoc. repeat split; auto; try tauto. apply Forall_app. exact (conj B blank_cr).
Qed.
Lemma trimmed_space s t : trimmed s t -> trimmed (32 :: s) t.
Proof.
  intros (a & b & -> & A & B & X). exists (32 :: a), b. repeat split; auto; try tauto. constructor; auto. apply is_ws_iff. reflexivity.
Qed.
Lemma scalar_cr : scalars [13].
Proof. repeat constructor. Qed.

Lemma head_headers hs : Forall field hs -> forall rest,
  response_headers (flat_map (fun h => utf8 (fst h ++ lit ": " ++ snd h) ++ crlf) hs ++ crlf ++ rest) hs rest.
Proof.
  induction 1 as [|[n v] hs (N & L & S & T & V) F IH]; intros rest; cbn [flat_map].
  - change (([] : bytes) ++ crlf ++ rest) with (utf8 [13] ++ 10 :: rest). apply rh_blank; auto using scalar_cr, blank_cr. cbn. intuition discriminate.
  - cbn [fst snd] in *. specialize (IH rest).
    replace ((utf8 (n ++ lit ": " ++ v) ++ crlf) ++ flat_map (fun h => utf8 (fst h ++ lit ": " ++ snd h) ++ crlf) hs) with
      (utf8 (n ++ 58 :: (32 :: v ++ [13])) ++ 10 :: flat_map (fun h => utf8 (fst h ++ lit ": " ++ snd h) ++ crlf) hs).
    2:{ change (lit ": " ++ v) with (58 :: 32 :: v). change (58 :: 32 :: v ++ [13]) with ((58 :: 32 :: v) ++ [13]). rewrite app_assoc, (utf8_app (n ++ 58 :: 32 :: v)). rewrite <- !app_assoc. reflexivity. }
    rewrite <- app_assoc. cbn [app]. apply rh_header; auto.
    + rewrite in_app_iff in *. cbn [In]. rewrite in_app_iff. cbn. intuition discriminate.
    + apply scalars_app in S. apply scalars_app. split; [tauto|]. constructor; [reflexivity|]. apply scalars_app. split; [tauto|apply scalar_cr].
    + change (32 :: v ++ [13]) with ((32 :: v) ++ [13]). apply trimmed_cr. now apply trimmed_space.
Qed.

(** the head and everything after it *)
Theorem framed line version status reason hs body : status_line line version status reason -> Forall field hs -> scalars body ->
  response_from (Reader (opening line hs ++ utf8 body) None) = inl (Response version status reason hs body).
Proof.
  intros (N & S & code & rest & W & U & ->) F B. apply response_complete. unfold opening.
  replace ((utf8 line ++ crlf ++ flat_map (fun h => utf8 (fst h ++ lit ": " ++ snd h) ++ crlf) hs ++ crlf) ++ utf8 body) with
    (utf8 (line ++ [13]) ++ 10 :: (flat_map (fun h => utf8 (fst h ++ lit ": " ++ snd h) ++ crlf) hs ++ crlf ++ utf8 body))
    by (rewrite utf8_app, <- !app_assoc; reflexivity).
  assert (E : hd [] rest = word_or_empty (nth_error (version :: code :: rest) 2)) by (destruct rest; reflexivity). rewrite E.
  refine (rsp_full (line ++ [13]) (version :: code :: rest) _ status hs _ body _ _ (words_cr _ _ W) _ (head_headers hs F _) B eq_refl).
  - rewrite in_app_iff. cbn. intuition discriminate.
  - apply scalars_app. split; auto using scalar_cr.
  - left. exists code. exact (conj eq_refl U).
Qed.
(** a byte below 128 is a character *)
Lemma utf8_char_low b c : b < 128 -> In b (utf8_char c) -> c = b.
Proof.
  intros B. unfold utf8_char. destruct (c <? 128); [cbn; intuition|]. destruct (c <? 2048); [|destruct (c <? 65536)]; cbn [In];
    intros H; repeat (destruct H as [H|H]); try contradiction; exfalso; revert H;
    match goal with |- ?a + ?b = _ -> _ => generalize b; intros; lia end.
Qed.
Lemma utf8_char_own b : b < 128 -> utf8_char b = [b].
Proof. intros B. unfold utf8_char. destruct (N.ltb_spec b 128); [reflexivity|lia]. Qed.
Lemma utf8_cut q s (a b : bytes) : q < 128 -> utf8 s = a ++ q :: b -> exists x y, s = x ++ q :: y /\ utf8 x = a /\ utf8 y = b.
Proof.
  intros Q. revert a. induction s as [|c s IH]; intros a E; [destruct a; discriminate|].
  cbn [utf8 flat_map] in E. fold (utf8 s) in E. destruct (N.eq_dec c q) as [->|N].
  - rewrite utf8_char_own in E by auto. destruct a as [|x a]; cbn [app] in E; injection E.
    + intros E2. exists [], s. split; [reflexivity|]. split; [reflexivity|exact E2].
    + intros E2 E1. destruct (IH a E2) as (u & v & -> & <- & <-). exists (q :: u), v. subst x. cbn [utf8 flat_map]. rewrite utf8_char_own by auto. auto.
  - assert (I : ~ In q (utf8_char c)) by (intros I; apply utf8_char_low in I; auto).
    assert (D : exists a', a = utf8_char c ++ a' /\ utf8 s = a' ++ q :: b).
    { revert a E. generalize (utf8_char c) I. clear. intros u. induction u as [|x u IH]; intros I a E; [exists a; auto|].
      destruct a as [|y a]; cbn [app] in E; inversion E; subst; [exfalso; apply I; cbn; auto|].
      destruct (IH (fun J => I (or_intror J)) a H1) as (a' & -> & E'). exists a'. auto. }
    destruct D as (a' & -> & E'). destruct (IH a' E') as (u & v & -> & <- & <-). exists (c :: u), v. auto.
Qed.
Lemma scalars_low s : Forall (fun c => c < 128) s -> scalars s /\ utf8 s = s.
Proof.
  induction 1 as [|c s C _ [S U]]; [split; [constructor|reflexivity]|]. split.
  - constructor; auto. unfold is_scalar. lia.
  - cbn [utf8 flat_map]. fold (utf8 s). rewrite U, utf8_char_own by auto. reflexivity.
Qed.
Lemma hex_low s n : hex s n -> s <> [] /\ Forall (fun c => digit c \/ 97 <= c <= 102 \/ 65 <= c <= 70) s.
Proof.
  assert (D : forall c d, hex_digit c d -> digit c \/ 97 <= c <= 102 \/ 65 <= c <= 70) by (intros c d [[? _]|[[? _]|[? _]]]; auto).
  induction 1 as [c d C|s n c d _ [N F] C]; [split; [discriminate|constructor; eauto]|]. split; [destruct s; discriminate|].
  apply Forall_app. split; auto. constructor; eauto.
Qed.
Lemma hex_text s n : hex s n -> scalars s /\ utf8 s = s.
Proof. intros H. apply scalars_low. apply hex_low in H. destruct H as [_ F]. eapply Forall_impl; [|exact F]. unfold digit. cbn. lia. Qed.

Lemma readable_app a b : readable a -> readable b -> readable (a ++ b).
Proof. intros (s & S & <-) (t & T & <-). exists (s ++ t). split; [now apply scalars_app|apply utf8_app]. Qed.
Lemma readable_low s : Forall (fun c => c < 128) s -> readable s.
Proof. intros F. apply scalars_low in F. exists s. exact F. Qed.
Lemma readable_cut q a b : q < 128 -> readable (a ++ q :: b) -> readable a /\ readable b.
Proof.
  intros Q (s & S & E). destruct (utf8_cut q s a b Q E) as (x & y & -> & <- & <-). apply scalars_app in S. destruct S as [X Y].
  inversion Y; subst. split; [exists x|exists y]; auto.
Qed.
Lemma readable_crlf : readable crlf.
Proof. apply readable_low. repeat constructor. Qed.
Lemma hex_readable s n : hex s n -> readable s.
Proof. intros H. apply hex_text in H. exists s. exact H. Qed.
Lemma chunked_readable cs bs : chunked cs bs -> Forall readable cs <-> readable bs.
Proof.
  induction 1 as [z Z|s c cs bs N S C [IH1 IH2]].
  - split; [|constructor]. intros _. repeat apply readable_app; auto using readable_crlf. eapply hex_readable; eauto.
  - split.
    + intros F. inversion F; subst. repeat apply readable_app; auto using readable_crlf. eapply hex_readable; eauto.
    + intros R. change (s ++ crlf ++ c ++ crlf ++ bs) with (s ++ 13 :: 10 :: (c ++ crlf ++ bs)) in R.
      apply readable_cut in R; [|lia]. destruct R as [_ R]. change (10 :: c ++ crlf ++ bs) with ([] ++ 10 :: (c ++ crlf ++ bs)) in R.
      apply readable_cut in R; [|lia]. destruct R as [_ R]. change (c ++ crlf ++ bs) with (c ++ 13 :: 10 :: bs) in R.
      apply readable_cut in R; [|lia]. destruct R as [R1 R]. change (10 :: bs) with ([] ++ 10 :: bs) in R.
      apply readable_cut in R; [|lia]. destruct R as [_ R]. auto.
Qed.
Lemma chunked_longer cs bs : chunked cs bs -> (length (concat cs) < length bs)%nat.
Proof.
  induction 1 as [z Z|s c cs bs N S C IH].
  - rewrite !app_length. cbn. lia.
  - cbn [concat]. rewrite !app_length. lia.
Qed.
Lemma readable_head line version status reason hs : status_line line version status reason -> Forall field hs -> readable (opening line hs).
Proof.
  intros (_ & S & _) F. unfold opening. repeat apply readable_app; auto using readable_crlf; [exists line; auto|].
  induction F as [|[n v] hs (_ & _ & T & _) F IH]; [exists []; split; [constructor|reflexivity]|]. cbn [flat_map]. apply readable_app; auto.
  apply readable_app; auto using readable_crlf. cbn [fst snd] in *. exists (n ++ lit ": " ++ v). split; auto. apply scalars_app in T.
  apply scalars_app. split; [tauto|]. apply scalars_app. split; [repeat constructor|tauto].
Qed.

Theorem chunked_body line version status reason hs cs bs : status_line line version status reason -> Forall field hs -> chunked cs bs ->
  (Forall readable cs -> exists body, utf8 body = bs /\
     response_from (Reader (opening line hs ++ bs) None) = inl (Response version status reason hs body) /\
     forall document, utf8 document = concat cs -> body <> document) /\
  (~ Forall readable cs -> exists e, response_from (Reader (opening line hs ++ bs) None) = inr e).
Proof.
  intros L F C. split.
  - intros R. apply (chunked_readable _ _ C) in R. destruct R as (body & B & <-). exists body. split; auto. split; [now apply framed|].
    intros d E ->. apply chunked_longer in C. rewrite E in C. lia.
  - intros NR. apply response_invalid. intros s S E. apply NR. apply (chunked_readable _ _ C).
    clear -L F S E. destruct L as (N & LS & _). unfold opening in E.
    rewrite <- !app_assoc in E. change (crlf ++ ?x) with (13 :: 10 :: x) in E.
    assert (X : readable (utf8 line ++ 13 :: 10 :: flat_map (fun h => utf8 (fst h ++ lit ": " ++ snd h) ++ crlf) hs ++ 13 :: 10 :: bs)) by (exists s; auto).
    apply readable_cut in X; [|lia]. destruct X as [_ X]. rewrite app_comm_cons in X. apply readable_cut in X; [|lia]. destruct X as [_ X].
    apply (readable_cut 10 []) in X; [tauto|lia].
Qed.

(** the document as a value *)
Lemma prefix_within s : forall w r rest, w ++ r = s ++ rest -> Forall (fun c => ~ ws c) w -> (forall c x, rest = c :: x -> ws c) -> exists u, s = w ++ u.
Proof.
  induction s as [|a s IH]; intros w r rest E F R.
  - destruct w as [|c w]; [exists []; reflexivity|]. cbn [app] in E. symmetry in E. inversion F; subst. exfalso. eauto.
  - destruct w as [|c w]; [exists (a :: s); reflexivity|]. cbn [app] in E. inversion E; subst. inversion F; subst.
    destruct (IH w r rest) as (u & ->); auto. exists u. reflexivity.
Qed.
Definition hex_char (c : char) : Prop := digit c \/ 97 <= c <= 102 \/ 65 <= c <= 70.
Lemma hex_char_word c : hex_char c -> ~ ws c /\ (digit c \/ letter c).
Proof.
  unfold hex_char, digit, letter. split; [|lia]. intros W. unfold ws, ws_chars in W. cbn [In] in W. lia.
Qed.
Lemma hex_word s rest : (forall c r, rest = c :: r -> ws c) -> s <> [] -> Forall hex_char s -> forall t ts,
  lexes (s ++ rest) (t :: ts) -> tkind t = KInteger \/ tkind t = KIdent.
Proof.
  intros R N F t ts L. destruct s as [|a s]; [congruence|]. inversion F as [|? ? A FS]; subst. destruct (hex_char_word _ A) as [NW DL].
  remember ((a :: s) ++ rest) as x eqn:X. remember (t :: ts) as y eqn:Y. destruct L as [|c s' ts' W _|w t' rest' ts' S M _|k d body D _].
  - discriminate.
  - exfalso. inversion X; subst. auto.
  - injection Y as -> ->. inversion S as [k o I|c v C G|c v C G I|k o I|c v C G I|k d body I ND|c W D L' O Q]; subst; cbn [tkind]; auto; exfalso.
    + assert (E : exists o', w = a :: o') by (destruct w as [|b o]; [exfalso; revert I; clear; cbn; intuition discriminate|cbn [app] in X; inversion X; eauto]).
      destruct E as (o' & ->). clear -I A. unfold hex_char, digit in A. unfold operators in I. cbn [In] in I.
      repeat (destruct I as [I|I]; [injection I; intros; subst; lia|]). exact I.
    + destruct (prefix_within _ _ _ _ X) as (u & E); auto.
      * constructor; [intros W; unfold ws, ws_chars, digit in *; cbn [In] in W; lia|]. eapply Forall_impl; [|exact G]. cbn. intros z Z W. unfold ws, ws_chars, digit in *; cbn [In] in W; lia.
      * rewrite E in F. apply Forall_app in F. destruct F as [F _]. inversion F; subst. rewrite Forall_forall in H2. specialize (H2 _ I). unfold hex_char, digit in H2. lia.
    + destruct (prefix_within _ _ _ _ X) as (u & E); auto.
      * clear -I. unfold keywords in I. cbn [In] in I. unfold ws, ws_chars. repeat (destruct I as [I|I]; [injection I; intros <- _; repeat (constructor; [cbn [In]; lia|]); constructor|]). contradiction.
      * rewrite E in F. apply Forall_app in F. destruct F as [F _]. clear -I F. unfold keywords in I. cbn [In] in I. unfold hex_char, digit in F.
        repeat (destruct I as [I|I]; [injection I; intros <- _; repeat match goal with H : Forall _ (_ :: _) |- _ => inversion H; clear H; subst end; lia|]). contradiction.
    + cbn [app] in X. inversion X; subst. unfold delimiters in I. cbn [In] in I. destruct I as [I|[I|[]]]; injection I; intros; subst; unfold hex_char, digit in A; lia.
    + cbn [app] in X. inversion X; subst. tauto.
  - clear Y. exfalso. inversion X; subst. unfold delimiters in D. cbn [In] in D. destruct D as [I|[I|[]]]; injection I; intros; subst; unfold hex_char, digit in A; lia.
Qed.

Lemma word_first_null h e w t : syntax false e (t :: w) -> tkind t = KInteger \/ tkind t = KIdent -> (exists z, expr_eval h e = VInt z) \/ expr_eval h e = VNull.
Proof.
  intros S K. remember (t :: w) as x eqn:X. destruct S; cbn [expr_eval]; eauto; exfalso; inversion X; subst; cbn in K; destruct K; discriminate.
Qed.
Lemma syntax_nonempty e w : syntax false e w -> w <> [].
Proof. destruct 1; try discriminate; match goal with |- ?a ++ _ <> [] => destruct a; discriminate end. Qed.

(** the value given for a chunked body is never the document *)
Theorem chunked_json h r m cs : to_map h r = Ok m -> chunked cs (utf8 (rs_body r)) ->
  mget (lit "json") m = None \/ mget (lit "json") m = Some VNull \/ exists z, mget (lit "json") m = Some (VInt z).
Proof.
  intros M C.
  assert (B : exists s rest, rs_body r = s ++ rest /\ s <> [] /\ Forall hex_char s /\ forall c x, rest = c :: x -> ws c).
  { assert (X : forall s n u, hex s n -> utf8 (rs_body r) = s ++ crlf ++ u -> exists s rest, rs_body r = s ++ rest /\ s <> [] /\ Forall hex_char s /\ forall c x, rest = c :: x -> ws c).
    { intros s n u H E. unfold crlf in E. apply (utf8_cut 13) in E; [|lia]. destruct E as (x & y & -> & E & _). exists s, (13 :: y).
      pose proof (hex_low _ _ H) as [N F]. assert (x = s).
      { assert (L : Forall (fun c => c < 128) s) by (eapply Forall_impl; [|exact F]; unfold digit; cbn; lia). clear -E L.
        revert x E. induction L as [|c s C _ IH]; intros x E.
        - destruct x as [|a x]; auto. cbn [utf8 flat_map] in E. exfalso. assert (Q : utf8_char a <> []) by (unfold utf8_char; repeat match goal with |- context [if ?b then _ else _] => destruct b end; discriminate).
          destruct (utf8_char a); [congruence|discriminate].
        - destruct (utf8_cut c x [] s C E) as (p & q & -> & P & Q). assert (p = []).
          { destruct p as [|a p]; auto. cbn [utf8 flat_map] in P. exfalso. assert (Z : utf8_char a <> []) by (unfold utf8_char; repeat match goal with |- context [if ?b then _ else _] => destruct b end; discriminate).
            destruct (utf8_char a); [congruence|discriminate]. }
          subst p. cbn [app]. f_equal. auto. }
      subst x. split; [reflexivity|]. split; auto. split; auto. intros c z Q. injection Q as <- _. pose proof blank_cr as W. now inversion W. }
    inversion C as [z Z E1 E2|s c cs' bs N S CC E1 E2]; [exact (X _ _ _ Z (eq_sym E2))|exact (X _ _ _ S (eq_sym E2))]. }
  destruct B as (s & rest & B & N & F & R). clear C.
  destruct (mget (lit "json") m) as [v|] eqn:J; auto. right. apply (to_map_json _ _ _ M) in J. destruct J as (src & e & es & P & Es & ->).
  destruct (collected_all _ _ P) as (is & w & S & I & X & _). rewrite Es in X. symmetry in X. apply segment_lexes in S. rewrite B in S.
  enough (Q : (exists z, expr_eval h e = VInt z) \/ expr_eval h e = VNull) by (destruct Q as [[z Q]|Q]; rewrite Q; eauto).
  destruct w as [|t w].
  { exfalso. inversion I; subst; try discriminate; match goal with H : ?a ++ _ = [] |- _ => apply app_eq_nil in H; destruct H; subst end; try discriminate.
    match goal with H : syntax_item _ _ [] |- _ => inversion H; subst end. match goal with H : syntax _ _ [] |- _ => apply syntax_nonempty in H; congruence end. }
  pose proof (hex_word _ _ R N F _ _ S) as K.
  assert (J : forall i w1, syntax_item false i w1 -> (exists w2, w1 ++ w2 = t :: w) -> exists e' w3, i = IExpr e' /\ syntax false e' (t :: w3)).
  { intros i w1 SI [w2 E]. destruct SI as [e' w1 SE| | |]; try (exfalso; inversion E; subst; cbn in K; destruct K; discriminate).
    pose proof (syntax_nonempty _ _ SE). destruct w1 as [|t1 w1]; [congruence|]. inversion E; subst. eauto. }
  inversion I as [Q1 Q2|i w1 is' w' SI SIS Q1 Q2|i w1 is' w' SI SIS Q1 Q2]; subst is; destruct (J _ _ SI (ex_intro _ _ Q2)) as (e' & w3 & -> & SE);
    cbn [item_exprs flat_map app] in X; injection X as -> _; eapply word_first_null; eauto.
Qed.

(** what was meant to follow an interim response *)
Theorem interim line version status reason hs rest : status_line line version status reason -> Forall field hs -> readable rest ->
  exists body, utf8 body = rest /\ response_from (Reader (opening line hs ++ rest) None) = inl (Response version status reason hs body).
Proof. intros L F (s & S & <-). exists s. split; auto. now apply framed. Qed.

(** a response that breaks off *)
Theorem broken_off s p q : scalars s -> s = p ++ q -> exists r, response_from (Reader (utf8 p) None) = inl r.
Proof.
  intros S ->. apply scalars_app in S. destruct (response_exists p) as (r & R); [tauto|]. exists r. now apply response_complete.
Qed.
Theorem broken_body line version status reason hs b b' : status_line line version status reason -> Forall field hs -> scalars (b ++ b') ->
  exists r r', response_from (Reader (opening line hs ++ utf8 (b ++ b')) None) = inl r /\ response_from (Reader (opening line hs ++ utf8 b) None) = inl r' /\
    rs_status r' = rs_status r /\ rs_headers r' = rs_headers r /\ rs_body r = b ++ b' /\ rs_body r' = b.
Proof.
  intros L F S. pose proof S as S'. apply scalars_app in S'. do 2 eexists. split; [apply framed; eauto|]. split; [apply framed; eauto; tauto|]. auto.
Qed.
Theorem closed_at_once : response_from (Reader [] None) = inl (Response [] 0 [] [] []).
Proof. reflexivity. Qed.
