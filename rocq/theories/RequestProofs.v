(** Request messages *)
From Verif Require Import SpecHttp TextProofs TextMore UrlProofs.
From Coq Require Import ZifyBool ZifyN ZifyNat.
Open Scope N_scope.

(** ** names *)
Lemma method_from_named s : method_named (Some s) (method_from s).
Proof.
  unfold method_named, method_from.
  repeat (match goal with |- context [if str_eqb s ?l then _ else _] =>
    let E := fresh "E" in destruct (str_eqb s l) eqn:E; [apply str_eqb_eq in E; subst s; left; reflexivity|apply str_eqb_neq in E] end).
  right. split; [|reflexivity]. intros m X. inversion X as [Y]. destruct m; cbn [method_name] in Y; congruence.
Qed.
Lemma version_from_named s : version_named (Some s) (version_from s).
Proof.
  unfold version_named, version_from.
  repeat (match goal with |- context [if str_eqb s ?l then _ else _] =>
    let E := fresh "E" in destruct (str_eqb s l) eqn:E; [apply str_eqb_eq in E; subst s; left; reflexivity|apply str_eqb_neq in E] end).
  right. split; [|reflexivity]. intros m X. inversion X as [Y]. subst s. destruct m; match goal with H : _ <> _ |- _ => solve [exact (H eq_refl)] end.
Qed.
Lemma method_opt_named s : method_named s (method_from_opt s).
Proof. destruct s; [apply method_from_named|]. right. split; [discriminate|reflexivity]. Qed.
Lemma version_opt_named s : version_named s (version_from_opt s).
Proof. destruct s; [apply version_from_named|]. right. split; [discriminate|reflexivity]. Qed.
Lemma method_name_inj a b : method_name a = method_name b -> a = b.
Proof. destruct a, b; cbn; congruence. Qed.
Lemma version_name_inj a b : version_name a = version_name b -> a = b.
Proof. destruct a, b; cbn; congruence. Qed.
Lemma method_unique s a b : method_named s a -> method_named s b -> a = b.
Proof.
  intros [->|[N ->]] [H|[M ->]]; auto.
  - apply method_name_inj. congruence.
  - exfalso. now apply (M a).
  - exfalso. now apply (N b).
Qed.
Lemma version_unique s a b : version_named s a -> version_named s b -> a = b.
Proof.
  intros [->|[N ->]] [H|[M ->]]; auto.
  - apply version_name_inj. congruence.
  - exfalso. now apply (M a).
  - exfalso. now apply (N b).
Qed.

(** ** headers *)
Lemma split_colon (n v : str) : ~ In 58 n -> split_once 58 (n ++ 58 :: v) = Some (n, v).
Proof. apply split_once_some. Qed.
Lemma not_ws_colon : ~ ws 58.
Proof. apply is_ws_false. reflexivity. Qed.
Lemma blank_no_colon l : blank l -> ~ In 58 l.
Proof. intros B I. unfold blank in B. rewrite Forall_forall in B. exact (not_ws_colon (B _ I)). Qed.
Lemma colon_split (l : str) : ~ In 58 l \/ exists n v : str, l = n ++ 58 :: v /\ ~ In 58 n.
Proof. destruct (split_once_cases 58 l) as [[N _]|(a & b & -> & N & _)]; eauto. Qed.
Lemma drop_while_in p (s : str) c : In c (drop_while p s) -> In c s.
Proof. destruct (drop_while_spec p s) as (a & b & -> & _ & _ & ->). rewrite in_app_iff. auto. Qed.
Lemma trim_in s c : In c (trim s) -> In c s.
Proof. destruct (trim_spec s) as (a & b & E & _). rewrite E at 2. rewrite !in_app_iff. auto. Qed.
Lemma trim_colon l : ~ In 58 l -> ~ In 58 (trim l).
Proof. intros N I. apply N. now apply trim_in. Qed.
Lemma split_trim (n v : str) : ~ In 58 n -> exists n0 v0, split_once 58 (trim (n ++ 58 :: v)) = Some (n0, v0) /\ trim n0 = trim n /\ trim v0 = trim v.
Proof.
  intros N. rewrite trim_around by apply not_ws_colon. do 2 eexists. split; [apply split_once_some|].
  - intros I. apply N. eapply drop_while_in; eauto.
  - split; [apply trim_left|apply trim_right].
Qed.
Definition lower_is (n : str) : bool := str_eqb (map lower n) (lit "content-type").
Lemma lower_letter x y : 97 <= y -> (lower x = y <-> letter_of x y).
Proof. unfold lower, letter_of. intros Y. destruct ((65 <=? x) && (x <=? 90)) eqn:E; lia. Qed.
Lemma lower_dash x : lower x = 45 <-> letter_of x 45.
Proof. unfold lower, letter_of. destruct ((65 <=? x) && (x <=? 90)) eqn:E; lia. Qed.
Lemma lower_iff n : lower_is n = true <-> is_content_type n.
Proof.
  unfold lower_is, is_content_type. rewrite str_eqb_eq.
  assert (G : forall l n, Forall (fun y => y = 45 \/ 97 <= y) l -> (map lower n = l <-> Forall2 letter_of n l)).
  { clear n. induction l as [|y l IH]; intros n F.
    - destruct n; cbn; split; intros H; auto; try discriminate; inversion H.
    - inversion F as [|? ? F1 F2]; subst. destruct n as [|x n]; cbn; split; intros H; try discriminate; try (inversion H; fail).
      + injection H as A B. constructor; [|now apply IH]. destruct F1 as [->|L]; [now apply lower_dash|now apply lower_letter].
      + inversion H; subst. f_equal; [|now apply IH]. destruct F1 as [->|L]; [now apply lower_dash|now apply lower_letter]. }
  apply G. cbn. repeat (constructor; [solve [left; reflexivity|right; discriminate]|]). constructor.
Qed.
(** the first content type, given one seen before *)
Definition first_type (ct : option str) (hs : list header) : option str :=
  match ct with
  | Some t => Some t
  | None => match find (fun h => lower_is (fst h)) hs with Some h => Some (snd h) | None => None end
  end.
Lemma read_headers_spec ls : forall ct, exists hs rest, header_block ls hs rest /\ read_headers ct ls = (hs, first_type ct hs, rest).
Proof.
  induction ls as [|l ls IH]; intros ct.
  - exists [], []. split; [constructor|]. cbn. destruct ct; reflexivity.
  - cbn [read_headers]. destruct (trim l) as [|x y] eqn:T.
    + exists [], ls. apply trim_blank in T. split; [now constructor|]. destruct ct; reflexivity.
    + rewrite <- T. assert (NB : ~ blank l) by (rewrite <- trim_blank, T; discriminate).
      destruct (colon_split l) as [N|(n & v & -> & N)].
      * rewrite split_once_none by now apply trim_colon. destruct (IH ct) as (hs & rest & H & E). exists hs, rest. split; auto. now apply hb_other.
      * destruct (split_trim n v N) as (n0 & v0 & S & TN & TV). rewrite S, TN, TV.
        set (ct' := match ct with Some _ => ct | None => _ end). destruct (IH ct') as (hs & rest & H & E). rewrite E.
        exists ((trim n, trim v) :: hs), rest. split; [apply hb_header; auto; apply trim_spec|]. f_equal. f_equal.
        subst ct'. unfold first_type. destruct ct as [t|]; auto. cbn [find fst]. fold (lower_is (trim n)). destruct (lower_is (trim n)); auto.
Qed.
Lemma trimmed_unique s a b : trimmed s a -> trimmed s b -> a = b.
Proof. rewrite <- !trim_iff. congruence. Qed.
Lemma colon_unique (n v n2 v2 : str) : ~ In 58 n -> ~ In 58 n2 -> n ++ 58 :: v = n2 ++ 58 :: v2 -> n = n2 /\ v = v2.
Proof.
  intros A B E. assert (Z : Some (n, v) = Some (n2, v2)).
  { etransitivity; [symmetry; exact (split_once_some 58 n v A)|]. etransitivity; [exact (f_equal (split_once 58) E)|]. exact (split_once_some 58 n2 v2 B). }
  inversion Z; auto.
Qed.
Lemma in_mid {A} (d : A) n v : In d (n ++ d :: v).
Proof. rewrite in_app_iff. cbn. auto. Qed.
Lemma header_block_unique ls hs rest : header_block ls hs rest -> forall hs' rest', header_block ls hs' rest' -> hs = hs' /\ rest = rest'.
Proof.
  induction 1 as [|l ls B|n v n' v' ls hs rest N T V _ IH|l ls hs rest B N _ IH]; intros hs2 rest2 H2;
    inversion H2 as [|l2 ls2 B2|n2 v2 n2' v2' ls2 hs3 rest3 N2 T2 V2 H3|l2 ls2 hs3 rest3 B2 N2 H3]; subst; auto;
    try (exfalso; match goal with B : blank (_ ++ 58 :: _) |- _ => exact (blank_no_colon _ B (in_mid _ _ _)) end);
    try (exfalso; match goal with N : ~ In 58 (_ ++ 58 :: _) |- _ => exact (N (in_mid _ _ _)) end);
    try contradiction.
  - match goal with E : _ ++ 58 :: _ = _ ++ 58 :: _ |- _ => apply colon_unique in E; auto; destruct E as [-> ->] end. destruct (IH _ _ H3) as [-> ->].
    rewrite (trimmed_unique _ _ _ T T2), (trimmed_unique _ _ _ V V2). auto.
Qed.
Lemma first_type_spec hs : content_type hs (first_type None hs).
Proof.
  unfold content_type, first_type. destruct (find (fun h => lower_is (fst h)) hs) as [[n v]|] eqn:F.
  - left. revert F. induction hs as [|[n0 v0] hs IH]; cbn [find fst]; [discriminate|]. destruct (lower_is n0) eqn:E; intros F.
    + inversion F; subst. exists [], n, v, hs. apply lower_iff in E. auto.
    + destruct (IH F) as (a & n1 & v1 & b & -> & X & Y & Z). exists ((n0, v0) :: a), n1, v1, b. repeat split; auto.
      constructor; auto. cbn. rewrite <- lower_iff. congruence.
  - right. split; auto. apply Forall_forall. intros h I. rewrite <- lower_iff. pose proof (find_none _ _ F h I). cbv beta in H. congruence.
Qed.
Lemma content_type_unique hs t t' : content_type hs t -> content_type hs t' -> t = t'.
Proof.
  assert (G : forall hs t, content_type hs t -> t = first_type None hs).
  { clear. intros hs t [(a & n & v & b & -> & C & F & ->)|[F ->]]; unfold first_type.
    - replace (find (fun h => lower_is (fst h)) (a ++ (n, v) :: b)) with (Some (n, v)); auto.
      induction F as [|h a H _ IH]; cbn [app find fst].
      + apply lower_iff in C. now rewrite C.
      + destruct (lower_is (fst h)) eqn:E; auto. apply lower_iff in E. contradiction.
    - destruct (find (fun h => lower_is (fst h)) hs) as [h|] eqn:E; auto. apply find_some in E. destruct E as [I E].
      rewrite Forall_forall in F. apply lower_iff in E. exfalso. exact (F _ I E). }
  intros A B. rewrite (G _ _ A), (G _ _ B). reflexivity.
Qed.

(** ** fields *)
Lemma trimmed_colon (l n v : str) : trimmed l (n ++ 58 :: v) -> In 58 l.
Proof. intros (a & b & -> & _). rewrite !in_app_iff. cbn. tauto. Qed.
Lemma fields_spec ls : exists fs kept, field_lines ls fs kept /\ map fst (fields ls) = fs /\ map snd (fields ls) = kept.
Proof.
  induction ls as [|l ls (fs & kept & F & A & B)]; [exists [], []; repeat split; auto; constructor|].
  unfold fields in *. cbn [flat_map]. unfold field_of at 1 3. destruct (colon_split (trim l)) as [N|(n & v & E & N)].
  - rewrite split_once_none by auto. exists fs, kept. split; auto. apply fl_other; auto.
    intros I. apply N. destruct (trim_spec l) as (a & b & E & X & Y & _). rewrite E in I. rewrite !in_app_iff in I.
    destruct I as [I|[I|I]]; [exfalso; exact (blank_no_colon _ X I)|exact I|exfalso; exact (blank_no_colon _ Y I)].
  - rewrite E, split_colon by auto. exists ((n, v) :: fs), (l :: kept). split; [|split; cbn; congruence].
    apply fl_field; auto. apply trim_iff. exact E.
Qed.
Lemma field_lines_unique ls fs kept : field_lines ls fs kept -> forall fs' kept', field_lines ls fs' kept' -> fs = fs' /\ kept = kept'.
Proof.
  induction 1 as [|l n v ls fs kept T N _ IH|l ls fs kept N _ IH]; intros fs2 kept2 H2;
    inversion H2 as [|l2 n2 v2 ls2 fs3 kept3 T2 N2 H3|l2 ls2 fs3 kept3 N2 H3]; subst; auto.
  - destruct (IH _ _ H3) as [-> ->]. pose proof (trimmed_unique _ _ _ T T2) as E. apply colon_unique in E; auto. destruct E as [-> ->]. auto.
  - exfalso. apply N2. eapply trimmed_colon; eauto.
  - exfalso. apply N. eapply trimmed_colon; eauto.
Qed.
Lemma part_of_for f : part_for f (part_of (fst f) (snd f)).
Proof.
  exists (trim (fst f)), (trim (snd f)). split; [apply trim_spec|]. split; [apply trim_spec|]. unfold part_of.
  destruct (trim (snd f)) as [|c r] eqn:E.
  - right. split; [discriminate|reflexivity].
  - destruct (N.eq_dec c 64) as [->|N]; [left; eauto|]. right. split; [intros path X; congruence|].
    destruct c as [|q]; auto. do 7 (try (destruct q as [q|q|]; auto)). congruence.
Qed.
Lemma part_for_unique f a b : part_for f a -> part_for f b -> a = b.
Proof.
  intros (n & v & N & V & X) (n2 & v2 & N2 & V2 & Y). rewrite (trimmed_unique _ _ _ N N2) in *. rewrite (trimmed_unique _ _ _ V V2) in *.
  destruct X as [(p & -> & ->)|[X ->]], Y as [(p2 & E & ->)|[Y ->]]; try congruence; exfalso; eauto.
Qed.

(** ** the form encoding *)
Lemma utf8_char_bytes c : c < 1114112 -> Forall (fun b => b < 256) (utf8_char c).
Proof.
  intros B. unfold utf8_char.
  assert (M : forall x, x mod 64 < 64) by (intros; apply N.mod_lt; lia).
  destruct (c <? 128) eqn:E1; [repeat constructor; lia|].
  destruct (c <? 2048) eqn:E2.
  { pose proof (M c). assert (c / 64 < 32) by (apply N.div_lt_upper_bound; lia). repeat constructor; lia. }
  destruct (c <? 65536) eqn:E3.
  { pose proof (M c). pose proof (M (c / 64)). assert (c / 4096 < 16) by (apply N.div_lt_upper_bound; lia). repeat constructor; lia. }
  pose proof (M c). pose proof (M (c / 64)). pose proof (M (c / 4096)). assert (c / 262144 < 5) by (apply N.div_lt_upper_bound; lia). repeat constructor; lia.
Qed.
Lemma utf8_bytes s : scalars s -> Forall (fun b => b < 256) (utf8 s).
Proof.
  induction 1 as [|c s H _ IH]; [constructor|]. cbn [utf8 flat_map]. apply Forall_app. split; auto. apply utf8_char_bytes.
  unfold is_scalar in H. lia.
Qed.
Lemma hex_value_digit n : n < 16 -> hex_value (hex_digit n) = Some n.
Proof.
  intros L. unfold hex_digit, hex_value. destruct (n <? 10) eqn:E.
  - replace ((48 <=? 48 + n) && (48 + n <=? 57)) with true by lia. f_equal. lia.
  - replace ((48 <=? 55 + n) && (55 + n <=? 57)) with false by lia. replace ((65 <=? 55 + n) && (55 + n <=? 70)) with true by lia. f_equal. lia.
Qed.
Lemma unescape_byte b r : b < 256 -> form_unescape (form_byte b ++ r) = match form_unescape r with Some t => Some (b :: t) | None => None end.
Proof.
  intros L. unfold form_byte.
  destruct (is_alpha b || is_digit b || (b =? 42) || (b =? 45) || (b =? 46) || (b =? 95)) eqn:E.
  - cbn [app form_unescape]. unfold is_alpha, is_digit in E. replace (b =? 37) with false by lia. replace (b =? 43) with false by lia. reflexivity.
  - destruct (b =? 32) eqn:S.
    + cbn [app form_unescape]. cbn. apply N.eqb_eq in S. subst. reflexivity.
    + cbn [app form_unescape]. rewrite N.eqb_refl. 
      assert (b / 16 < 16) by (apply N.div_lt_upper_bound; lia). assert (b mod 16 < 16) by (apply N.mod_lt; lia).
      rewrite !hex_value_digit by auto. rewrite <- (N.div_mod b 16) by lia. reflexivity.
Qed.
Lemma unescape_all bs : Forall (fun b => b < 256) bs -> form_unescape (flat_map form_byte bs) = Some bs.
Proof.
  induction 1 as [|b bs H _ IH]; auto. cbn [flat_map]. rewrite unescape_byte, IH by auto. reflexivity.
Qed.
Lemma form_text_clean s d : In d [38; 61] -> scalars s -> ~ In d (form_text s).
Proof.
  intros D S I. unfold form_text in I. apply in_flat_map in I. destruct I as (b & I & J).
  pose proof (utf8_bytes s S) as B. rewrite Forall_forall in B. specialize (B _ I). cbv beta in B.
  unfold form_byte in J. destruct (is_alpha b || is_digit b || (b =? 42) || (b =? 45) || (b =? 46) || (b =? 95)) eqn:E.
  - unfold is_alpha, is_digit in E. cbn in D, J. lia.
  - destruct (b =? 32); cbn in J, D; [lia|]. unfold hex_digit in J. assert (b / 16 < 16) by (apply N.div_lt_upper_bound; lia). assert (b mod 16 < 16) by (apply N.mod_lt; lia).
    set (x := b / 16) in *. set (y := b mod 16) in *. clearbody x y. destruct (x <? 10) eqn:X, (y <? 10) eqn:Y; lia.
Qed.
Lemma form_one n v : scalars n -> scalars v -> form_pair (form_text n ++ 61 :: form_text v) (utf8 n, utf8 v).
Proof.
  intros N V. exists (form_text n), (form_text v). split; auto. split; [apply form_text_clean; cbn; auto|].
  split; apply unescape_all, utf8_bytes; auto.
Qed.
Lemma form_byte_chars b : b < 256 -> Forall form_char (form_byte b).
Proof.
  intros B. unfold form_byte, form_char.
  destruct (is_alpha b || is_digit b || (b =? 42) || (b =? 45) || (b =? 46) || (b =? 95)) eqn:E.
  - constructor; [|constructor]. unfold letter, digit. unfold is_alpha, is_digit in E. cbn [In lit]. cbn. lia.
  - destruct (b =? 32); [constructor; [right; right; cbn; auto 10|constructor]|].
    assert (H : forall n, n < 16 -> letter (hex_digit n) \/ digit (hex_digit n)).
    { intros n L. unfold hex_digit, letter, digit. destruct (N.ltb_spec n 10); lia. }
    constructor; [right; right; cbn; auto 10|]. constructor; [|constructor; [|constructor]].
    + destruct (H (b / 16)); [apply N.div_lt_upper_bound; lia|auto|auto].
    + destruct (H (b mod 16)); [apply N.mod_lt; lia|auto|auto].
Qed.
Lemma utf8_byte c : c < 1114112 -> Forall (fun b => b < 256) (utf8_char c).
Proof.
  intros L. unfold utf8_char. destruct (N.ltb_spec c 128); [repeat constructor; lia|].
  assert (M : forall x, x mod 64 < 64) by (intros; apply N.mod_lt; lia).
  destruct (N.ltb_spec c 2048); [|destruct (N.ltb_spec c 65536)].
  - assert (c / 64 < 32) by (apply N.div_lt_upper_bound; lia). pose proof (M c). repeat constructor; lia.
  - assert (c / 4096 < 16) by (apply N.div_lt_upper_bound; lia). pose proof (M c). pose proof (M (c / 64)). repeat constructor; lia.
  - assert (c / 262144 < 16) by (apply N.div_lt_upper_bound; lia). pose proof (M c). pose proof (M (c / 64)). pose proof (M (c / 4096)). repeat constructor; lia.
Qed.
Lemma form_text_chars s : scalars s -> Forall form_char (form_text s).
Proof.
  intros S. unfold form_text, utf8. induction S as [|c s C _ IH]; cbn [flat_map]; [constructor|]. rewrite flat_map_app. apply Forall_app. split; auto.
  assert (L : c < 1114112) by (unfold is_scalar in C; lia). pose proof (utf8_byte c L) as U. clear -U. induction U; cbn [flat_map]; [constructor|].
  apply Forall_app. split; auto. now apply form_byte_chars.
Qed.
Lemma form_pairs_chars fs : Forall (fun f => scalars (fst f) /\ scalars (snd f)) fs -> Forall form_char (form_pairs fs).
Proof.
  induction 1 as [|[n v] fs [N V] _ IH]; [constructor|]. cbn [fst snd] in *.
  assert (A : Forall form_char [61]) by (repeat constructor; right; right; cbn; auto 10).
  assert (B : Forall form_char [38]) by (repeat constructor; right; right; cbn; auto 10).
  destruct fs as [|f fs]; cbn [form_pairs]; repeat (apply Forall_app; split); auto using form_text_chars.
Qed.
Lemma form_decode_pairs fs : Forall (fun f => scalars (fst f) /\ scalars (snd f)) fs ->
  form_decodes (form_pairs fs) (map (fun f => (utf8 (fst f), utf8 (snd f))) fs).
Proof.
  intros F. destruct F as [|[n v] fs [N V] F]; [left; auto|]. right. cbn in N, V.
  revert n v N V. induction F as [|[n2 v2] fs [N2 V2] F IH]; intros n v N V.
  - exists [form_text n ++ 61 :: form_text v]. split.
    + constructor. rewrite in_app_iff. cbn. intros [I|[I|I]]; [|lia|]; revert I; apply form_text_clean; cbn; auto.
    + constructor; [|constructor]. now apply form_one.
  - cbn in N2, V2. destruct (IH n2 v2 N2 V2) as (ps & P & Q). exists ((form_text n ++ 61 :: form_text v) :: ps). split.
    + change (form_pairs ((n, v) :: (n2, v2) :: fs)) with (form_text n ++ [61] ++ form_text v ++ 38 :: form_pairs ((n2, v2) :: fs)).
      replace (form_text n ++ [61] ++ form_text v ++ 38 :: form_pairs ((n2, v2) :: fs))
        with ((form_text n ++ 61 :: form_text v) ++ 38 :: form_pairs ((n2, v2) :: fs)) by now rewrite <- app_assoc.
      apply pc_more; auto. rewrite in_app_iff. cbn. intros [I|[I|I]]; [|lia|]; revert I; apply form_text_clean; cbn; auto.
    + constructor; auto. now apply form_one.
Qed.
Lemma pieces_unique d bs ps : pieces d bs ps -> forall ps', pieces d bs ps' -> ps = ps'.
Proof.
  induction 1 as [s N|s bs ps N _ IH]; intros ps' H; inversion H as [s2 N2|s2 bs2 ps2 N2 H2]; subst; auto.
  - exfalso. apply N. apply in_mid.
  - exfalso. apply N2. apply in_mid.
  - match goal with E : _ ++ _ = _ ++ _ |- _ => apply (f_equal (split_once d)) in E; rename E into X end.
    assert (Z : Some (s2, bs2) = Some (s, bs)).
    { etransitivity; [symmetry; exact (split_once_some d s2 bs2 N2)|]. etransitivity; [exact X|]. exact (split_once_some d s bs N). }
    inversion Z; subst. f_equal. now apply IH.
Qed.
Lemma form_pair_unique p a b : form_pair p a -> form_pair p b -> a = b.
Proof.
  intros (n & v & -> & N & A & B) (n2 & v2 & E & N2 & A2 & B2). apply (f_equal (split_once 61)) in E.
  assert (Z : Some (n, v) = Some (n2, v2)).
  { etransitivity; [symmetry; exact (split_once_some 61 n v N)|]. etransitivity; [exact E|]. exact (split_once_some 61 n2 v2 N2). }
  inversion Z; subst. destruct a, b. cbn in *. congruence.
Qed.
Lemma form_decodes_unique bs a b : form_decodes bs a -> form_decodes bs b -> a = b.
Proof.
  intros [[-> ->]|(ps & P & F)] [[E ->]|(ps2 & P2 & F2)]; auto.
  - exfalso. inversion P2 as [s N|s x y N]; subst; [|destruct s; discriminate]. inversion F2 as [|? ? ? ? (n & v & Q & _)]; subst. destruct n; discriminate.
  - exfalso. subst. inversion P as [s N|s x y N]; subst; [|destruct s; discriminate]. inversion F as [|? ? ? ? (n & v & Q & _)]; subst. destruct n; discriminate.
  - rewrite (pieces_unique _ _ _ P _ P2) in F. clear P P2. revert b F2. induction F as [|p x ps2 a H _ IH]; intros b F2; inversion F2; subst; auto.
    f_equal; auto. eapply form_pair_unique; eauto.
Qed.

(** ** the whole message *)
Lemma scalars_in s t : scalars s -> (forall c, In c t -> In c s) -> scalars t.
Proof. unfold scalars. rewrite !Forall_forall. auto. Qed.
Lemma header_block_in ls hs rest : header_block ls hs rest -> (forall l, In l rest -> In l ls) /\
  Forall (fun h => exists l, In l ls /\ (forall c, In c (fst h) -> In c l) /\ (forall c, In c (snd h) -> In c l)) hs.
Proof.
  assert (W : forall (ls : list str) l hs, Forall (fun h : header => exists l, In l ls /\ (forall c, In c (fst h) -> In c l) /\ (forall c, In c (snd h) -> In c l)) hs ->
    Forall (fun h : header => exists l', In l' (l :: ls) /\ (forall c, In c (fst h) -> In c l') /\ (forall c, In c (snd h) -> In c l')) hs).
  { intros ls0 l hs0 F. eapply Forall_impl; [|exact F]. intros h (x & X & Y). exists x. cbn. auto. }
  induction 1 as [|l ls B|n v n' v' ls hs rest N T V _ [IH1 IH2]|l ls hs rest B N _ [IH1 IH2]].
  - auto.
  - split; [cbn; auto|constructor].
  - split; [cbn; auto|]. constructor; auto. exists (n ++ 58 :: v). split; [cbn; auto|]. cbn [fst snd].
    apply trim_iff in T, V. subst. split; intros c I; apply trim_in in I; rewrite in_app_iff; cbn; auto.
  - split; [cbn; auto|]. auto.
Qed.
Lemma field_lines_in ls fs kept : field_lines ls fs kept ->
  Forall (fun f => exists l, In l ls /\ (forall c, In c (fst f) -> In c l) /\ (forall c, In c (snd f) -> In c l)) fs.
Proof.
  induction 1 as [|l n v ls fs kept T N _ IH|l ls fs kept N _ IH]; [constructor| |].
  - constructor.
    + exists l. split; [cbn; auto|]. cbn [fst snd]. destruct T as (a & b & -> & _). split; intros c I; rewrite !in_app_iff; cbn; auto.
    + eapply Forall_impl; [|exact IH]. intros h (x & X & Y). exists x. cbn. auto.
  - eapply Forall_impl; [|exact IH]. intros h (x & X & Y). exists x. cbn. auto.
Qed.
Lemma url_opt wds : (forall w, nth_error wds 1 = Some w -> url_from_opt (nth_error wds 1) = url_from w) /\
  (nth_error wds 1 = None -> url_from_opt (nth_error wds 1) = Url Http (lit "localhost") 80 (lit "/")).
Proof. split; [intros w ->; reflexivity|intros ->; reflexivity]. Qed.

Theorem request_sound prepare m : scalars m -> request_of prepare m (fst (request_from prepare m)) (snd (request_from prepare m)).
Proof.
  intros S. unfold request_from. destruct (lines (trim m)) as [|line ls] eqn:L.
  - apply lines_iff in L. cbn. constructor. apply trim_blank. inversion L; auto.
  - apply lines_iff in L. destruct (read_headers_spec ls None) as (hs & rest & H & ->).
    assert (SR : forall l, In l rest -> scalars l).
    { intros l I. apply (scalars_in m); auto. intros c J. apply trim_in. eapply lines_in; [exact L| |exact J]. cbn. right.
      now apply (header_block_in _ _ _ H). }
    pose proof (proj1 (words_iff line _) eq_refl) as W.
    destruct (fields_spec rest) as (fs & kept & F & FA & FB).
    assert (FS : Forall (fun f => scalars (fst f) /\ scalars (snd f)) fs).
    { eapply Forall_impl; [|apply (field_lines_in _ _ _ F)]. intros f (l & I & A & B). split; (eapply scalars_in; [exact (SR _ I)|assumption]). }
    assert (PS : map (fun f => part_of (fst (fst f)) (snd (fst f))) (fields rest) = map (fun f => part_of (fst f) (snd f)) fs).
    { rewrite <- FA, map_map. reflexivity. }
    assert (PF : Forall2 part_for fs (map (fun f => part_of (fst f) (snd f)) fs)).
    { clear. induction fs; cbn; constructor; auto. apply part_of_for. }
    match goal with |- context [match ?X with (_, _) => (Request _ _ _ _ _, _) end] =>
      assert (R : exists body c, body_sent prepare (first_type None hs) rest body c /\ X = (body, c)) end.
    { rewrite FA, FB, PS. cbv zeta.
      assert (PL : forall ct, ct <> Some (lit "application/x-www-form-urlencoded") -> ct <> Some (lit "multipart/form-data") ->
        exists body c, body_sent prepare ct rest body c /\ (concat rest, match trim (concat rest) with [] => CEmpty | _ => CByte (utf8 (concat rest)) end) = (body, c)).
      { intros ct C1 C2. do 2 eexists. split; [|reflexivity]. destruct (trim (concat rest)) as [|x y] eqn:T.
        - apply trim_blank in T. now apply bs_none.
        - apply bs_plain; auto. rewrite <- trim_blank, T. discriminate. }
      destruct (first_type None hs) as [ct|]; [|apply PL; discriminate].
      destruct (str_eqb ct (lit "application/x-www-form-urlencoded")) eqn:E1.
      - apply str_eqb_eq in E1. subst. do 2 eexists. split; [|reflexivity]. eapply bs_form; eauto; [now apply form_decode_pairs|now apply form_pairs_chars].
      - apply str_eqb_neq in E1. destruct (str_eqb ct (lit "multipart/form-data")) eqn:E2.
        + apply str_eqb_eq in E2. subst. do 2 eexists. split; [|reflexivity]. destruct (prepare _) eqn:P; [eapply bs_multi|eapply bs_unreadable]; eauto.
        + apply str_eqb_neq in E2. apply PL; congruence. }
    destruct R as (body & c & B & R). rewrite R. cbn [fst snd].
    eapply ro_message; eauto using trim_spec, method_opt_named, version_opt_named, first_type_spec; apply url_opt.
Qed.
Lemma body_unique prepare t ls body c body' c' : body_sent prepare t ls body c -> body_sent prepare t ls body' c' ->
  body = body' /\ (t <> Some (lit "application/x-www-form-urlencoded") -> c = c').
Proof.
  intros H H'. inversion H as [? fs kept b F D FC|? fs kept ps F P R|? fs kept ps F P R|? ? N1 N2 B|? ? N1 N2 B]; subst;
    inversion H' as [? fs' kept' b' F' D' FC'|? fs' kept' ps' F' P' R'|? fs' kept' ps' F' P' R'|? ? N1' N2' B'|? ? N1' N2' B']; subst;
    try congruence; try contradiction; auto;
    destruct (field_lines_unique _ _ _ F _ _ F') as [<- <-]; split; auto; try congruence.
  all: assert (ps = ps') by (clear -P P'; revert ps' P'; induction P; intros ps' Q; inversion Q; subst; auto; f_equal; eauto using part_for_unique); congruence.
Qed.
Theorem request_unique prepare m rq c rq' c' : request_of prepare m rq c -> request_of prepare m rq' c' ->
  rq = rq' /\ (~ content_type (rq_headers rq) (Some (lit "application/x-www-form-urlencoded")) -> c = c').
Proof.
  intros H H'. inversion H as [? B|? t line ls wds me u ve hs rest ct body ? T L W M U1 U2 V HB CT BS]; subst;
    inversion H' as [? B'|? t' line' ls' wds' me' u' ve' hs' rest' ct' body' ? T' L' W' M' U1' U2' V' HB' CT' BS']; subst; auto.
  - exfalso. apply trim_iff in T'. apply trim_blank in B. rewrite B in T'. subst. apply lines_iff in L'. discriminate.
  - exfalso. apply trim_iff in T. apply trim_blank in B'. rewrite B' in T. subst. apply lines_iff in L. discriminate.
  - rewrite <- (trimmed_unique _ _ _ T T') in *. apply lines_iff in L, L'. rewrite L in L'. inversion L'; subst line' ls'. 
    apply words_iff in W, W'. rewrite W in W'. subst wds'. destruct (header_block_unique _ _ _ HB _ _ HB') as [<- <-].
    rewrite <- (content_type_unique _ _ _ CT CT') in *. rewrite <- (method_unique _ _ _ M M'), <- (version_unique _ _ _ V V').
    destruct (body_unique _ _ _ _ _ _ _ BS BS') as [<- C]. split.
    + f_equal. destruct (nth_error wds 1) as [w|]; [now rewrite (U1 _ eq_refl), (U1' _ eq_refl)|now rewrite (U2 eq_refl), (U2' eq_refl)].
    + cbn [rq_headers]. intros N. apply C. intros ->. auto.
Qed.
Lemma form_body prepare m rq c : request_of prepare m rq c -> content_type (rq_headers rq) (Some (lit "application/x-www-form-urlencoded")) ->
  exists t line ls rest fs kept b, trimmed m t /\ text_lines t (line :: ls) /\ header_block ls (rq_headers rq) rest /\
    field_lines rest fs kept /\ c = CByte b /\ Forall form_char b /\ form_decodes b (map (fun f => (utf8 (fst f), utf8 (snd f))) fs).
Proof.
  intros H C. inversion H as [? B|? t line ls wds me u ve hs rest ct body ? T L W M U1 U2 V HB CT BS]; subst; cbn [rq_headers] in *.
  - exfalso. destruct C as [(a & n & v & b & E & _)|[_ E]]; [destruct a; discriminate|discriminate].
  - rewrite (content_type_unique _ _ _ CT C) in BS. inversion BS; subst; try contradiction; try congruence.
    exists t, line, ls, rest, fs, kept, b. auto 10.
Qed.
