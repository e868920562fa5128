(** Text.v against SpecText.v *)
From Verif Require Import SpecText TextProofs DigitsProofs.
From Coq Require Import ZifyBool.
Open Scope N_scope.

Lemma ws_dec c : ws c \/ ~ ws c.
Proof. destruct (is_ws c) eqn:E; [left; now apply is_ws_iff|right; now apply is_ws_false]. Qed.

(** ** trim *)
Lemma drop_while_spec p s : exists a b, s = a ++ b /\ Forall (fun c => p c = true) a /\ (forall c r, b = c :: r -> p c = false) /\ drop_while p s = b.
Proof.
  induction s as [|c s IH]; [exists [], []; repeat split; auto; discriminate|]. cbn [drop_while]. destruct (p c) eqn:E.
  - destruct IH as (a & b & -> & A & B & C). exists (c :: a), b. repeat split; auto.
  - exists [], (c :: s). repeat split; auto. intros c' r [= <- <-]. auto.
Qed.
Lemma drop_while_app p a b : Forall (fun c => p c = true) a -> (forall c r, b = c :: r -> p c = false) -> drop_while p (a ++ b) = b.
Proof.
  induction 1 as [|c a H _ IH]; intros B; cbn [app drop_while]; [|now rewrite H; apply IH].
  destruct b as [|c b]; auto. cbn. now rewrite (B c b eq_refl).
Qed.
Lemma blank_is s : blank s <-> Forall (fun c => is_ws c = true) s.
Proof. unfold blank. rewrite !Forall_forall. split; intros H c I; apply is_ws_iff, H, I. Qed.
Lemma blank_rev s : blank s -> blank (rev s).
Proof. unfold blank. rewrite !Forall_forall. intros H c I. apply H. now apply in_rev. Qed.
Lemma blank_app a b : blank (a ++ b) <-> blank a /\ blank b.
Proof. apply Forall_app. Qed.
Lemma trim_spec s : trimmed s (trim s).
Proof.
  unfold trim. destruct (drop_while_spec is_ws s) as (a & b & -> & A & B & ->).
  destruct (drop_while_spec is_ws (rev b)) as (u & v & E & U & V & ->).
  assert (E' : b = rev v ++ rev u) by (rewrite <- rev_app_distr, <- E, rev_involutive; auto).
  exists a, (rev u). split; [now rewrite E'|]. split; [now apply blank_is|]. split; [apply blank_rev; now apply blank_is|]. split.
  - intros c r F. apply is_ws_false. destruct b as [|x b].
    { apply (f_equal (@length char)) in E'. rewrite app_length in E'. rewrite F in E'. discriminate. }
    rewrite F in E'. inversion E'; subst. eapply B; eauto.
  - intros c r F. apply is_ws_false. apply (f_equal (@rev char)) in F. rewrite rev_involutive, rev_app_distr in F. cbn in F. eapply V; eauto.
Qed.
Lemma trimmed_trim s t : trimmed s t -> trim s = t.
Proof.
  intros (a & b & -> & A & B & F & L). unfold trim.
  destruct t as [|c t].
  - cbn [app]. rewrite <- (app_nil_r (a ++ b)). rewrite drop_while_app; [reflexivity| |discriminate].
    apply blank_is. now apply blank_app.
  - rewrite drop_while_app; [|now apply blank_is|intros c' r [= <- _]; apply is_ws_false; eauto].
    rewrite rev_app_distr, drop_while_app; [apply rev_involutive|now apply blank_is, blank_rev|].
    intros c' r E. apply is_ws_false. apply (L c' (rev r)). apply (f_equal (@rev char)) in E. rewrite rev_involutive in E. exact E.
Qed.
Lemma trim_iff s t : trim s = t <-> trimmed s t.
Proof. split; [intros <-; apply trim_spec|apply trimmed_trim]. Qed.
Lemma blank_dec s : blank s \/ ~ blank s.
Proof.
  induction s as [|c s IH]; [left; constructor|]. destruct (ws_dec c), IH; try (left; constructor; auto; fail); right; intros H'; inversion H'; auto.
Qed.
Lemma trim_blank s : trim s = [] <-> blank s.
Proof.
  rewrite trim_iff. split.
  - intros (a & b & -> & A & B & _). cbn [app]. now apply blank_app.
  - intros B. exists s, []. rewrite app_nil_r. repeat split; auto; [constructor|discriminate|intros c r E; destruct r; discriminate].
Qed.
Lemma trim_id s : trim (trim s) = trim s.
Proof.
  apply trimmed_trim. destruct (trim_spec s) as (a & b & _ & _ & _ & F & L). exists [], []. rewrite app_nil_r. repeat split; auto; constructor.
Qed.
(** trimming around a separator that is not blank *)
Lemma trim_around n d v : ~ ws d -> trim (n ++ d :: v) = drop_while is_ws n ++ d :: rev (drop_while is_ws (rev v)).
Proof.
  intros D. apply trimmed_trim. destruct (drop_while_spec is_ws n) as (a & b & -> & A & B & ->).
  destruct (drop_while_spec is_ws (rev v)) as (x & y & E & X & Y & ->).
  assert (E' : v = rev y ++ rev x) by (rewrite <- rev_app_distr, <- E, rev_involutive; auto).
  exists a, (rev x). split; [rewrite E'; now rewrite <- !app_assoc|]. split; [now apply blank_is|]. split; [apply blank_rev; now apply blank_is|]. split.
  - intros c r F. destruct b as [|c' b]; inversion F; subst; auto. apply is_ws_false. eauto.
  - intros c r F. destruct y as [|c' y].
    + cbn in F. apply app_inj_tail in F. destruct F as [_ <-]. auto.
    + cbn [rev] in F. change (d :: rev y ++ [c']) with ((d :: rev y) ++ [c']) in F. rewrite app_assoc in F. apply app_inj_tail in F. destruct F as [_ <-].
      apply is_ws_false. eauto.
Qed.
Lemma trim_left n : trim (drop_while is_ws n) = trim n.
Proof.
  unfold trim. do 3 f_equal. destruct (drop_while_spec is_ws n) as (a & b & -> & A & B & ->).
  destruct b as [|c b]; auto. cbn. now rewrite (B c b eq_refl).
Qed.
Lemma trim_right v : trim (rev (drop_while is_ws (rev v))) = trim v.
Proof.
  apply trimmed_trim. destruct (trim_spec v) as (a & b & E & A & B & F & L).
  destruct (drop_while_spec is_ws (rev v)) as (x & y & E2 & X & Y & ->).
  assert (E' : v = rev y ++ rev x) by (rewrite <- rev_app_distr, <- E2, rev_involutive; auto).
  set (t := trim v) in *. clearbody t. destruct t as [|c0 t0] eqn:T.
  - exists (rev y), []. rewrite app_nil_r. split; [reflexivity|]. split.
    { cbn [app] in E. assert (BV : blank v) by (rewrite E; now apply blank_app). rewrite E' in BV. apply blank_app in BV. tauto. }
    split; [constructor|]. split; [discriminate|]. intros c r G. destruct r; discriminate.
  - rewrite <- T in *. exists a, []. rewrite app_nil_r. split; [|split; [auto|split; [constructor|auto]]].
    assert (Z : rev y = a ++ t /\ rev x = b); [|destruct Z as [-> _]; auto].
    assert (G : rev v = x ++ y) by auto. rewrite E in G. rewrite app_assoc, rev_app_distr in G.
    assert (D1 : drop_while is_ws (rev b ++ rev (a ++ t)) = rev (a ++ t)).
    { apply drop_while_app; [apply blank_is; now apply blank_rev|]. intros c r H. apply is_ws_false.
      rewrite rev_app_distr in H. destruct (rev t) as [|c1 t1] eqn:R.
      - apply (f_equal (@rev char)) in R. rewrite rev_involutive in R. rewrite R in T. discriminate.
      - inversion H; subst c1. apply (L c (rev t1)). rewrite <- (rev_involutive t), R. reflexivity. }
    assert (D2 : drop_while is_ws (x ++ y) = y) by (apply drop_while_app; auto).
    rewrite G in D1. rewrite D1 in D2. assert (Y' : rev y = a ++ t) by (rewrite <- D2; apply rev_involutive).
    split; auto. rewrite Y', E, app_assoc in E'. now apply app_inv_head in E'.
Qed.

(** ** words *)
Lemma words_acc_word acc w s : Forall (fun c => ~ ws c) w -> words_acc acc (w ++ s) = words_acc (rev w ++ acc) s.
Proof.
  intros W. revert acc. induction W as [|c w C W IH]; intros acc; auto. cbn [app words_acc]. apply is_ws_false in C. rewrite C.
  rewrite IH. cbn [rev]. now rewrite <- app_assoc.
Qed.
Lemma words_acc_blank a s : blank a -> words_acc [] (a ++ s) = words_acc [] s.
Proof. induction 1 as [|c a C _ IH]; auto. cbn [app words_acc]. apply is_ws_iff in C. now rewrite C. Qed.
Lemma words_split s l : words s l -> split_whitespace s = l.
Proof.
  unfold split_whitespace. induction 1 as [s B|a w s l A N W S _ IH].
  - rewrite <- (app_nil_r s). now rewrite words_acc_blank.
  - rewrite words_acc_blank by auto. rewrite words_acc_word by auto. rewrite app_nil_r.
    assert (R : exists c r, rev w = c :: r).
    { destruct (rev w) as [|c r] eqn:R; [|eauto]. apply (f_equal (@rev char)) in R. rewrite rev_involutive in R. exfalso. exact (N R). }
    destruct R as (c & r & R). destruct S as [->|(c' & r' & -> & C)].
    + cbn [words_acc] in *. rewrite R. rewrite <- R, rev_involutive. f_equal. auto.
    + cbn [words_acc] in *. apply is_ws_iff in C. rewrite C in *. rewrite R. rewrite <- R, rev_involutive. f_equal. auto.
Qed.
Lemma words_total s : exists l, words s l.
Proof.
  remember (length s) as n eqn:E. revert s E. induction n as [n IH] using (well_founded_induction Wf_nat.lt_wf). intros s ->.
  destruct (drop_while_spec is_ws s) as (a & b & -> & A & B & _). apply blank_is in A.
  destruct b as [|c b].
  - exists []. rewrite app_nil_r. now constructor.
  - destruct (span (fun c => negb (is_ws c)) (c :: b)) as [w r] eqn:S. destruct (span_spec _ _ _ _ S) as (E & W & R).
    destruct (IH (length r)) with (s := r) as [l L]; auto.
    { rewrite app_length, E, app_length. destruct w as [|x w]; [|cbn; lia]. cbn in E. rewrite <- E in R. specialize (R _ _ eq_refl).
      specialize (B _ _ eq_refl). rewrite B in R. discriminate. }
    exists (w :: l). rewrite E. apply wd_cons; auto.
    + intros ->. cbn in E. rewrite <- E in R. specialize (R _ _ eq_refl). specialize (B _ _ eq_refl). rewrite B in R. discriminate.
    + eapply Forall_impl; [|exact W]. intros x X. cbv beta in X. apply is_ws_false. lia.
    + destruct r as [|x r]; auto. right. exists x, r. split; auto. apply is_ws_iff. specialize (R _ _ eq_refl). cbv beta in R. lia.
Qed.
Lemma words_iff s l : split_whitespace s = l <-> words s l.
Proof. split; [|apply words_split]. intros <-. destruct (words_total s) as [l L]. now rewrite (words_split _ _ L). Qed.
Lemma words_in s l : words s l -> forall w, In w l -> w <> [] /\ Forall (fun c => ~ ws c /\ In c s) w.
Proof.
  induction 1 as [s B|a w s l A N W S _ IH]; intros x [].
  - subst. split; auto. apply Forall_forall. intros c I. rewrite Forall_forall in W. split; auto. rewrite !in_app_iff. auto.
  - destruct (IH x H) as [X Y]. split; auto. eapply Forall_impl; [|exact Y]. intros c [C I]. split; auto. rewrite !in_app_iff. auto.
Qed.

(** ** lines *)
Lemma strip_cr_last (l : str) : strip_cr (l ++ [13]) = l.
Proof. unfold strip_cr. rewrite rev_app_distr. cbn. apply rev_involutive. Qed.
Lemma strip_cr_other (l : str) : (forall l', l <> l' ++ [13]) -> strip_cr l = l.
Proof.
  intros H. unfold strip_cr. destruct (rev l) as [|c r] eqn:E; [reflexivity|]. destruct (N.eq_dec c 13) as [->|N].
  - exfalso. apply (H (rev r)). rewrite <- (rev_involutive l), E. reflexivity.
  - destruct c as [|q]; auto. do 4 (try (destruct q as [q|q|]; auto)). congruence.
Qed.
Lemma lines_acc_line l s : ~ In 10 l -> forall acc, lines_acc acc (l ++ 10 :: s) = strip_cr (rev acc ++ l) :: lines_acc [] s.
Proof.
  induction l as [|c l IH]; intros N acc; cbn [app lines_acc].
  - rewrite N.eqb_refl, app_nil_r. reflexivity.
  - cbn in N. replace (c =? 10) with false by lia. rewrite IH by tauto. cbn [rev]. now rewrite <- app_assoc.
Qed.
Lemma lines_acc_last l : ~ In 10 l -> forall acc, lines_acc acc l = match rev acc ++ l with [] => [] | x => [x] end.
Proof.
  induction l as [|c l IH]; intros N acc; cbn [lines_acc].
  - rewrite app_nil_r. destruct acc as [|n acc]; auto. cbn [rev]. destruct (rev acc ++ [n]) eqn:E; auto. destruct (rev acc); discriminate.
  - cbn in N. replace (c =? 10) with false by lia. rewrite IH by tauto. cbn [rev]. now rewrite <- app_assoc.
Qed.
Lemma lines_spec s l : text_lines s l -> lines s = l.
Proof.
  unfold lines. induction 1 as [|s N I|l s ls I C _ IH|l s ls I _ IH]; auto.
  - rewrite lines_acc_last by auto. cbn. destruct s; [exfalso; auto|reflexivity].
  - rewrite lines_acc_line by auto. cbn. now rewrite strip_cr_other, IH.
  - change (l ++ 13 :: 10 :: s) with (l ++ [13] ++ 10 :: s). rewrite app_assoc, lines_acc_line.
    + cbn [rev app]. now rewrite strip_cr_last, IH.
    + rewrite in_app_iff. cbn. intros [?|[?|[]]]; [tauto|lia].
Qed.
Lemma lines_total s : exists l, text_lines s l.
Proof.
  remember (length s) as n eqn:E. revert s E. induction n as [n IH] using (well_founded_induction Wf_nat.lt_wf). intros s ->.
  destruct (span (fun c => negb (c =? 10)) s) as [a b] eqn:S. destruct (span_spec _ _ _ _ S) as (E & A & B).
  assert (NA : ~ In 10 a) by (intros I; rewrite Forall_forall in A; specialize (A _ I); cbv beta in A; lia).
  destruct b as [|c b].
  - rewrite app_nil_r in E. subst. destruct a as [|x a]; [exists []; constructor|]. exists [x :: a]. apply tl_last; auto. discriminate.
  - specialize (B _ _ eq_refl). cbv beta in B. assert (c = 10) by lia. subst c.
    destruct (IH (length b)) with (s := b) as [l L]; auto. { subst s. rewrite app_length. cbn. lia. }
    rewrite E. destruct (rev a) as [|c r] eqn:R.
    + assert (a = []) by (rewrite <- (rev_involutive a), R; auto). subst a. exists ([] :: l). apply (tl_lf []); auto. intros l' X. destruct l'; discriminate.
    + assert (RA : a = rev r ++ [c]) by (rewrite <- (rev_involutive a), R; auto). destruct (N.eq_dec c 13) as [->|N].
      * exists (rev r :: l). rewrite RA, <- app_assoc. apply tl_crlf; auto. intros I. apply NA. rewrite RA. rewrite in_app_iff. auto.
      * exists (a :: l). apply tl_lf; auto. intros l' X. rewrite RA in X. apply app_inj_tail in X. tauto.
Qed.
Lemma lines_iff s l : lines s = l <-> text_lines s l.
Proof. split; [|apply lines_spec]. intros <-. destruct (lines_total s) as [l L]. now rewrite (lines_spec _ _ L). Qed.
Lemma lines_in s l : text_lines s l -> forall x, In x l -> ~ In 10 x /\ forall c, In c x -> In c s.
Proof.
  induction 1 as [|s N I|l s ls I C _ IH|l s ls I _ IH]; intros x [].
  - subst. auto.
  - destruct H.
  - subst. split; auto. intros. rewrite in_app_iff. auto.
  - destruct (IH _ H). split; auto. intros. rewrite in_app_iff. right. right. auto.
  - subst. split; auto. intros. rewrite in_app_iff. auto.
  - destruct (IH _ H). split; auto. intros. rewrite in_app_iff. right. right. right. auto.
Qed.

(** ** split_once *)
Lemma split_once_some (d : char) (a b : str) : ~ In d a -> split_once d (a ++ d :: b) = Some (a, b).
Proof.
  induction a as [|c a IH]; intros N; cbn [app split_once]; [now rewrite N.eqb_refl|].
  cbn in N. replace (c =? d) with false by lia. now rewrite IH by tauto.
Qed.
Lemma split_once_none (d : char) (s : str) : ~ In d s -> split_once d s = None.
Proof.
  induction s as [|c s IH]; intros N; auto. cbn [split_once]. cbn in N. replace (c =? d) with false by lia. now rewrite IH by tauto.
Qed.
Lemma split_once_cases (d : char) (s : str) : (~ In d s /\ split_once d s = None) \/ (exists a b : str, s = a ++ d :: b /\ ~ In d a /\ split_once d s = Some (a, b)).
Proof.
  destruct (in_dec N.eq_dec d s) as [I|N]; [|left; split; auto using split_once_none].
  right. assert (X : exists a b, s = a ++ d :: b /\ ~ In d a).
  { clear -I. induction s as [|c s IH]; [destruct I|]. destruct (N.eq_dec c d) as [->|N]; [exists [], s; auto|].
    destruct I as [?|I]; [congruence|]. destruct (IH I) as (a & b & -> & X). exists (c :: a), b. split; auto. cbn. intros [?|?]; auto. }
  destruct X as (a & b & -> & X). exists a, b. split; auto. split; auto. now apply split_once_some.
Qed.

(** ** numbers *)
Lemma digits_val_some ds : Forall digit ds -> forall acc, digits_val acc ds = Some (fold_left (fun a c => 10 * a + (c - 48)) ds acc).
Proof.
  induction 1 as [|c ds C _ IH]; intros acc; auto. cbn [digits_val fold_left]. pose proof C as C'. apply is_digit_iff in C'. rewrite C'.
  rewrite IH. do 2 f_equal. lia.
Qed.
Lemma digits_val_digits ds : forall acc n, digits_val acc ds = Some n -> Forall digit ds.
Proof.
  induction ds as [|c ds IH]; intros acc n H; [constructor|]. cbn in H. destruct (is_digit c) eqn:E; [|discriminate].
  constructor; [now apply is_digit_iff|]. eauto.
Qed.
Lemma parse_unsigned_iff max t n : parse_unsigned max t = Some n <-> unsigned max t n.
Proof.
  unfold parse_unsigned, unsigned.
  set (ds := match t with 43 :: ((_ :: _) as r) => r | _ => t end).
  assert (D : (t = ds /\ (forall r, r <> [] -> t <> 43 :: r)) \/ (t = 43 :: ds /\ ds <> [])).
  { subst ds. destruct t as [|c t]; [left; split; auto; discriminate|]. destruct (N.eq_dec c 43) as [->|N].
    - destruct t as [|c t]; [left; split; auto; intros r R [= <-]; now apply R|right; split; auto; discriminate].
    - left. split; [|congruence]. destruct c as [|q]; auto. do 6 (try (destruct q as [q|q|]; auto)). congruence. }
  clearbody ds. split.
  - destruct ds as [|d ds]; [discriminate|]. destruct (digits_val 0 (d :: ds)) as [m|] eqn:V; [|discriminate].
    pose proof (digits_val_digits _ _ _ V) as G. rewrite (digits_val_some _ G) in V. destruct (m <=? max) eqn:L; [|discriminate].
    intros [= <-]. exists (d :: ds). split; [tauto|]. split; [discriminate|]. split; auto. split; [|lia]. inversion V. reflexivity.
  - intros (es & T & NE & G & -> & L). assert (es = ds).
    { destruct D as [[D1 D2]|[D1 D2]].
      - destruct T as [T|T]; [congruence|]. exfalso. eapply D2; eauto.
      - destruct T as [T|T]; [|congruence]. subst es. rewrite D1 in G. inversion G as [|? ? G1]. unfold digit in G1. lia. }
    subst es. destruct ds as [|d ds]; [congruence|]. rewrite (digits_val_some _ G). fold (decimal (d :: ds)). now replace (decimal (d :: ds) <=? max) with true by lia.
Qed.
Lemma unsigned_dec max t : (exists n, unsigned max t n) \/ (forall n, ~ unsigned max t n).
Proof.
  destruct (parse_unsigned max t) as [n|] eqn:E; [left; exists n; now apply parse_unsigned_iff|].
  right. intros n H. apply parse_unsigned_iff in H. congruence.
Qed.
Lemma parse_unsigned_none max t : (forall n, ~ unsigned max t n) -> parse_unsigned max t = None.
Proof. intros H. destruct (parse_unsigned max t) eqn:E; auto. exfalso. eapply H. apply parse_unsigned_iff. eauto. Qed.
