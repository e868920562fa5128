(** Placeholder search and replacement *)
From Verif Require Import SpecTemplate Template TextProofs.
From Coq Require Import ZifyBool.
Open Scope N_scope.

Lemma ident_nonempty n : identifier n -> exists c s, n = c :: s /\ is_ident_start c = true /\ Forall (fun c => is_ident_char c = true) n.
Proof.
  intros (c & s & -> & L & F). exists c, s. repeat split.
  - now apply is_ident_start_iff.
  - constructor; [apply is_ident_char_iff; auto|]. eapply Forall_impl; [|exact F]. intros a. apply is_ident_char_iff.
Qed.
Lemma blank_ws w : blank w <-> Forall (fun c => is_ws c = true) w.
Proof. unfold blank. rewrite !Forall_forall. split; intros H c C; apply is_ws_iff; auto. Qed.

Lemma ident_start_not_ws c : is_ident_start c = true -> is_ws c = false.
Proof. intros H. apply is_ident_start_iff in H. apply is_ws_false. intros W. apply ws_not_special in W. tauto. Qed.
Lemma ws_not_ident c : is_ws c = true -> is_ident_char c = false.
Proof.
  intros H. destruct (is_ident_char c) eqn:E; auto. apply is_ident_char_iff in E. apply is_ws_iff in H. apply ws_not_special in H. tauto.
Qed.

Lemma match_hole p n r : hole p n -> match_here (p ++ r) = Some (length p).
Proof.
  intros (I & w1 & w2 & B1 & B2 & ->). apply blank_ws in B1, B2. destruct (ident_nonempty _ I) as (c & s & E & S & F).
  cbn [app]. unfold match_here. rewrite <- !app_assoc.
  rewrite (span_app is_ws w1) by (auto; intros ? ? X; rewrite E in X; inversion X; subst; now apply ident_start_not_ws).
  rewrite E. cbn [app]. rewrite S. change (c :: s ++ ?x) with ((c :: s) ++ x).
  rewrite (span_app is_ident_char (c :: s)).
  - rewrite (span_app is_ws w2) by (auto; intros ? ? X; inversion X; subst; reflexivity).
    cbn [app]. f_equal. cbn [length]. rewrite !app_length. cbn [length]. rewrite !app_length. cbn [length]. lia.
  - now rewrite <- E.
  - intros d b X. destruct w2 as [|x w2]; cbn [app] in X; inversion X; subst; [reflexivity|]. inversion B2; subst. now apply ws_not_ident.
Qed.

Lemma match_some s len : match_here s = Some len -> exists p n r, hole p n /\ s = p ++ r /\ length p = len.
Proof.
  unfold match_here. destruct s as [|x s1]; [discriminate|].
  destruct (N.eq_dec x 123) as [->|N]; [|intros H; exfalso; revert H; revert N; clear; destruct x as [|q]; [discriminate|]; do 7 (try (destruct q as [q|q|]; try discriminate)); congruence].
  destruct (span is_ws s1) as [w1 s2] eqn:E1. destruct s2 as [|c s2]; [discriminate|].
  destruct (is_ident_start c) eqn:Sc; [|discriminate].
  destruct (span is_ident_char (c :: s2)) as [id s3] eqn:E2. destruct (span is_ws s3) as [w2 s4] eqn:E3.
  destruct s4 as [|y s4]; [discriminate|].
  destruct (N.eq_dec y 125) as [->|N]; [|intros H; exfalso; revert H; revert N; clear; destruct y as [|q]; [discriminate|]; do 7 (try (destruct q as [q|q|]; try discriminate)); congruence].
  intros [= <-]. apply span_spec in E1, E2, E3. destruct E1 as (-> & W1 & _), E2 as (E2 & F & _), E3 as (-> & W2 & _).
  exists (123 :: w1 ++ id ++ w2 ++ [125]), id, s4. split; [|split].
  - split.
    + destruct id as [|c' id].
      * cbn [app] in E2. exfalso. assert (A : span is_ident_char (c :: s2) = ([], c :: s2)).
        { cbn [span]. rewrite (proj2 (is_ident_char_iff c)) by (left; now apply is_ident_start_iff). 
          destruct (span is_ident_char s2) as [a b] eqn:Q. exfalso.
          assert (is_ident_char c = true) by (apply is_ident_char_iff; left; now apply is_ident_start_iff).
          destruct w2 as [|z w2]; cbn [app] in E2; inversion E2; subst; [discriminate|].
          inversion W2; subst. apply ws_not_ident in H2. congruence. }
        cbn [span] in A. rewrite (proj2 (is_ident_char_iff c)) in A by (left; now apply is_ident_start_iff).
        destruct (span is_ident_char s2); inversion A.
      * inversion E2; subst. inversion F; subst. exists c', id. repeat split; auto.
        -- now apply is_ident_start_iff.
        -- eapply Forall_impl; [|exact H2]. intros a. apply is_ident_char_iff.
    + exists w1, w2. repeat split; auto; now apply blank_ws.
  - cbn [app]. rewrite E2. rewrite <- !app_assoc. reflexivity.
  - cbn [length]. rewrite !app_length. cbn [length]. lia.
Qed.

Lemma hole_length p n : hole p n -> (2 <= length p)%nat.
Proof. intros (_ & w1 & w2 & _ & _ & ->). cbn [length]. rewrite !app_length. cbn [length]. lia. Qed.

Lemma find_skip u : forall pos s, find_from pos (length u) (u ++ s) = find_from (pos + length u) 0 s.
Proof.
  induction u as [|c u IH]; intros pos s; cbn [length app]; [now rewrite Nat.add_0_r|].
  cbn [find_from]. rewrite IH. f_equal. lia.
Qed.
Lemma find_hole p n pos s : hole p n -> find_from pos 0 (p ++ s) = (pos, pos + length p)%nat :: find_from (pos + length p) 0 s.
Proof.
  intros H. pose proof (match_hole _ _ s H) as M. pose proof (hole_length _ _ H) as L.
  destruct p as [|c p]; [cbn in L; lia|]. cbn [app find_from] in *. rewrite M. f_equal.
  cbn [length]. replace (S (length p) - 1)%nat with (length p) by lia. rewrite find_skip. f_equal. lia.
Qed.
Lemma find_lit c s pos : (forall p n r, hole p n -> c :: s <> p ++ r) -> find_from pos 0 (c :: s) = find_from (S pos) 0 s.
Proof.
  intros H. cbn [find_from]. destruct (match_here (c :: s)) as [len|] eqn:E; auto.
  apply match_some in E. destruct E as (p & n & r & Hh & E & _). exfalso. eapply H; eauto.
Qed.

(** every text has a decomposition, and only one *)
Lemma scan_exists s : exists ps, scan s ps.
Proof.
  assert (A : forall n s, (length s <= n)%nat -> exists ps, scan s ps).
  { induction n as [|n IH]; intros [|c s'] L; try (exists []; constructor); cbn [length] in L; [lia|].
    destruct (match_here (c :: s')) as [len|] eqn:E.
    - apply match_some in E. destruct E as (p & m & r & H & E & _). destruct (IH r) as [ps P].
      { apply (f_equal (@length char)) in E. rewrite app_length in E. cbn [length] in E. pose proof (hole_length _ _ H). lia. }
      rewrite E. exists (Hole m :: ps). econstructor; eauto.
    - destruct (IH s') as [ps P]; [lia|]. exists (Lit c :: ps). constructor; auto.
      intros p m r H X. rewrite X, (match_hole p m r H) in E. discriminate. }
  eapply A. apply le_n.
Qed.
Lemma trim_middle w1 n w2 : blank w1 -> blank w2 -> identifier n -> trim (w1 ++ n ++ w2) = n.
Proof.
  intros B1 B2 I. destruct (ident_nonempty _ I) as (c & s & -> & S & F). apply blank_ws in B1, B2.
  assert (D : forall w x, Forall (fun c => is_ws c = true) w -> (forall y r, x = y :: r -> is_ws y = false) -> drop_while is_ws (w ++ x) = x).
  { induction w as [|y w IH]; intros x W X; cbn [app drop_while].
    - destruct x as [|y r]; auto. cbn. rewrite (X y r); auto.
    - inversion W; subst. rewrite H1. auto. }
  assert (C : forall c, is_ident_char c = true -> is_ws c = false).
  { intros d Hd. destruct (is_ws d) eqn:E; auto. apply ws_not_ident in E. congruence. }
  unfold trim. rewrite D; auto.
  - rewrite rev_app_distr. rewrite D; auto.
    + apply rev_involutive.
    + now apply Forall_rev.
    + intros y r E. apply C. apply Forall_rev in F. rewrite E in F. now inversion F.
  - intros y r E. cbn in E. inversion E; subst. now apply ident_start_not_ws.
Qed.
Lemma slice_mid (u p s : str) : slice (u ++ p ++ s) (length u) (length u + length p) = p.
Proof.
  unfold slice. replace (length u + length p - length u)%nat with (length p) by lia.
  rewrite skipn_app, skipn_all, Nat.sub_diag. cbn [app skipn]. rewrite firstn_app, firstn_all, Nat.sub_diag. cbn. apply app_nil_r.
Qed.
Lemma hole_name u p n s : hole p n -> placeholder_name (u ++ p ++ s) (length u, length u + length p)%nat = n.
Proof.
  intros (I & w1 & w2 & B1 & B2 & E). unfold placeholder_name. cbn [fst snd]. rewrite slice_mid.
  assert (X : slice p 1 (length p - 1) = w1 ++ n ++ w2).
  { rewrite E. change (123 :: ?x) with ([123] ++ x).
    replace (w1 ++ n ++ w2 ++ [125]) with ((w1 ++ n ++ w2) ++ [125]) by (now rewrite <- !app_assoc).
    transitivity (slice ([123] ++ (w1 ++ n ++ w2) ++ [125]) (length [123]) (length [123] + length (w1 ++ n ++ w2))); [|apply slice_mid].
    f_equal. rewrite !app_length. cbn [length]. lia. }
  rewrite X. now apply trim_middle.
Qed.
Lemma hole_unique p n r p' n' r' : hole p n -> hole p' n' -> p ++ r = p' ++ r' -> p = p' /\ n = n' /\ r = r'.
Proof.
  intros H H' E. assert (L : length p = length p').
  { pose proof (match_hole _ _ r H). pose proof (match_hole _ _ r' H'). rewrite E in H0. congruence. }
  assert (p = p' /\ r = r') as [-> ->].
  { clear -E L. revert p' L E. induction p as [|c p IH]; intros [|c' p'] L E; cbn in *; try lia; auto.
    inversion E; subst. destruct (IH p'); auto. subst. auto. }
  split; auto. split; auto. 
  pose proof (hole_name [] p' n [] H) as A. pose proof (hole_name [] p' n' [] H') as B. congruence.
Qed.
Lemma scan_unique s ps : scan s ps -> forall ps', scan s ps' -> ps = ps'.
Proof.
  induction 1 as [|p n s ps H S IH|c s ps N S IH]; intros ps' S'.
  - inversion S' as [|p n s ps H S E|]; subst; auto. exfalso. pose proof (hole_length _ _ H).
    apply (f_equal (@length char)) in E. rewrite app_length in E. cbn in E. lia.
  - inversion S' as [E|p' n' s' ps'' H' S'' E|c s' ps'' N S'' E]; subst.
    + exfalso. pose proof (hole_length _ _ H). apply (f_equal (@length char)) in E. rewrite app_length in E. cbn in E. lia.
    + destruct (hole_unique _ _ _ _ _ _ H' H E) as (-> & -> & ->). f_equal. auto.
    + exfalso. eapply N; eauto.
  - inversion S' as [|p' n' s' ps'' H' S'' E|]; subst.
    + exfalso. eapply N; eauto.
    + f_equal. auto.
Qed.

Lemma replace_mid (u p s t : str) : replace_range (u ++ p ++ s) (length u, length u + length p)%nat t = u ++ t ++ s.
Proof.
  unfold replace_range. cbn [fst snd]. f_equal.
  - rewrite firstn_app, firstn_all, Nat.sub_diag. cbn. apply app_nil_r.
  - f_equal. rewrite app_assoc. rewrite <- app_length. rewrite skipn_app, skipn_all, Nat.sub_diag. reflexivity.
Qed.

Lemma ranges_spec s ps : scan s ps -> forall u,
  map (placeholder_name (u ++ s)) (find_from (length u) 0 s) = holes ps /\
  forall vs, length vs = length (holes ps) ->
    fold_right (fun rv m => replace_range m (fst rv) (snd rv)) (u ++ s) (combine (find_from (length u) 0 s) vs) = u ++ fill ps vs.
Proof.
  induction 1 as [|p n s ps H S IH|c s ps N S IH]; intros u.
  - split; auto.
  - rewrite (find_hole _ _ _ _ H). rewrite <- app_length. destruct (IH (u ++ p)) as [A B]. rewrite <- app_assoc in A, B. split.
    + cbn [map holes flat_map app]. f_equal; [|exact A]. rewrite app_length. now apply hole_name.
    + intros [|v vs] L; [discriminate L|]. cbn [combine fold_right fst snd fill]. rewrite B by (cbn [length holes flat_map app] in L; unfold holes; lia).
      rewrite <- app_assoc. rewrite app_length. apply replace_mid.
  - rewrite (find_lit _ _ _ N). destruct (IH (u ++ [c])) as [A B]. rewrite app_length in A, B. cbn [length] in A, B.
    replace (length u + 1)%nat with (Datatypes.S (length u)) in A, B by lia. rewrite <- app_assoc in A, B. cbn [app] in A, B. split; [exact A|].
    intros vs L. rewrite B by exact L. rewrite <- app_assoc. reflexivity.
Qed.
Lemma find_count s ps : scan s ps -> length (find_iter s) = length (holes ps).
Proof. intros S. destruct (ranges_spec _ _ S []) as [A _]. rewrite <- A. rewrite map_length. reflexivity. Qed.

Lemma combine_rev {A B} (a : list A) : forall (b : list B), length a = length b -> combine (rev a) (rev b) = rev (combine a b).
Proof.
  induction a as [|x a IH]; intros [|y b] L; cbn in *; try lia; auto.
  rewrite <- IH by lia.
  assert (C : forall (a : list A) (b : list B) x y, length a = length b -> combine (a ++ [x]) (b ++ [y]) = combine a b ++ [(x, y)]).
  { clear. induction a; intros [|y' b] x y L; cbn in *; try lia; auto. f_equal. apply IHa. lia. }
  apply C. rewrite !rev_length. lia.
Qed.

(** the whole substitution *)
Theorem substitute_spec lookup s ps : scan s ps -> substitute lookup s = fill ps (map lookup (holes ps)).
Proof.
  intros S. unfold substitute. rewrite fold_left_rev_right || rewrite <- fold_left_rev_right. rewrite rev_involutive.
  destruct (ranges_spec _ _ S []) as [A B]. cbn [app length] in A, B. fold (find_iter s) in A, B.
  rewrite <- (B (map lookup (holes ps))) by (now rewrite map_length). rewrite <- A. rewrite map_map.
  generalize (find_iter s). intros rs. assert (G : forall m, fold_right (fun (y : str * (nat * nat)) (x : str) => replace_range x (snd y) (lookup (fst y))) m
    (map (fun r => (placeholder_name s r, r)) rs) =
    fold_right (fun rv m => replace_range m (fst rv) (snd rv)) m (combine rs (map (fun x => lookup (placeholder_name s x)) rs))).
  { intros m. induction rs as [|r rs IH]; cbn; auto. now rewrite IH. }
  apply G.
Qed.
Theorem format_fold s ps vs : scan s ps -> length vs = length (holes ps) ->
  fold_left (fun m rv => replace_range m (fst rv) (snd rv)) (combine (rev (find_iter s)) (rev vs)) s = fill ps vs.
Proof.
  intros S L. rewrite combine_rev by (rewrite (find_count _ _ S); auto). rewrite <- fold_left_rev_right, rev_involutive.
  destruct (ranges_spec _ _ S []) as [_ B]. apply (B vs L).
Qed.
