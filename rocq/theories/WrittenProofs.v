(** Messages written in the usual form are sent as written *)
From Verif Require Import SpecWritten TextProofs TextMore RequestProofs WireProofs.
Open Scope N_scope.

Lemma lines_joined (l0 : str) (ls : list str) : ~ In 10 l0 -> Forall (fun l => ~ In 10 l) ls ->
  (forall a b, l0 :: ls = a ++ b -> b <> [] -> Forall (fun l : str => forall l' : str, l <> l' ++ [13]) a) ->
  (forall l, ls <> [] \/ l0 = l -> last ls l <> []) ->
  text_lines (l0 ++ flat_map (fun l => 10 :: l) ls) (l0 :: ls).
Proof.
  revert l0. induction ls as [|l1 ls IH]; intros l0 N F C L.
  - cbn. rewrite app_nil_r. constructor; auto. apply (L l0). auto.
  - cbn [flat_map]. inversion F; subst. cbn [app]. apply tl_lf; auto.
    + pose proof (C [l0] (l1 :: ls) eq_refl ltac:(discriminate)) as X. now inversion X.
    + apply IH; auto.
      * intros a b E B. specialize (C (l0 :: a) b). rewrite E in C. specialize (C eq_refl B). now inversion C.
      * intros l Hl. specialize (L l ltac:(left; discriminate)). cbn in L. destruct ls; auto. destruct Hl as [H|H]; [congruence|]. now subst.
Qed.

Lemma trimmed_end (s : str) c : trimmed (s ++ [c]) (s ++ [c]) -> ~ ws c.
Proof. intros (a & b & _ & _ & _ & _ & H). eapply H; reflexivity. Qed.
Lemma trimmed_start (s : str) c : trimmed (c :: s) (c :: s) -> ~ ws c.
Proof. intros (a & b & _ & _ & _ & H & _). eapply H; reflexivity. Qed.
Lemma snoc_case {A} (l : list A) : l = [] \/ exists l' x, l = l' ++ [x].
Proof. destruct l as [|a l] using rev_ind; eauto. Qed.
Lemma spaces_blank s : spaces s -> blank s.
Proof. unfold spaces, blank. apply Forall_impl. intros c [-> | ->]; apply is_ws_iff; reflexivity. Qed.
Lemma spaces_in s : spaces s -> ~ In 10 s /\ ~ In 58 s /\ ~ In 13 s.
Proof. intros F. unfold spaces in F. rewrite Forall_forall in F. repeat split; intros I; apply F in I; lia. Qed.
Lemma ws10 : ws 10.
Proof. apply is_ws_iff. reflexivity. Qed.
Lemma ws13 : ws 13.
Proof. apply is_ws_iff. reflexivity. Qed.
Lemma ws32 : ws 32.
Proof. apply is_ws_iff. reflexivity. Qed.
Lemma lit_no10 me : ~ In 10 (method_name me) /\ Forall (fun c => ~ ws c) (method_name me) /\ method_name me <> [].
Proof.
  assert (forall s, forallb (fun c => negb (is_ws c)) s = true -> Forall (fun c => ~ ws c) s).
  { intros s H. rewrite forallb_forall in H. apply Forall_forall. intros x I. apply H in I. rewrite <- is_ws_iff. now destruct (is_ws x). }
  destruct me; (split; [cbn; intuition discriminate|split; [apply H; reflexivity|discriminate]]).
Qed.
Lemma version_no10 ve : ~ In 10 (version_name ve) /\ Forall (fun c => ~ ws c) (version_name ve) /\ version_name ve <> [].
Proof.
  assert (forall s, forallb (fun c => negb (is_ws c)) s = true -> Forall (fun c => ~ ws c) s).
  { intros s H. rewrite forallb_forall in H. apply Forall_forall. intros x I. apply H in I. rewrite <- is_ws_iff. now destruct (is_ws x). }
  destruct ve; (split; [cbn; intuition discriminate|split; [apply H; reflexivity|discriminate]]).
Qed.
Lemma no_ws_no10 s : Forall (fun c => ~ ws c) s -> ~ In 10 s.
Proof. intros F I. rewrite Forall_forall in F. exact (F _ I ws10). Qed.

Definition header_line (indent : str) (h : header) : str := indent ++ fst h ++ lit ": " ++ snd h.
Definition all_lines (indent gap : str) (hs : list header) (body : list str) : list str :=
  map (header_line indent) hs ++ match body with [] => [] | _ => gap :: body end.
Lemma written_lines me address ve indent gap hs body : written me address ve indent gap hs body =
  (method_name me ++ lit " " ++ address ++ lit " " ++ version_name ve) ++ flat_map (fun l => 10 :: l) (all_lines indent gap hs body).
Proof.
  unfold written, all_lines. rewrite flat_map_app. rewrite <- !app_assoc. do 5 f_equal. f_equal.
  - induction hs as [|h hs IH]; auto. cbn [map flat_map]. now rewrite <- IH.
  - destruct body; reflexivity.
Qed.
Lemma header_line_end indent h : plain_header h -> exists l c, header_line indent h = l ++ [c] /\ ~ ws c.
Proof.
  intros (N1 & N2 & T1 & T2 & _). destruct (snoc_case (snd h)) as [E|(l & c & E)]; [congruence|].
  exists (indent ++ fst h ++ lit ": " ++ l), c. unfold header_line. rewrite E in *. rewrite <- !app_assoc. split; auto. eapply trimmed_end; eauto.
Qed.
Lemma header_line_lf indent h : spaces indent -> plain_header h -> ~ In 10 (header_line indent h).
Proof.
  intros S (N1 & N2 & T1 & T2 & C & L1 & L2) I. unfold header_line in I. rewrite !in_app_iff in I.
  destruct (spaces_in _ S) as (Q & _). cbn in I. intuition discriminate.
Qed.
Lemma header_lines indent hs rest hs' r : spaces indent -> Forall plain_header hs -> header_block rest hs' r ->
  header_block (map (header_line indent) hs ++ rest) (hs ++ hs') r.
Proof.
  intros S F B. induction F as [|h hs (N1 & N2 & T1 & T2 & C & L1 & L2) F IH]; auto. cbn [map app].
  destruct h as [n v]. cbn [fst snd] in *.
  replace (header_line indent (n, v)) with ((indent ++ n) ++ 58 :: lit " " ++ v) by (unfold header_line; cbn; now rewrite <- app_assoc).
  constructor; auto.
  - rewrite in_app_iff. destruct (spaces_in _ S). tauto.
  - destruct T1 as (a & b & E & A & B' & X). assert (a = [] /\ b = []) as [-> ->].
    { assert (length n = (length a + length n + length b)%nat) by (rewrite E at 1; rewrite !app_length; lia). destruct a, b; cbn in *; try lia; auto. }
    exists indent, []. rewrite app_nil_r. split; auto. split; [now apply spaces_blank|]. split; [constructor|auto].
  - destruct T2 as (a & b & E & A & B' & X). exists (lit " "), []. rewrite app_nil_r. split; auto.
    split; [constructor; [exact ws32|constructor]|]. split; [constructor|auto].
Qed.

Lemma last_all indent gap hs body d : Forall plain_header hs -> plain_body body -> all_lines indent gap hs body <> [] ->
  exists l c, last (all_lines indent gap hs body) d = l ++ [c] /\ ~ ws c.
Proof.
  intros F [_ B] N. unfold all_lines in *. destruct B as [-> |(ls & l & c & -> & W)].
  - rewrite app_nil_r in *. destruct (snoc_case hs) as [-> |(hs' & h & ->)]; [now cbn in N|].
    rewrite map_app. cbn [map]. rewrite last_last. apply header_line_end. apply Forall_app in F. destruct F as [_ F]. now inversion F.
  - exists l, c. split; auto. destruct (ls ++ [l ++ [c]]) eqn:E; [destruct ls; discriminate|]. rewrite <- E.
    change (gap :: ls ++ [l ++ [c]]) with ((gap :: ls) ++ [l ++ [c]]). rewrite app_assoc. apply last_last.
Qed.
Lemma no_cr (l : str) c : ~ ws c -> forall l', l ++ [c] <> l' ++ [13].
Proof. intros W l' E. apply app_inj_tail in E. destruct E as [_ ->]. exact (W ws13). Qed.

Lemma written_request prepare a b me address ve indent gap hs body ct :
  blank a -> blank b -> address <> [] -> Forall (fun c => ~ ws c) address -> spaces indent -> spaces gap ->
  Forall plain_header hs -> plain_body body -> content_type hs ct ->
  ct <> Some (lit "application/x-www-form-urlencoded") -> ct <> Some (lit "multipart/form-data") ->
  request_of prepare (a ++ written me address ve indent gap hs body ++ b)
    (Request me (url_from address) ve hs (List.concat body))
    (match body with [] => CEmpty | _ => CByte (utf8 (List.concat body)) end).
Proof.
  intros A B N W SI SG F P CT N1 N2. set (l0 := method_name me ++ lit " " ++ address ++ lit " " ++ version_name ve).
  destruct (lit_no10 me) as (M1 & M2 & M3). destruct (version_no10 ve) as (V1 & V2 & V3).
  assert (L0 : exists c r, l0 = c :: r /\ ~ ws c).
  { unfold l0. destruct (method_name me) as [|c r]; [congruence|]. inversion M2; subst. do 2 eexists. split; [reflexivity|auto]. }
  assert (LE : exists r c, l0 = r ++ [c] /\ ~ ws c).
  { unfold l0. destruct (snoc_case (version_name ve)) as [E|(r & c & E)]; [congruence|]. rewrite E in *.
    exists (method_name me ++ lit " " ++ address ++ lit " " ++ r), c. rewrite <- !app_assoc. split; auto. apply Forall_app in V2. destruct V2 as [_ V2]. now inversion V2. }
  assert (L10 : ~ In 10 l0).
  { unfold l0. rewrite !in_app_iff. pose proof (no_ws_no10 _ W). cbn [lit]. intros [I|[I|[I|[I|I]]]]; try contradiction; cbn in I; intuition discriminate. }
  pose proof (last_all indent gap hs body) as LA. 
  assert (TL : text_lines (written me address ve indent gap hs body) (l0 :: all_lines indent gap hs body)).
  { rewrite written_lines. fold l0. apply lines_joined; auto.
    - unfold all_lines. apply Forall_app. split.
      + apply Forall_forall. intros x I. apply in_map_iff in I. destruct I as (h & <- & I). rewrite Forall_forall in F. apply header_line_lf; auto.
      + destruct body as [|x body]; [constructor|]. constructor; [apply (spaces_in _ SG)|]. destruct P as [P _]. eapply Forall_impl; [|exact P]. intros l [X _]. exact X.
    - intros x y E _. assert (G : Forall (fun l : str => forall l' : str, l <> l' ++ [13]) (l0 :: all_lines indent gap hs body)).
      { constructor.
        - destruct LE as (r & c & -> & Wc). now apply no_cr.
        - unfold all_lines. apply Forall_app. split.
          + apply Forall_forall. intros z I. apply in_map_iff in I. destruct I as (h & <- & I). rewrite Forall_forall in F.
            destruct (header_line_end indent h (F _ I)) as (l & c & -> & Wc). now apply no_cr.
          + destruct body as [|z body]; [constructor|]. constructor.
            * intros l' Q. destruct (spaces_in _ SG) as (_ & _ & X). apply X. rewrite Q. apply in_app_iff. right. now left.
            * destruct P as [P _]. eapply Forall_impl; [|exact P]. intros l [_ X]. exact X. }
      assert (G' : Forall (fun l : str => forall l' : str, l <> l' ++ [13]) (x ++ y)) by (rewrite <- E; exact G). apply Forall_app in G'. tauto.
    - intros l H. destruct (all_lines indent gap hs body) as [|x xs] eqn:E.
      + destruct H as [H| ->]; [congruence|]. cbn. destruct LE as (r & c & -> & _). destruct r; discriminate.
      + destruct (LA l F P ltac:(discriminate)) as (r & c & -> & _). destruct r; discriminate. }
  assert (TR : trimmed (a ++ written me address ve indent gap hs body ++ b) (written me address ve indent gap hs body)).
  { exists a, b. split; auto. split; auto. split; auto. rewrite written_lines. fold l0. split.
    - intros c r E. destruct L0 as (c0 & r0 & -> & Wc). cbn in E. inversion E; subst. auto.
    - intros c r E. destruct (snoc_case (all_lines indent gap hs body)) as [Q|(ls & l & Q)].
      + rewrite Q in E. cbn in E. rewrite app_nil_r in E. destruct LE as (r0 & c0 & -> & Wc). apply app_inj_tail in E. destruct E as [_ <-]. auto.
      + destruct (LA [] F P) as (r0 & c0 & X & Wc); [rewrite Q; destruct ls; discriminate|]. rewrite Q, last_last in X. subst l.
        rewrite Q, flat_map_app in E. cbn [flat_map] in E. rewrite app_nil_r in E. rewrite !app_assoc in E.
        change (10 :: r0 ++ [c0]) with ((10 :: r0) ++ [c0]) in E. rewrite app_assoc in E. apply app_inj_tail in E. destruct E as [_ <-]. auto. }
  eapply ro_message with (t := written me address ve indent gap hs body) (line := l0) (ls := all_lines indent gap hs body)
    (wds := [method_name me; address; version_name ve]) (rest := body) (ct := ct); auto.
  - unfold l0. apply (wd_cons [] (method_name me)); auto; [constructor|right; do 2 eexists; split; [reflexivity|exact ws32]|].
    apply (wd_cons (lit " ") address); auto; [constructor; [exact ws32|constructor]|right; do 2 eexists; split; [reflexivity|exact ws32]|].
    assert (X : words (lit " " ++ version_name ve ++ []) [version_name ve]).
    { apply (wd_cons (lit " ") (version_name ve)); auto; [constructor; [exact ws32|constructor]|]. constructor. constructor. }
    rewrite app_nil_r in X. exact X.
  - now left.
  - intros w. cbn. intros [= <-]. reflexivity.
  - discriminate.
  - now left.
  - unfold all_lines. rewrite <- (app_nil_r hs) at 2. apply header_lines; auto. destruct body; [constructor|]. constructor. now apply spaces_blank.
  - destruct body as [|x body].
    + apply (bs_none prepare ct []); auto. constructor.
    + apply (bs_plain prepare ct (x :: body)); auto. intros Bl. destruct P as [_ [P|(ls & l & c & E & Wc)]]; [discriminate|].
      rewrite E in Bl. apply Wc. unfold blank in Bl. rewrite Forall_forall in Bl. apply Bl. rewrite concat_app. cbn. rewrite app_nil_r, !in_app_iff. right. right. now left.
Qed.

Theorem written_sent prepare enc a b me address ve indent gap hs body ct :
  blank a -> blank b -> address <> [] -> Forall (fun c => ~ ws c) address -> spaces indent -> spaces gap ->
  Forall plain_header hs -> plain_body body -> content_type hs ct ->
  ct <> Some (lit "application/x-www-form-urlencoded") -> ct <> Some (lit "multipart/form-data") ->
  let m := a ++ written me address ve indent gap hs body ++ b in scalars m ->
  fst (request_from prepare m) = Request me (url_from address) ve hs (List.concat body) /\
  request_bytes enc (fst (request_from prepare m)) (snd (request_from prepare m)) =
    utf8 (head_sent me (u_path (url_from address)) ve hs ++ List.concat body).
Proof.
  intros A B N W SI SG F P CT N1 N2 m Sc.
  pose proof (written_request prepare a b me address ve indent gap hs body ct A B N W SI SG F P CT N1 N2) as R. fold m in R.
  pose proof (request_sound prepare m Sc) as R'.
  destruct (request_unique prepare m _ _ _ _ R R') as [E1 E2]. cbn [rq_headers] in E2.
  assert (E3 : ~ content_type hs (Some (lit "application/x-www-form-urlencoded"))).
  { intros X. apply N1. exact (content_type_unique _ _ _ CT X). }
  specialize (E2 E3). rewrite <- E1, <- E2. split; auto. unfold request_bytes, request_head. cbn [rq_method rq_url rq_version rq_headers].
  assert (MT : method_text me = method_name me) by (destruct me; reflexivity).
  assert (VT : version_text ve = version_name ve) by (destruct ve; reflexivity). rewrite MT, VT.
  change [32] with (lit " "). change [58; 32] with (lit ": "). change crlf with [13; 10].
  change (utf8 (head_sent me (u_path (url_from address)) ve hs) ++ content_bytes enc (match body with [] => CEmpty | _ => CByte (utf8 (List.concat body)) end) =
    utf8 (head_sent me (u_path (url_from address)) ve hs ++ List.concat body)).
  rewrite utf8_app. f_equal. destruct body; reflexivity.
Qed.
