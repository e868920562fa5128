(** Proofs about requests from the script to the connection. *)
From Verif Require Import TextProofs TemplateProofs LexerProofs WrittenProofs EvaluatorProofs EvaluatorTop SpecArrives.
From Coq Require Import Lia.
Open Scope N_scope.

(** ** filling in part by part *)
Definition apart (a b : str) : Prop := forall x u v y n, a = x ++ u -> b = v ++ y -> u <> [] -> v <> [] -> ~ hole (u ++ v) n.
Lemma scan_app a pa : scan a pa -> forall b pb, scan b pb -> apart a b -> scan (a ++ b) (pa ++ pb).
Proof.
  induction 1 as [|p n s ps H S IH|c s ps N S IH]; intros b pb B A; cbn [app]; auto.
  - rewrite <- app_assoc. apply sc_hole; auto. apply IH; auto. intros x u v y m -> -> . apply (A (p ++ x) u v y m); auto. now rewrite app_assoc.
  - apply sc_lit.
    + intros p n r H E. change (c :: s ++ b) with ((c :: s) ++ b) in E. destruct (app_split _ _ _ _ E) as [(x & X & _)|(y & z & -> & Y)].
      * eapply N; eauto.
      * apply (A [] (c :: s) (y :: z) r n eq_refl Y); auto; discriminate.
    + apply IH; auto. intros x u v y m -> ->. apply (A (c :: x) u v y m); auto.
Qed.
Lemma fill_app f pa : forall pb, fill (pa ++ pb) (map f (holes (pa ++ pb))) = fill pa (map f (holes pa)) ++ fill pb (map f (holes pb)).
Proof.
  induction pa as [|[c|n] pa IH]; intros pb; cbn [app holes flat_map fill map]; auto.
  - f_equal. apply IH.
  - rewrite <- app_assoc. f_equal. apply IH.
Qed.
Lemma message_app w c a b a' b' : message_of w c a a' -> message_of w c b b' -> apart a b -> message_of w c (a ++ b) (a' ++ b').
Proof.
  intros (pa & A & ->) (pb & B & ->) X. exists (pa ++ pb). split; [now apply scan_app|]. now rewrite fill_app.
Qed.
Lemma hole_head p n : hole p n -> exists q, p = 123 :: q.
Proof. intros (_ & w1 & w2 & _ & _ & ->). eauto. Qed.
Lemma hole_last p n : hole p n -> exists q, p = q ++ [125].
Proof. intros (_ & w1 & w2 & _ & _ & ->). exists (123 :: w1 ++ n ++ w2). cbn [app]. now rewrite <- !app_assoc. Qed.
Lemma message_lit w c a : ~ In 123 a -> message_of w c a a.
Proof.
  intros N. assert (scan a (map Lit a) /\ forall l, fill (map Lit a) l = a) as [S F].
  { induction a as [|x a IH]; [split; [constructor|reflexivity]|]. destruct IH as [S F]; [intros X; apply N; now right|].
    split; cbn [map fill]; [|intros; f_equal; apply F]. constructor; auto. intros p n r H E. destruct (hole_head _ _ H) as (q & ->). inversion E; subst. apply N. now left. }
  exists (map Lit a). split; auto.
Qed.
Lemma apart_left a b : ~ In 123 a -> apart a b.
Proof.
  intros N x u v y n -> -> U _ H. destruct u as [|k u]; [congruence|]. destruct (hole_head _ _ H) as (q & E). cbn in E. inversion E; subst.
  apply N. apply in_or_app. right. now left.
Qed.
(** nothing of a placeholder reaches over [q] and what cannot be in one *)
Lemma apart_stop a q k r : ~ In 125 q -> (forall p n, hole p n -> ~ In k p) -> apart a (q ++ k :: r).
Proof.
  intros N K x u v y n -> E U V H. destruct (hole_last _ _ H) as (z & Z).
  assert (In 125 v).
  { destruct (exists_last V) as (v' & l & ->). rewrite app_assoc in Z. apply app_inj_tail in Z. destruct Z as [_ ->]. apply in_or_app. right. now left. }
  destruct (app_split _ _ _ _ E) as [(x' & -> & _)|(y' & z' & -> & Y)].
  - apply N. apply in_or_app. now left.
  - cbn in Y. inversion Y; subst. apply (K _ _ H). apply in_or_app. right. apply in_or_app. right. now left.
Qed.
Definition soft (b : str) : Prop := exists q r, ~ In 125 q /\ b = q ++ r /\ (r = [] \/ exists r', r = 10 :: r').
Lemma apart_soft a b : one_line_holes (a ++ b) -> soft b -> apart a b.
Proof.
  intros O (q & r & N & -> & R) x u v y n -> E U V H. destruct (hole_last _ _ H) as (z & Z).
  assert (In 125 v).
  { destruct (exists_last V) as (v' & l & ->). rewrite app_assoc in Z. apply app_inj_tail in Z. destruct Z as [_ ->]. apply in_or_app. right. now left. }
  destruct (app_split _ _ _ _ E) as [(x' & -> & _)|(y' & z' & -> & Y)].
  - apply N. apply in_or_app. now left.
  - destruct R as [->|(r' & ->)]; [discriminate|]. cbn in Y. inversion Y; subst.
    apply (O x (u ++ q ++ 10 :: z') n y); auto.
    + rewrite <- !app_assoc. reflexivity.
    + apply in_or_app. right. apply in_or_app. right. now left.
Qed.
Lemma one_line_right a b : one_line_holes (a ++ b) -> one_line_holes b.
Proof. intros O x p n y -> H. apply (O (a ++ x) p n y); auto. now rewrite app_assoc. Qed.
Lemma hole_chars p n : hole p n -> Forall (fun k => k = 123 \/ k = 125 \/ ws k \/ letter k \/ digit k) p.
Proof.
  intros ((c & s & -> & L & F) & w1 & w2 & B1 & B2 & ->). constructor; [auto|]. apply Forall_app. split.
  { eapply Forall_impl; [|exact B1]; cbn; tauto. }
  apply Forall_app. split. { constructor; [tauto|]. eapply Forall_impl; [|exact F]; cbn; tauto. }
  apply Forall_app. split. { eapply Forall_impl; [|exact B2]; cbn; tauto. } constructor; auto.
Qed.
Lemma no_slash p n : hole p n -> ~ In 47 p.
Proof.
  intros H I. pose proof (hole_chars _ _ H) as F. rewrite Forall_forall in F. destruct (F _ I) as [X|[X|[X|[X|X]]]]; try discriminate.
  - apply is_ws_iff in X. discriminate.
  - unfold letter in X. lia.
  - unfold digit in X. lia.
Qed.
Lemma no_colon p n : hole p n -> ~ In 58 p.
Proof.
  intros H I. pose proof (hole_chars _ _ H) as F. rewrite Forall_forall in F. destruct (F _ I) as [X|[X|[X|[X|X]]]]; try discriminate.
  - apply is_ws_iff in X. discriminate.
  - unfold letter in X. lia.
  - unfold digit in X. lia.
Qed.
Lemma blank_no a k : blank a -> is_ws k = false -> ~ In k a.
Proof. intros B K I. unfold blank in B. rewrite Forall_forall in B. apply B in I. apply is_ws_iff in I. congruence. Qed.
Lemma spaces_no a k : spaces a -> k <> 32 -> k <> 9 -> ~ In k a.
Proof. intros B K K' I. unfold spaces in B. rewrite Forall_forall in B. apply B in I. lia. Qed.

Lemma line_app w c a t t' r r' : ~ In 123 a -> message_of w c t t' -> message_of w c r r' -> soft r -> one_line_holes (10 :: a ++ t ++ r) ->
  message_of w c (10 :: a ++ t ++ r) (10 :: a ++ t' ++ r').
Proof.
  intros A T R S O. change (10 :: a ++ t ++ r) with ((10 :: a) ++ t ++ r) in *. change (10 :: a ++ t' ++ r') with ((10 :: a) ++ t' ++ r').
  assert (A' : ~ In 123 (10 :: a)) by (intros [X|X]; [discriminate|auto]).
  apply message_app; [now apply message_lit| |now apply apart_left]. apply message_app; auto. apply apart_soft; auto. now apply one_line_right in O.
Qed.
Lemma soft_line r : soft (10 :: r).
Proof. exists [], (10 :: r). split; [intros []|]. split; eauto. Qed.
Lemma body_lines w c r r' bts body : Forall2 (message_of w c) bts body -> message_of w c r r' -> soft r ->
  one_line_holes (flat_map (fun l => 10 :: l) bts ++ r) ->
  message_of w c (flat_map (fun l => 10 :: l) bts ++ r) (flat_map (fun l => 10 :: l) body ++ r') /\ soft (flat_map (fun l => 10 :: l) bts ++ r).
Proof.
  intros F R S. induction F as [|t l bts body T F IH]; intros O; cbn [flat_map app]; auto. split; [|apply soft_line].
  cbn [flat_map app] in O. rewrite <- app_assoc in *. destruct IH as [M S']. { apply (one_line_right (10 :: t)). exact O. }
  rewrite <- app_assoc. apply (line_app w c [] t l); auto.
Qed.
Lemma header_lines w c indent r r' hts hs : spaces indent -> Forall2 (header_filled w c) hts hs -> message_of w c r r' -> soft r ->
  one_line_holes (flat_map (fun h => 10 :: indent ++ fst h ++ lit ": " ++ snd h) hts ++ r) ->
  message_of w c (flat_map (fun h => 10 :: indent ++ fst h ++ lit ": " ++ snd h) hts ++ r) (flat_map (fun h => 10 :: indent ++ fst h ++ lit ": " ++ snd h) hs ++ r') /\
  soft (flat_map (fun h => 10 :: indent ++ fst h ++ lit ": " ++ snd h) hts ++ r).
Proof.
  intros I F R S. induction F as [|t h hts hs [T1 T2] F IH]; intros O; cbn [flat_map app]; auto. split; [|apply soft_line].
  cbn [flat_map app] in O. rewrite <- !app_assoc in *. destruct IH as [M S'].
  { apply (one_line_right (10 :: indent ++ fst t ++ lit ": " ++ snd t)). cbn [app]. rewrite <- !app_assoc. exact O. }
  rewrite <- ?app_assoc.
  match type of M with message_of _ _ ?X ?X' => set (x := X) in *; set (x' := X') in * end.
  change (10 :: indent ++ ?a) with ((10 :: indent) ++ a).
  assert (A' : ~ In 123 (10 :: indent)) by (intros [X|X]; [discriminate|apply (spaces_no _ 123 I) in X; auto; discriminate]).
  apply message_app; [now apply message_lit| |now apply apart_left].
  apply message_app; auto. 2: { apply (apart_stop _ [] 58 (32 :: snd t ++ x)); [intros []|exact no_colon]. }
  apply message_app; [apply message_lit; vm_compute; intuition discriminate| |apply apart_left; vm_compute; intuition discriminate].
  apply message_app; auto. apply apart_soft; auto.
  apply (one_line_right (10 :: indent ++ fst t ++ lit ": ")). cbn [app]. rewrite <- !app_assoc. exact O.
Qed.
Theorem written_filled w c a b me at_ address ve indent gap hts hs bts body :
  blank a -> blank b -> spaces indent -> spaces gap ->
  message_of w c at_ address -> Forall2 (header_filled w c) hts hs -> Forall2 (message_of w c) bts body ->
  one_line_holes (a ++ written me at_ ve indent gap hts bts ++ b) ->
  message_of w c (a ++ written me at_ ve indent gap hts bts ++ b) (a ++ written me address ve indent gap hs body ++ b).
Proof.
  intros Ba Bb I G A H B O. pose proof (blank_no _ 123 Ba eq_refl) as Na. pose proof (blank_no _ 123 Bb eq_refl) as Nb.
  apply message_app; [now apply message_lit| |now apply apart_left]. apply one_line_right in O.
  unfold written in *. rewrite <- !app_assoc in *.
  assert (Mn : ~ In 123 (method_name me)) by (destruct me; vm_compute; intuition discriminate).
  apply message_app; [now apply message_lit| |now apply apart_left]. apply one_line_right in O.
  apply message_app; [apply message_lit; vm_compute; intuition discriminate| |apply apart_left; vm_compute; intuition discriminate]. apply one_line_right in O.
  assert (V : exists v', version_name ve = lit "HTTP" ++ 47 :: v') by (destruct ve; eexists; reflexivity). destruct V as [v' V].
  apply message_app; auto.
  2: { rewrite V. rewrite <- !app_assoc. rewrite app_assoc. apply apart_stop; [vm_compute; intuition discriminate|exact no_slash]. }
  apply one_line_right in O.
  apply message_app; [apply message_lit; vm_compute; intuition discriminate| |apply apart_left; vm_compute; intuition discriminate]. apply one_line_right in O.
  assert (Vn : ~ In 123 (version_name ve)) by (destruct ve; vm_compute; intuition discriminate).
  apply message_app; [now apply message_lit| |now apply apart_left]. apply one_line_right in O.
  apply header_lines; auto.
  - inversion B as [|t l bts' body' T B' E1 E2]; subst; [now apply message_lit|].
    apply one_line_right in O. cbn [app] in *. rewrite <- app_assoc in *. rewrite <- ?app_assoc.
    change (10 :: gap ++ ?x) with ((10 :: gap) ++ x) in *.
    assert (G' : ~ In 123 (10 :: gap)) by (intros [X|X]; [discriminate|apply (spaces_no _ 123 G) in X; auto; discriminate]).
    apply message_app; [now apply message_lit| |now apply apart_left]. apply one_line_right in O.
    apply (body_lines w c b b (t :: bts') (l :: body')); auto; [now apply message_lit|].
    exists b, []. split; [now apply (blank_no _ 125 Bb)|]. rewrite app_nil_r. auto.
  - destruct bts; cbn [app]; [|apply soft_line]. exists b, []. split; [now apply (blank_no _ 125 Bb)|]. rewrite app_nil_r. auto.
Qed.

(** ** the exchange *)
Lemma runs_written w n args s vs s1 template asserts msg :
  in_order w args s vs s1 -> mget n (c_reqs (s_ctx s1)) = Some (template, asserts) -> message_of w (s_ctx s1) template msg ->
  exists o recs pr, sent pr = 0%nat /\ (length recs <= 1)%nat /\ Forall (fun r => r_request r = fst (request_from (e_prepare w) msg)) recs /\
    eval_expr w (ECall n args) s =
      (o, St (Ctx (c_vars (s_ctx s1)) (c_reqs (s_ctx s1)) (c_recs (s_ctx s1) ++ recs)) (s_trace s1 ++ Sent msg :: pr)).
Proof.
  intros H1 D1 M1. rewrite (call_request _ _ _ _ _ _ _ _ H1 D1).
  unfold request_call. cbv zeta.
  rewrite (message_unique _ _ _ _ _ (message_substitute w (s_ctx s1) template) M1).
  assert (C : forall c, c = Ctx (c_vars c) (c_reqs c) (c_recs c ++ [])) by (intros []; cbn; now rewrite app_nil_r).
  destruct (client_send _ _ msg) as [[[[rq rs] t] er]|e| |] eqn:CS;
    try (match goal with |- context [(?o0, _) = _] => exists o0 end; exists [], []; split; [reflexivity|]; split; [cbn; lia|]; split; [constructor|];
      unfold emit; rewrite <- !C; reflexivity).
  assert (RQ : rq = fst (request_from (e_prepare w) msg)).
  { unfold client_send in CS. destruct (request_from (e_prepare w) msg) as [rq' c']. cbn [fst].
    repeat match type of CS with context [match ?x with _ => _ end] => destruct x; try congruence end. }
  destruct (to_map (e_host w) rs) as [m|e| |] eqn:TM;
    try (match goal with |- context [(?o0, _) = _] => exists o0 end; exists [], []; split; [reflexivity|]; split; [cbn; lia|]; split; [constructor|];
      unfold emit; rewrite <- !C; reflexivity).
  destruct (asserts_local (e_host w) (eval_native w) (eval_native_local w) asserts (ctx_from m) eq_refl) as (oa & c' & pr & R & Rc & S & Q).
  rewrite !Q. cbn [s_trace emit s_ctx]. destruct oa as [as_|e| |].
  - exists (Ok (VMap (ctx_into_map c'))), [Record_ n t rq rs as_ er], pr. split; [exact S|]. split; [cbn; lia|]. split; [repeat constructor; exact RQ|]. rewrite <- !app_assoc. reflexivity.
  - exists (Err e), [], pr. split; [exact S|]. split; [cbn; lia|]. split; [constructor|]. rewrite <- !C, <- !app_assoc. reflexivity.
  - exists Panic, [], pr. split; [exact S|]. split; [cbn; lia|]. split; [constructor|]. rewrite <- !C, <- !app_assoc. reflexivity.
  - exists Diverge, [], pr. split; [exact S|]. split; [cbn; lia|]. split; [constructor|]. rewrite <- !C, <- !app_assoc. reflexivity.
Qed.
Theorem call_arrives w enc n args s vs s1 a b me at_ address ve indent gap hts hs bts body asserts ct :
  in_order w args s vs s1 -> mget n (c_reqs (s_ctx s1)) = Some (a ++ written me at_ ve indent gap hts bts ++ b, asserts) ->
  blank a -> blank b -> spaces indent -> spaces gap -> one_line_holes (a ++ written me at_ ve indent gap hts bts ++ b) ->
  message_of w (s_ctx s1) at_ address -> Forall2 (header_filled w (s_ctx s1)) hts hs -> Forall2 (message_of w (s_ctx s1)) bts body ->
  address <> [] -> Forall (fun c => ~ ws c) address -> Forall plain_header hs -> plain_body body -> content_type hs ct ->
  ct <> Some (lit "application/x-www-form-urlencoded") -> ct <> Some (lit "multipart/form-data") ->
  let msg := a ++ written me address ve indent gap hs body ++ b in scalars msg ->
  exists o recs pr, sent pr = 0%nat /\ (length recs <= 1)%nat /\
    eval_expr w (ECall n args) s =
      (o, St (Ctx (c_vars (s_ctx s1)) (c_reqs (s_ctx s1)) (c_recs (s_ctx s1) ++ recs)) (s_trace s1 ++ Sent msg :: pr)) /\
    Forall (fun r => r_request r = Request me (url_from address) ve hs (List.concat body)) recs /\
    request_bytes enc (fst (request_from (e_prepare w) msg)) (snd (request_from (e_prepare w) msg)) =
      utf8 (head_sent me (u_path (url_from address)) ve hs ++ List.concat body).
Proof.
  intros H D Ba Bb I G O A Hs B An Aw Hp Bp C C1 C2 msg S.
  pose proof (written_filled w (s_ctx s1) a b me at_ address ve indent gap hts hs bts body Ba Bb I G A Hs B O) as M.
  destruct (runs_written _ _ _ _ _ _ _ _ _ H D M) as (o & recs & pr & P & L & R & E).
  destruct (written_sent (e_prepare w) enc a b me address ve indent gap hs body ct Ba Bb An Aw I G Hp Bp C C1 C2 S) as [F X].
  exists o, recs, pr. split; auto. split; auto. split; auto. split; auto. unfold msg in *. rewrite <- F. exact R.
Qed.
