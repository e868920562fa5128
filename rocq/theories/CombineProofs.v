(** Several files make one source; brackets match *)
From Verif Require Import SpecCombine SpecRun TextProofs LexerProofs SyntaxProofs ParserSound ParserTop ParserProgram SourceProofs ParserExamples.
Open Scope N_scope.

Lemma finished_app is1 w1 is2 w2 : finished is1 w1 -> finished is2 w2 -> (forall t r, w2 = t :: r -> tkind t <> KLs) ->
  finished (is1 ++ is2) (w1 ++ w2).
Proof.
  induction 1 as [|i w is w' S F IH|i w is w' S D F IH N]; intros F2 N2; auto.
  - cbn. rewrite <- app_assoc. cbn. constructor 2; auto.
  - cbn. rewrite <- app_assoc. constructor 3; auto. intros t r E. destruct w' as [|t' w'']; [eapply N2; eauto|].
    cbn in E. inversion E; subst. eapply N; reflexivity.
Qed.
Lemma finished_program is w : finished is w -> program is w.
Proof. induction 1; [constructor|constructor 3; auto|constructor 4; auto]. Qed.

Lemma mextend_get {V} (l1 l2 : list (str * V)) n :
  mget n (mextend [] (l1 ++ l2)) = match mget n (mextend [] l2) with Some d => Some d | None => mget n (mextend [] l1) end.
Proof.
  destruct (mget n (mextend [] l2)) as [d|] eqn:E.
  - apply mextend_last. apply mextend_last in E. destruct E as (a & b & -> & N). exists (l1 ++ a), b. now rewrite <- app_assoc.
  - assert (K : ~ In n (map fst l2)).
    { intros I. assert (X : exists d, last_def n l2 d); [|destruct X as [d X]; apply mextend_last in X; congruence].
      clear E. induction l2 as [|[m d] l2 IH]; [destruct I|].
      destruct (in_dec (list_eq_dec N.eq_dec) n (map fst l2)) as [J|J].
      - destruct (IH J) as (d' & a & b & -> & N). exists d', ((m, d) :: a), b. auto.
      - cbn in I. destruct I as [->|I]; [|contradiction]. exists d, [], l2. auto. }
    destruct (mget n (mextend [] l1)) as [d|] eqn:E1.
    + apply mextend_last. apply mextend_last in E1. destruct E1 as (a & b & -> & N). exists a, (b ++ l2).
      rewrite <- app_assoc. split; auto. rewrite map_app, in_app_iff. tauto.
    + destruct (mget n (mextend [] (l1 ++ l2))) as [d|] eqn:E2; auto. exfalso.
      apply mextend_last in E2. destruct E2 as (a & b & E2 & N).
      destruct (app_eq_app _ _ _ _ E2) as (m & [[-> Q]|[-> Q]]).
      * destruct m as [|x m]; cbn in Q; [|injection Q as <- Q].
        -- apply K. rewrite <- Q. cbn. auto.
        -- assert (X : mget n (mextend [] (a ++ (n, d) :: m)) = Some d); [|congruence].
           apply mextend_last. exists a, m. split; auto. rewrite Q, map_app, in_app_iff in N. tauto.
      * apply K. rewrite Q, map_app, in_app_iff. cbn. auto.
Qed.

Lemma self_parses text : self_contained text -> exists src is w,
  parse text = Ok src /\ s_exprs src = item_exprs is /\
  (forall n, mget n (s_requests src) = mget n (mextend [] (item_requests is))) /\
  (forall n, mget n (s_tests src) = mget n (mextend [] (item_tests is))) /\
  finished is w /\ (forall t r, w = t :: r -> tkind t <> KLs) /\
  (forall i e, In i is -> in_item e i -> no_let_operand e /\ prec_ok e) /\
  forall rest, segment (text ++ rest) = w ++ segment rest.
Proof.
  intros (a & c & b & is & w & -> & C & Wc & B & S & F & N & P).
  assert (SS : forall rest, segment ((a ++ c :: b) ++ rest) = w ++ segment rest).
  { intros rest. rewrite <- app_assoc. cbn [app]. pose proof (closed_concat a (b ++ rest) c C Wc w S) as Q. rewrite (segment_ws c _ Wc), (blank_segment b rest B) in Q. exact Q. }
  destruct (parses (a ++ c :: b) is w) as (src & E1 & E2 & E3 & E4); auto using finished_program.
  { specialize (SS []). rewrite app_nil_r in SS. exact SS. }
  exists src, is, w. repeat split; auto.
  - intros n. destruct (mget n (s_requests src)) as [d|] eqn:G.
    + apply E3, mextend_last in G. congruence.
    + destruct (mget n (mextend [] (item_requests is))) as [d|] eqn:G2; auto. apply mextend_last, E3 in G2. congruence.
  - intros n. destruct (mget n (s_tests src)) as [d|] eqn:G.
    + apply E4, mextend_last in G. congruence.
    + destruct (mget n (mextend [] (item_tests is))) as [d|] eqn:G2; auto. apply mextend_last, E4 in G2. congruence.
  - eapply P; eauto.
  - eapply P; eauto.
Qed.

Lemma last_of_cons {A} (get : source -> option A) s l (d : A) : last_of get (s :: l) d <-> last_of get l d \/ (Forall (fun s' => get s' = None) l /\ get s = Some d).
Proof.
  split.
  - intros (a & s' & b & E & G & F). destruct a as [|x a]; cbn in E; inversion E; subst; [auto|]. left. now exists a, s', b.
  - intros [(a & s' & b & -> & G & F)|[F G]]; [exists (s :: a), s', b; auto|exists [], s, l; auto].
Qed.
Lemma last_of_none {A} (get : source -> option A) l : (forall d, ~ last_of get l d) <-> Forall (fun s' => get s' = None) l.
Proof.
  induction l as [|s l IH]; split; intros H; auto.
  - intros d (a & x & b & E & _). destruct a; discriminate.
  - assert (F : Forall (fun s' => get s' = None) l).
    { apply IH. intros d L. apply (H d), last_of_cons. auto. }
    constructor; auto. destruct (get s) as [d|] eqn:G; auto. exfalso. apply (H d), last_of_cons. auto.
  - inversion H; subst. intros d L. apply last_of_cons in L. destruct L as [L|[_ L]]; [|congruence]. revert d L. now apply IH.
Qed.
Lemma files_parse files : Forall self_contained files -> exists srcs is w,
  Forall2 (fun f s => parse f = Ok s) files srcs /\
  item_exprs is = flat_map s_exprs srcs /\
  (forall n d, mget n (mextend [] (item_requests is)) = Some d <-> last_of (fun s => mget n (s_requests s)) srcs d) /\
  (forall n d, mget n (mextend [] (item_tests is)) = Some d <-> last_of (fun s => mget n (s_tests s)) srcs d) /\
  finished is w /\ (forall t r, w = t :: r -> tkind t <> KLs) /\
  (forall i e, In i is -> in_item e i -> no_let_operand e /\ prec_ok e) /\
  segment (List.concat files) = w ++ [Tok KEof []].
Proof.
  induction 1 as [|f files Hf _ IH].
  - exists [], [], []. repeat split; try constructor; try discriminate; try easy.
    + intros (a & s & b & E & _). destruct a; discriminate.
    + intros (a & s & b & E & _). destruct a; discriminate.
  - destruct (self_parses f Hf) as (src & is1 & w1 & A1 & A2 & A3 & A4 & A5 & A6 & A7 & A8).
    destruct IH as (srcs & is2 & w2 & B1 & B2 & B3 & B4 & B5 & B6 & B7 & B8).
    exists (src :: srcs), (is1 ++ is2), (w1 ++ w2). split; [auto|]. split; [unfold item_exprs in *; rewrite flat_map_app; cbn; congruence|].
    assert (M : forall A (g : source -> option A) (g1 g2 : option A) srcs src, (forall d, g2 = Some d <-> last_of g srcs d) -> g src = g1 ->
        forall d, match g2 with Some x => Some x | None => g1 end = Some d <-> last_of g (src :: srcs) d).
    { clear. intros A g g1 g2 srcs src H E d. rewrite last_of_cons. destruct g2 as [x|].
      - assert (L : last_of g srcs x) by now apply H. split.
        + intros [= ->]. auto.
        + intros [K|[F _]]; [now apply H|]. exfalso. apply (proj2 (last_of_none g srcs) F x L).
      - assert (F : Forall (fun s' => g s' = None) srcs). { apply (proj1 (last_of_none g srcs)). intros x K. apply H in K. discriminate. }
        rewrite E. split; auto. intros [K|[_ K]]; auto. apply H in K. discriminate. }
    split; [|split; [|split; [now apply finished_app|split; [|split]]]].
    + intros n. unfold item_requests. rewrite flat_map_app, mextend_get. apply (M _ (fun s => mget n (s_requests s))); auto.
    + intros n. unfold item_tests. rewrite flat_map_app, mextend_get. apply (M _ (fun s => mget n (s_tests s))); auto.
    + intros t r E. destruct w1 as [|t' w1]; [eapply B6; eauto|]. cbn in E. inversion E; subst. eapply A6; reflexivity.
    + intros i e I J. apply in_app_iff in I. destruct I; eauto.
    + transitivity (w1 ++ segment (List.concat files)); [apply A8|]. rewrite B8, app_assoc. reflexivity.
Qed.

Theorem files_merge files : Forall self_contained files -> exists srcs src,
  Forall2 (fun f s => parse f = Ok s) files srcs /\ parse (List.concat files) = Ok src /\ merged srcs src.
Proof.
  intros F. destruct (files_parse files F) as (srcs & is & w & A1 & A2 & A3 & A4 & A5 & A6 & A7 & A8).
  destruct (parses (List.concat files) is w A8 (finished_program _ _ A5) A7) as (src & P1 & P2 & P3 & P4).
  exists srcs, src. split; auto. split; auto. split; [congruence|]. split; intros n d.
  - rewrite P3, <- mextend_last. apply A3.
  - rewrite P4, <- mextend_last. apply A4.
Qed.
Theorem directory_merge name n l ts : distinct_names n -> listable n -> sources [name] n l -> Forall2 (fun x t => scalars t /\ snd x = Some (utf8 t)) l ts ->
  Forall self_contained ts -> exists text srcs src,
  read_node name n = Some text /\ Forall2 (fun f s => parse f = Ok s) ts srcs /\ parse text = Ok src /\ merged srcs src.
Proof.
  intros D Li S F C. destruct (source_text name n D) as (l' & S' & U & R). apply U in S. subst l'.
  destruct (files_merge ts C) as (srcs & src & A & B & M). exists (List.concat ts), srcs, src. split; auto. apply R. eauto.
Qed.

(** files that are not self-contained may change meaning *)
Theorem files_interfere : exists a b sa sb s, parse (a ++ [10]) = Ok sa /\ parse (b ++ [10]) = Ok sb /\
  parse (a ++ [10] ++ b ++ [10]) = Ok s /\ ~ merged [sa; sb] s.
Proof.
  exists (lit "a"), (lit "-1"). do 3 eexists. split; [vm_compute; reflexivity|]. split; [vm_compute; reflexivity|]. split; [vm_compute; reflexivity|].
  intros (E & _). discriminate.
Qed.

(** ** brackets *)
Lemma balanced_app a b : balanced a -> balanced b -> balanced (a ++ b).
Proof.
  induction 1 as [|t w N B IH|o c x y M Bx IHx By IHy]; intros Bb; auto.
  - cbn. constructor; auto.
  - cbn. rewrite <- app_assoc. cbn. apply ba_pair; auto.
Qed.
Definition fine (w : list token) : Prop := balanced w /\ Forall (fun t => tkind t <> KIllegal) w.
Lemma fine_nil : fine [].
Proof. split; constructor. Qed.
Lemma fine_app a b : fine a -> fine b -> fine (a ++ b).
Proof. intros [A1 A2] [B1 B2]. split; [now apply balanced_app|]. apply Forall_app. auto. Qed.
Lemma fine_cons t w : ~ bracket (tkind t) -> tkind t <> KIllegal -> fine w -> fine (t :: w).
Proof. intros N I [A B]. split; constructor; auto. Qed.
Lemma fine_pair o c a b : In (tkind o, tkind c) matching -> fine a -> fine b -> fine (o :: a ++ c :: b).
Proof.
  intros M [A1 A2] [B1 B2]. split; [now apply ba_pair|].
  assert (tkind o <> KIllegal /\ tkind c <> KIllegal) as [? ?].
  { cbn in M. destruct M as [M|[M|[M|[]]]]; inversion M; split; discriminate. }
  constructor; auto. apply Forall_app. auto.
Qed.
Lemma fine_op k s : ~ bracket k -> k <> KIllegal -> forall w, fine w -> fine (op k s :: w).
Proof. intros. now apply fine_cons. Qed.
Ltac plain := let o := fresh in let c := fresh in let M := fresh in let E := fresh in
  intros (o & c & M & E); cbn in M; destruct M as [M|[M|[M|[]]]]; inversion M; subst; destruct E; discriminate.
Lemma binary_plain t : binary (tkind t) -> ~ bracket (tkind t) /\ tkind t <> KIllegal.
Proof.
  intros (n & l & E & I). split.
  - intros (o & c & M & K). cbn in M. destruct M as [M|[M|[M|[]]]]; inversion M; subst; destruct K as [K|K]; rewrite K in I;
      do 10 (destruct n as [|n]; [cbn in E; inversion E; subst; cbn in I; intuition discriminate|]); cbn in E; destruct n; discriminate.
  - intros K. rewrite K in I. do 10 (destruct n as [|n]; [cbn in E; inversion E; subst; cbn in I; intuition discriminate|]); cbn in E; destruct n; discriminate.
Qed.
Lemma unary_plain t : unary (tkind t) -> ~ bracket (tkind t) /\ tkind t <> KIllegal.
Proof. intros [E|E]; rewrite E; split; try discriminate; plain. Qed.
Lemma syntax_fine b : (forall e w, syntax b e w -> fine w) /\ (forall es w, syntax_list b es w -> fine w) /\
  (forall ps w, syntax_pairs b ps w -> fine w) /\ (forall es w, syntax_block b es w -> fine w).
Proof.
  assert (OP : forall k s w, (forall o c, In (o, c) matching -> k <> o /\ k <> c) -> k <> KIllegal -> fine w -> fine (op k s :: w)).
  { intros k s w H I F. apply fine_op; auto. intros (o & c & M & [E|E]); apply H in M; tauto. }
  assert (TK : forall k s w, (forall o c, In (o, c) matching -> k <> o /\ k <> c) -> k <> KIllegal -> fine w -> fine (Tok k s :: w)).
  { intros k s w H I F. apply fine_cons; auto. intros (o & c & M & [E|E]); apply H in M; cbn in E; tauto. }
  assert (K : forall k, ~ In k [KLp; KRp; KLb; KRb; KLs; KRs] -> forall o c, In (o, c) matching -> k <> o /\ k <> c).
  { intros k N o c M. cbn in M, N. destruct M as [M|[M|[M|[]]]]; inversion M; subst; split; intros ->; tauto. }
  Ltac kk K := apply K; cbn; intuition discriminate.
  apply (syntax_all b (fun _ w _ => fine w) (fun _ w _ => fine w) (fun _ w _ => fine w) (fun _ w _ => fine w)); intros;
    repeat match goal with
    | |- fine [] => apply fine_nil
    | |- fine (op KLs _ :: ?a ++ op KRs _ :: ?r) => apply fine_pair; [cbn; tauto| |]
    | |- fine (op KLb _ :: ?a ++ op KRb _ :: ?r) => apply fine_pair; [cbn; tauto| |]
    | |- fine (op KLp _ :: ?a ++ op KRp _ :: ?r) => apply fine_pair; [cbn; tauto| |]
    | |- fine (op _ _ :: _) => apply OP; [kk K|discriminate|]
    | |- fine (Tok _ _ :: _) => apply TK; [kk K|discriminate|]
    | H : unary (tkind ?t) |- fine (?t :: _) => apply fine_cons; [now apply unary_plain|now apply unary_plain|]
    | H : binary (tkind ?t) |- fine (?t :: _) => apply fine_cons; [now apply binary_plain|now apply binary_plain|]
    | |- fine (_ ++ _) => apply fine_app
    | |- fine _ => assumption
    end.
Qed.
Lemma item_fine b i w : syntax_item b i w -> fine w.
Proof.
  destruct (syntax_fine b) as (A & B & _ & D).
  assert (TK : forall k s w, ~ bracket k -> k <> KIllegal -> fine w -> fine (Tok k s :: w)) by (intros; now apply fine_cons).
  intros [e w' S|n m|n m es w' S|n bl w' S]; [eauto| | |].
  - repeat (apply TK || apply fine_op); try plain; try discriminate; apply fine_nil.
  - do 3 (apply TK || apply fine_op; [plain|discriminate|]). apply fine_pair; [cbn; tauto|eauto|apply fine_nil].
  - do 2 (apply TK || apply fine_op; [plain|discriminate|]). apply fine_pair; [cbn; tauto|eauto|apply fine_nil].
Qed.
Lemma items_fine is w : syntax_items is w -> fine w.
Proof.
  induction 1; [apply fine_nil|apply fine_app; eauto using item_fine|apply fine_app; [eauto using item_fine|]].
  apply fine_op; auto; [plain|discriminate].
Qed.
Theorem accepted_balanced text src : parse text = Ok src -> exists w, segment text = w ++ [Tok KEof []] /\ balanced w /\
  Forall (fun t => tkind t <> KIllegal) w.
Proof.
  intros P. destruct (collected_all text src P) as (is & w & S & I & _). apply items_fine in I. destruct I. eauto.
Qed.
Theorem balanced_count w : balanced w -> forall o c, In (o, c) matching -> many o w = many c w /\
  (forall a b, w = a ++ b -> (many c a <= many o a)%nat).
Proof.
  assert (M1 : forall k a b, many k (a ++ b) = (many k a + many k b)%nat).
  { intros. unfold many. now rewrite filter_app, app_length. }
  assert (M2 : forall k t a, many k (t :: a) = ((if kind_eqb (tkind t) k then 1 else 0) + many k a)%nat).
  { intros. unfold many. cbn [filter]. destruct (kind_eqb _ _); reflexivity. }
  assert (KE : forall a b, kind_eqb a b = true <-> a = b).
  { intros x y. unfold kind_eqb. destruct (kind_eq_dec x y); split; auto; discriminate. }
  induction 1 as [|t w N B IH|o' c' x y M Bx IHx By IHy]; intros o c J.
  - split; auto. intros a b E. destruct a; [auto|discriminate].
  - assert (kind_eqb (tkind t) o = false /\ kind_eqb (tkind t) c = false) as [Q1 Q2].
    { split; apply Bool.not_true_iff_false; rewrite KE; intros <-; apply N; do 2 eexists; split; eauto. }
    destruct (IH o c J) as [I1 I2]. rewrite !M2, Q1, Q2. split; auto. intros a b E. destruct a as [|t' a]; auto.
    cbn in E. inversion E; subst. rewrite !M2, Q1, Q2. cbn. eauto.
  - assert (X : kind_eqb (tkind o') o = kind_eqb (tkind c') c /\ kind_eqb (tkind o') c = false /\ kind_eqb (tkind c') o = false).
    { cbn in M, J. destruct M as [M|[M|[M|[]]]]; inversion M; destruct J as [J|[J|[J|[]]]]; inversion J; subst; repeat split; reflexivity. }
    destruct X as (X1 & X2 & X3). destruct (IHx o c J) as [I1 I2]. destruct (IHy o c J) as [J1 J2].
    rewrite !M2, !M1, !M2, X1, X2, X3. split; [lia|]. intros a b E. destruct a as [|t' a]; auto.
    cbn in E. injection E as <- E. rewrite !M2, X1, X2.
    destruct (app_eq_app _ _ _ _ E) as (m & [[Em ->]|[-> Em]]).
    + subst x. specialize (I2 a m eq_refl). lia.
    + rewrite !M1. destruct m as [|z m]; cbn in Em.
      * specialize (I2 x [] (eq_sym (app_nil_r x))). cbn. lia.
      * injection Em as <- Em. rewrite !M2, X3. specialize (J2 m b Em). lia.
Qed.
