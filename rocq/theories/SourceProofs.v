(** Collecting the source files *)
From Verif Require Import SpecRun TextProofs TextMore ValueProofs Utf8Proofs ResponseProofs.
From Coq Require Import Permutation ZifyBool ZifyN ZifyNat.
Open Scope N_scope.

Lemma node_ind' (P : node -> Prop) : (forall c, P (NFile c)) -> (forall es, Forall (fun e => P (snd e)) es -> P (NDir es)) -> P NSealed -> P NOther -> forall n, P n.
Proof.
  intros A B S C. fix IH 1. intros [c|es| |]; [apply A| |apply S|apply C]. apply B. induction es as [|e es IHes]; constructor; [apply IH|exact IHes].
Qed.
Lemma distinct_dir es : distinct_names (NDir es) <-> NoDup (map fst es) /\ Forall (fun e => distinct_names (snd e)) es.
Proof.
  cbn [distinct_names]. split; intros [N A]; split; auto; clear N.
  - induction es as [|e es IH]; constructor; [apply A|apply IH, A].
  - induction A; auto.
Qed.

Lemma listable_dir es : listable (NDir es) <-> Forall (fun e => listable (snd e)) es.
Proof.
  cbn [listable]. split; intros A.
  - induction es as [|e es IH]; constructor; [apply A|apply IH, A].
  - induction A; auto.
Qed.
(** ** order *)
Lemma lex_irrefl a : ~ lex_lt a a.
Proof. induction a; intros H; inversion H; subst; [lia|auto]. Qed.
Lemma lex_trans a b c : lex_lt a b -> lex_lt b c -> lex_lt a c.
Proof.
  intros H. revert c. induction H; intros c K; inversion K; subst.
  - apply lex_nil.
  - apply lex_nil.
  - apply lex_head. lia.
  - now apply lex_head.
  - now apply lex_head.
  - apply lex_tail. auto.
Qed.
Lemma path_irrefl a : ~ path_lt a a.
Proof. induction a; intros H; inversion H; subst; [eapply lex_irrefl; eauto|auto]. Qed.
Lemma path_trans a b c : path_lt a b -> path_lt b c -> path_lt a c.
Proof.
  intros H. revert c. induction H; intros c K; inversion K; subst.
  - apply pl_nil.
  - apply pl_nil.
  - apply pl_head. eapply lex_trans; eauto.
  - now apply pl_head.
  - now apply pl_head.
  - apply pl_tail. auto.
Qed.
Lemma path_app p a b : path_lt a b -> path_lt (p ++ a) (p ++ b).
Proof. induction p; cbn; auto. intros. apply pl_tail. auto. Qed.
Lemma sorted_unique {A} (R : A -> A -> Prop) : (forall x, ~ R x x) -> (forall x y z, R x y -> R y z -> R x z) ->
  forall l l', StronglySorted R l -> StronglySorted R l' -> (forall x, In x l <-> In x l') -> l = l'.
Proof.
  intros I T. induction l as [|x l IH]; intros [|y l'] S S' E; auto.
  - exfalso. apply (E y). now left.
  - exfalso. apply (E x). now left.
  - apply StronglySorted_inv in S, S'. destruct S as [S F], S' as [S' F']. rewrite Forall_forall in F, F'.
    assert (x = y).
    { destruct (proj1 (E x) (or_introl eq_refl)) as [|X]; auto. destruct (proj2 (E y) (or_introl eq_refl)) as [|Y]; auto.
      exfalso. apply (I x). apply (T _ y); auto. }
    subst y. f_equal. apply IH; auto. intros z. split; intros Z.
    + destruct (proj1 (E z) (or_intror Z)) as [<-|]; auto. exfalso. now apply (I x), F.
    + destruct (proj2 (E z) (or_intror Z)) as [<-|]; auto. exfalso. now apply (I x), F'.
Qed.

(** ** sorting the entries *)
Definition ent_lt {A} (a b : str * A) : Prop := lex_lt (fst a) (fst b).
Lemma insert_perm {A} (e : str * A) l : Permutation (insert_entry e l) (e :: l).
Proof. induction l as [|x l IH]; cbn; auto. destruct (str_cmp (fst x) (fst e)); auto; rewrite IH; apply perm_swap. Qed.
Lemma sort_perm {A} (l : list (str * A)) : Permutation (sort_entries l) l.
Proof.
  unfold sort_entries. assert (G : forall l acc : list (str * A), Permutation (fold_left (fun acc e => insert_entry e acc) l acc) (l ++ acc)).
  { clear. induction l as [|x l IH]; intros acc; cbn; auto. rewrite IH, insert_perm. apply Permutation_sym, Permutation_middle. }
  rewrite G, app_nil_r. reflexivity.
Qed.
Lemma insert_sorted {A} (e : str * A) (l : list (str * A)) : StronglySorted ent_lt l -> ~ In (fst e) (map fst l) ->
  StronglySorted ent_lt (insert_entry e l).
Proof.
  induction l as [|x l IH]; intros S N; cbn [insert_entry]; [constructor; constructor|]. apply StronglySorted_inv in S. destruct S as [S F].
  cbn [map In] in N. destruct (str_cmp (fst x) (fst e)) eqn:C.
  - apply str_cmp_eq in C. tauto.
  - constructor; [apply IH; tauto|]. apply str_cmp_lt in C. rewrite (insert_perm e l). constructor; auto.
  - rewrite (str_cmp_opp (fst e) (fst x)) in C. destruct (str_cmp (fst e) (fst x)) eqn:D; try discriminate. apply str_cmp_lt in D.
    constructor; [now constructor|]. constructor; auto. eapply Forall_impl; [|exact F]. intros y. now apply lex_trans.
Qed.
Lemma sort_sorted {A} (l : list (str * A)) : NoDup (map fst l) -> StronglySorted ent_lt (sort_entries l).
Proof.
  unfold sort_entries. assert (G : forall l acc : list (str * A), StronglySorted ent_lt acc -> NoDup (map fst l) ->
    (forall k, In k (map fst l) -> ~ In k (map fst acc)) -> StronglySorted ent_lt (fold_left (fun acc e => insert_entry e acc) l acc)).
  { clear. induction l as [|x l IH]; intros acc S N D; cbn [fold_left]; auto. cbn [map] in *. inversion N; subst. apply IH; auto.
    - apply insert_sorted; auto. apply D. now left.
    - intros k K X. assert (Y : In k (map fst (x :: acc))) by (eapply Permutation_in; [apply Permutation_map, insert_perm|exact X]).
      destruct Y as [<-|Y]; [contradiction|]. apply (D k); auto. now right. }
  intros N. apply G; auto. constructor.
Qed.
Lemma insert_map {A B} (f : str * A -> B) e l :
  insert_entry (fst e, f e) (map (fun e => (fst e, f e)) l) = map (fun e => (fst e, f e)) (insert_entry e l).
Proof. induction l as [|x l IH]; cbn [insert_entry map fst]; auto. destruct (str_cmp (fst x) (fst e)); cbn [map]; auto; now rewrite IH. Qed.
Lemma sort_map {A B} (f : str * A -> B) l : sort_entries (map (fun e => (fst e, f e)) l) = map (fun e => (fst e, f e)) (sort_entries l).
Proof.
  unfold sort_entries. change (@nil (str * B)) with (map (fun e : str * A => (fst e, f e)) []). generalize (@nil (str * A)).
  induction l as [|x l IH]; intros acc; cbn [map fold_left]; auto. rewrite insert_map. apply IH.
Qed.

(** ** file names *)
Lemma extension_fan n : extension n = Some (lit "fan") <-> exists stem, n = stem ++ lit ".fan" /\ stem <> [].
Proof.
  unfold extension. split.
  - destruct (span (fun c => negb (c =? 46)) (rev n)) as [tail before] eqn:S. destruct (span_spec _ _ _ _ S) as (E & A & B).
    destruct before as [|d [|x before]]; try discriminate. intros [= T].
    assert (D : d = 46). { specialize (B d (x :: before) eq_refl). lia. } subst d.
    exists (rev (x :: before)). split; [|intros X; apply (f_equal (@length _)) in X; rewrite rev_length in X; discriminate].
    apply (f_equal (@rev _)) in E. rewrite rev_involutive, rev_app_distr in E. rewrite T in E. rewrite E. cbn [rev]. rewrite <- !app_assoc. reflexivity.
  - intros (stem & -> & NE). rewrite rev_app_distr. change (rev (lit ".fan")) with (lit "naf" ++ [46]). rewrite <- app_assoc.
    rewrite span_app; [| |intros c b' [= <- _]; reflexivity].
    + cbn [app]. destruct (rev stem) as [|x r] eqn:R; [|reflexivity]. exfalso. apply NE. apply (f_equal (@rev _)) in R. now rewrite rev_involutive in R.
    + repeat (apply Forall_cons; [reflexivity|]). apply Forall_nil.
Qed.
Lemma fan_path_last p n : fan_path (p ++ [n]) <-> extension n = Some (lit "fan").
Proof.
  rewrite extension_fan. split.
  - intros (q & stem & E & NE). apply app_inj_tail in E. destruct E as [_ ->]. now exists stem.
  - intros (stem & -> & NE). now exists p, stem.
Qed.
Lemma files_prefix n : forall path x, In x (files_at path n) -> exists q, fst x = path ++ q.
Proof.
  induction n as [c|es IH| |] using node_ind'; intros path x; cbn [files_at]; [|intros H; apply in_flat_map in H; destruct H as (e & E & I)|intros []|intros []].
  - intros [<-|[]]. exists []. now rewrite app_nil_r.
  - rewrite Forall_forall in IH. destruct (IH e E _ _ I) as (q & ->). exists ([fst e] ++ q). now rewrite app_assoc.
Qed.

(** ** the text *)
Definition oapp (a b : option str) : option str := match a, b with Some a, Some b => Some (a ++ b) | _, _ => None end.
Fixpoint oconcat (l : list (option str)) : option str := match l with [] => Some [] | x :: l' => oapp x (oconcat l') end.
Lemma oapp_assoc a b c : oapp (oapp a b) c = oapp a (oapp b c).
Proof. destruct a, b, c; cbn; auto. now rewrite app_assoc. Qed.
Lemma concat_opt_oconcat l : concat_opt l = oconcat l.
Proof.
  unfold concat_opt. assert (G : forall l acc, fold_left (fun acc x => match acc, x with Some a, Some b => Some (a ++ b) | _, _ => None end) l acc = oapp acc (oconcat l)).
  { clear. induction l as [|x l IH]; intros acc; cbn [fold_left oconcat]; [destruct acc; cbn; auto; now rewrite app_nil_r|]. rewrite IH, <- oapp_assoc. reflexivity. }
  rewrite G. cbn. destruct (oconcat l); reflexivity.
Qed.
Lemma oconcat_app a b : oconcat (a ++ b) = oapp (oconcat a) (oconcat b).
Proof. induction a as [|x a IH]; cbn [app oconcat]; [now destruct (oconcat b)|]. now rewrite IH, oapp_assoc. Qed.
Definition read_file (c : option bytes) : option str := match c with Some c => utf8_decode c | None => None end.
Definition decoded (l : list (list str * option bytes)) : option str := oconcat (map (fun x => read_file (snd x)) l).
Lemma sources_dir path es (ls : list (list (list str * option bytes))) : NoDup (map fst es) ->
  Forall2 (fun e l => sources (path ++ [fst e]) (snd e) l) (sort_entries es) ls -> sources path (NDir es) (List.concat ls).
Proof.
  intros N F. pose proof (sort_perm es) as P. pose proof (sort_sorted es N) as S. revert P S. generalize (sort_entries es) as es', F. clear F.
  intros es' F P S. split.
  - intros x. cbn [files_at]. assert (Q : In x (flat_map (fun e => files_at (path ++ [fst e]) (snd e)) es) <-> In x (flat_map (fun e => files_at (path ++ [fst e]) (snd e)) es')).
    { split; apply Permutation_in, Permutation_flat_map; auto using Permutation_sym. }
    rewrite Q. clear -F. induction F as [|e l es' ls [H _] F IH]; cbn [List.concat flat_map]; [cbn; tauto|]. rewrite !in_app_iff, IH, (H x). tauto.
  - clear N P. induction F as [|e l es' ls [H SS] F IH]; cbn [List.concat]; [constructor|]. apply StronglySorted_inv in S. destruct S as [S SF].
    specialize (IH S). assert (X : forall a b, In a l -> In b (List.concat ls) -> path_lt (fst a) (fst b)).
    { intros a b A B. apply H in A. destruct A as [A _]. destruct (files_prefix _ _ _ A) as (q & ->).
      apply in_concat in B. destruct B as (m & M & B). clear -F SF M B. induction F as [|e' l' es' ls [H' _] F IH]; [contradiction|].
      inversion SF; subst. destruct M as [<-|M]; [|now apply IH]. apply H' in B. destruct B as [B _]. destruct (files_prefix _ _ _ B) as (q' & ->).
      rewrite <- !app_assoc. apply path_app. now apply pl_head. }
    clear -SS IH X. induction SS as [|a l SS IHl F]; cbn [app]; auto. constructor.
    + apply IHl. intros; apply X; auto. now right.
    + apply Forall_app. split; auto. apply Forall_forall. intros b B. apply X; auto. now left.
Qed.
Lemma read_sources n : forall path name, distinct_names n -> exists l, sources (path ++ [name]) n l /\
  (listable n -> read_node name n = decoded l) /\ (~ listable n -> read_node name n = None) /\ (listable n \/ ~ listable n).
Proof.
  induction n as [c|es IH| |] using node_ind'; intros path name D.
  - assert (X : exists l, sources (path ++ [name]) (NFile c) l /\ read_node name (NFile c) = decoded l).
    { cbn [read_node]. destruct (extension name) as [e|] eqn:E; [destruct (str_eqb e (lit "fan")) eqn:Q|].
      + apply str_eqb_eq in Q. subst e. exists [(path ++ [name], c)]. split.
        * split; [|repeat constructor]. intros x. cbn [files_at In]. split; [|tauto]. intros [<-|[]]. split; [now left|]. now apply fan_path_last.
        * unfold decoded. cbn [map oconcat snd]. unfold read_file. destruct c as [c|]; [|reflexivity]. destruct (utf8_decode c); cbn; auto. now rewrite app_nil_r.
      + exists []. split; [|reflexivity]. split; [|constructor]. intros x. cbn [files_at In]. split; [tauto|]. intros [[<-|[]] F]. cbn [fst] in F.
        apply fan_path_last in F. rewrite E in F. injection F as ->. now rewrite str_eqb_refl in Q.
      + exists []. split; [|reflexivity]. split; [|constructor]. intros x. cbn [files_at In]. split; [tauto|]. intros [[<-|[]] F]. cbn [fst] in F.
        apply fan_path_last in F. congruence. }
    destruct X as (l & S & E). exists l. cbn [listable]. tauto.
  - apply distinct_dir in D. destruct D as [N D].
    assert (X : exists ls, Forall2 (fun e l => sources ((path ++ [name]) ++ [fst e]) (snd e) l /\ (listable (snd e) -> read_node (fst e) (snd e) = decoded l) /\
      (~ listable (snd e) -> read_node (fst e) (snd e) = None) /\ (listable (snd e) \/ ~ listable (snd e))) (sort_entries es) ls).
    { assert (G : Forall (fun e => exists l, sources ((path ++ [name]) ++ [fst e]) (snd e) l /\ (listable (snd e) -> read_node (fst e) (snd e) = decoded l) /\
        (~ listable (snd e) -> read_node (fst e) (snd e) = None) /\ (listable (snd e) \/ ~ listable (snd e))) (sort_entries es)).
      { rewrite (sort_perm es). rewrite Forall_forall in *. intros e E. apply IH; auto. }
      clear -G. induction G as [|e es0 (l & H) G (ls & IH)]; [exists []; constructor|]. exists (l :: ls). now constructor. }
    destruct X as (ls & F). exists (List.concat ls).
    assert (R : read_node name (NDir es) = oconcat (map (fun e => read_node (fst e) (snd e)) (sort_entries es))).
    { cbn [read_node]. now rewrite (sort_map (fun e => read_node (fst e) (snd e))), map_map, concat_opt_oconcat. }
    assert (L : listable (NDir es) <-> Forall (fun e => listable (snd e)) (sort_entries es)).
    { rewrite listable_dir. split; apply Permutation_Forall; [symmetry|]; apply sort_perm. }
    split; [|rewrite R, L; split; [|split]].
    + apply sources_dir; auto. clear -F. induction F as [|e l es' ls [H _] F IH]; constructor; auto.
    + intros A. clear -F A. induction F as [|e l es' ls [_ [H _]] F IH]; cbn [map oconcat List.concat]; [reflexivity|]. inversion A; subst.
      unfold decoded in *. rewrite map_app, oconcat_app, IH by auto. rewrite H; auto.
    + intros A. clear -F A. induction F as [|e l es' ls (_ & _ & H & [G|G]) F IH]; cbn [map oconcat]; [destruct A; constructor| |].
      * rewrite IH; [now destruct (read_node _ _)|]. intros K. apply A. now constructor.
      * now rewrite H.
    + clear -F. induction F as [|e l es' ls (_ & _ & _ & [G|G]) F IH]; [left; constructor| |].
      * destruct IH as [IH|IH]; [left; now constructor|right]. intros K. inversion K; subst. auto.
      * right. intros K. inversion K; subst. auto.
  - exists []. split; [split; [|constructor]; intros x; cbn; tauto|]. cbn [listable read_node]. tauto.
  - exists []. split; [split; [|constructor]; intros x; cbn; tauto|]. cbn [listable]. repeat split; tauto.
Qed.
Lemma sources_unique path n l l' : sources path n l -> sources path n l' -> l = l'.
Proof.
  intros [A S] [A' S']. apply (sorted_unique _ (fun x => path_irrefl (fst x)) (fun x y z => path_trans (fst x) (fst y) (fst z)) l l' S S').
  intros x. rewrite A, A'. reflexivity.
Qed.
Lemma decoded_iff l text : decoded l = Some text <-> exists ts, Forall2 (fun x t => scalars t /\ snd x = Some (utf8 t)) l ts /\ text = List.concat ts.
Proof.
  unfold decoded. revert text. induction l as [|x l IH]; intros text; cbn [map oconcat].
  - split; [intros [= <-]; exists []; split; [constructor|reflexivity]|]. intros (ts & F & ->). inversion F; subst. reflexivity.
  - split.
    + destruct (snd x) as [c|] eqn:C; [|discriminate]. cbn [read_file]. destruct (utf8_decode c) as [t|] eqn:D; [|discriminate]. destruct (oconcat _) as [r|]; [|discriminate]. cbn. intros [= <-].
      destruct (proj1 (IH r) eq_refl) as (ts & F & ->). exists (t :: ts). split; auto. constructor; auto. apply decode_iff in D. destruct D as [D ->]. auto.
    + intros (ts & F & ->). inversion F as [|? t ? ts' [S E] F']; subst. rewrite E. cbn [read_file]. rewrite (decode_encode t S). rewrite (proj2 (IH (List.concat ts'))); [reflexivity|eauto].
Qed.
Theorem source_text name n : distinct_names n -> exists l, sources [name] n l /\ (forall l', sources [name] n l' -> l' = l) /\
  forall text, read_node name n = Some text <-> listable n /\ exists ts, Forall2 (fun x t => scalars t /\ snd x = Some (utf8 t)) l ts /\ text = List.concat ts.
Proof.
  intros D. destruct (read_sources n [] name D) as (l & S & E & NE & DEC). exists l. split; auto. split; [intros l' S'; now apply (sources_unique [name] n)|].
  intros text. rewrite <- decoded_iff. destruct DEC as [L|L].
  - rewrite (E L). tauto.
  - rewrite (NE L). split; [discriminate|tauto].
Qed.
