(** URLs *)
From Verif Require Import SpecHttp TextProofs TextMore.
From Coq Require Import ZifyBool.
Open Scope N_scope.

Lemma strip_prefix_iff p s r : strip_prefix p s = Some r <-> s = p ++ r.
Proof.
  revert s. induction p as [|x p IH]; intros s; cbn [strip_prefix app]; [split; congruence|].
  destruct s as [|y s]; [split; discriminate|]. destruct (x =? y) eqn:E.
  - apply N.eqb_eq in E. subst. rewrite IH. split; [intros ->; auto|congruence].
  - split; [discriminate|]. intros [= -> _]. rewrite N.eqb_refl in E. discriminate.
Qed.
Lemma split_next_none s : ~ contains scheme_sep s -> split_next scheme_sep s = (s, None).
Proof.
  induction s as [|c s IH]; intros N; [reflexivity|]. unfold split_next; fold split_next.
  destruct (strip_prefix scheme_sep (c :: s)) as [r|] eqn:E.
  - apply strip_prefix_iff in E. exfalso. apply N. exists [], r. exact E.
  - rewrite IH; auto. intros (a & b & ->). apply N. exists (c :: a), b. reflexivity.
Qed.
Lemma split_next_some (a b : str) : ~ contains scheme_sep a -> split_next scheme_sep (a ++ scheme_sep ++ b) = (a, Some b).
Proof.
  induction a as [|c a IH]; intros N; [reflexivity|]. cbn [app]. unfold split_next; fold split_next.
  destruct (strip_prefix scheme_sep (c :: a ++ scheme_sep ++ b)) as [r|] eqn:E.
  - apply strip_prefix_iff in E. exfalso.
    change scheme_sep with [58; 47; 47] in E at 2. cbn [app] in E. inversion E as [[E1 E2]]. subst c.
    destruct a as [|x a]; [discriminate|]. inversion E2 as [[E3 E4]]. subst x.
    destruct a as [|x a]; [discriminate|]. inversion E4 as [[E5 E6]]. subst x. apply N. exists [], a. reflexivity.
  - rewrite IH; auto. intros (u & v & ->). apply N. exists (c :: u), v. reflexivity.
Qed.
Lemma contains_dec s : contains scheme_sep s \/ ~ contains scheme_sep s.
Proof.
  destruct (split_next scheme_sep s) as [a [r|]] eqn:E.
  - left. exists a, r. revert a r E. induction s as [|c s IH]; intros a r E; [discriminate|].
    unfold split_next in E; fold split_next in E. destruct (strip_prefix scheme_sep (c :: s)) as [r'|] eqn:P.
    + inversion E; subst. now apply strip_prefix_iff in P.
    + destruct (split_next scheme_sep s) as [a' r''] eqn:F. inversion E; subst. cbn [app]. f_equal. now apply IH.
  - right. intros (u & v & ->). revert a E. induction u as [|c u IH]; intros a E; [discriminate|].
    cbn [app] in E. unfold split_next in E; fold split_next in E. destruct (strip_prefix scheme_sep _) as [r'|] eqn:P; [discriminate|].
    destruct (split_next scheme_sep (u ++ scheme_sep ++ v)) as [a' r''] eqn:F. inversion E; subst. now apply (IH a').
Qed.
Lemma first_sep s : contains scheme_sep s -> exists a b, s = a ++ scheme_sep ++ b /\ ~ contains scheme_sep a.
Proof.
  induction s as [|c s IH]; intros (u & v & E); [destruct u; discriminate|].
  destruct (strip_prefix scheme_sep (c :: s)) as [r|] eqn:P.
  - apply strip_prefix_iff in P. exists [], r. split; auto. intros (x & y & F). destruct x; discriminate.
  - destruct u as [|x u].
    + exfalso. assert (strip_prefix scheme_sep (c :: s) = Some v) by (apply strip_prefix_iff; exact E). congruence.
    + inversion E; subst. destruct IH as (a & b & F & N); [exists u, v; auto|]. exists (x :: a), b. split; [cbn; now rewrite F|].
      intros (p & q & G). destruct p as [|y p].
      * cbn [app] in G. destruct a as [|a1 [|a2 a]]; try discriminate. rewrite F in P. cbn [app] in G.
        inversion G; subst. cbn in P. discriminate.
      * inversion G; subst. apply N. exists p, q. auto.
Qed.
Lemma in_contains c s : In c scheme_sep -> ~ In c s -> ~ contains scheme_sep s.
Proof. intros I N (a & b & ->). apply N. rewrite !in_app_iff. auto. Qed.

Lemma scheme_from_named s : scheme_named s (scheme_from s).
Proof.
  unfold scheme_from, scheme_named. destruct (str_eqb s (lit "http")) eqn:E.
  - apply str_eqb_eq in E. subst. right. split; [discriminate|reflexivity].
  - destruct (str_eqb s (lit "https")) eqn:F; [apply str_eqb_eq in F; auto|apply str_eqb_neq in F; auto].
Qed.
Lemma scheme_named_from s x : scheme_named s x -> scheme_from s = x.
Proof.
  intros [[-> ->]|[N ->]]; [reflexivity|]. destruct (scheme_from_named s) as [[? _]|[_ E]]; [congruence|auto].
Qed.
Lemma port_value_iff s t p :
  match match t with Some b => parse_unsigned u16_max b | None => None end with Some n => n | None => default_port s end = p
  <-> port_value s t p.
Proof.
  unfold port_value. split.
  - intros <-. destruct t as [b|].
    + destruct (parse_unsigned u16_max b) as [n|] eqn:E.
      * left. exists b. split; auto. now apply parse_unsigned_iff.
      * right. split; [|reflexivity]. intros x n [= <-] U. apply parse_unsigned_iff in U. unfold u16_max in E. congruence.
    + right. split; [discriminate|reflexivity].
  - intros [(x & -> & U)|[N ->]].
    + apply parse_unsigned_iff in U. unfold u16_max. now rewrite U.
    + destruct t as [b|]; [|reflexivity]. unfold u16_max. rewrite parse_unsigned_none; [reflexivity|]. intros n. exact (N b n eq_refl).
Qed.

(** the part between the first and the second separator *)
Lemma url_rest (n h pt path : str) : ~ contains scheme_sep n -> ~ contains scheme_sep (h ++ pt ++ path) ->
  ~ In 47 h -> ~ In 58 h ->
  forall t (p' : str) sch port, port_part pt t -> path_part path p' -> scheme_named n sch -> port_value sch t port ->
  url_from (n ++ scheme_sep ++ h ++ pt ++ path) = Url sch h port p'.
Proof.
  intros N R H1 H2 t p' sch port PP PA SN PV. unfold url_from. fold scheme_sep. rewrite split_next_some by auto.
  rewrite split_next_none by auto. rewrite (scheme_named_from _ _ SN).
  assert (I : ~ In 47 (h ++ pt)).
  { rewrite in_app_iff. inversion PP; subst; cbn; intros [?|?]; try tauto. destruct H0; [lia|tauto]. }
  assert (P : exists r, split_once 58 (h ++ pt) = r /\ match r with Some (a, b) => a = h /\ t = Some b | None => pt = [] /\ t = None end).
  { inversion PP; subst.
    - exists None. rewrite app_nil_r. split; auto. now apply split_once_none.
    - exists (Some (h, t0)). split; auto. now apply split_once_some. }
  destruct P as (r & P1 & P2). apply port_value_iff in PV. inversion PA; subst p' path.
  - rewrite app_nil_r. rewrite split_once_none by auto. rewrite P1. destruct r as [[x y]|]; destruct P2 as [-> ->].
    + now rewrite PV.
    + now rewrite PV, app_nil_r.
  - rewrite app_assoc. rewrite split_once_some by auto. rewrite P1. destruct r as [[x y]|]; destruct P2 as [-> ->].
    + now rewrite PV.
    + now rewrite PV, app_nil_r.
Qed.
(** when can the part after the scheme contain a separator *)
Lemma no_sep_rest (h pt path : str) t p' : ~ In 58 h -> port_part pt t -> path_part path p' -> ~ contains scheme_sep path ->
  (forall x, t = Some x -> x <> [] /\ ~ In 58 x) -> ~ contains scheme_sep (h ++ pt ++ path).
Proof.
  intros H PP PA N T (a & b & E). induction h as [|c h IH] in a, E, H |- *.
  - cbn [app] in E. inversion PP; subst.
    + apply N. exists a, b. auto.
    + destruct (T _ eq_refl) as [T1 T2]. destruct t0 as [|c0 t0]; [now destruct T1|]. destruct a as [|x a].
      * cbn in E. inversion E; subst. cbn in H0. tauto.
      * apply (f_equal (@tl char)) in E. cbn [tl app] in E. change (c0 :: t0 ++ path) with ((c0 :: t0) ++ path) in E. fold (app a (scheme_sep ++ b)) in E.
        clear T1 H0 PP T. revert T2 a E. generalize (c0 :: t0) as tt. clear -N. induction tt as [|y tt IH]; intros T2 a E.
        -- apply N. exists a, b. exact E.
        -- destruct a as [|z a]; [cbn in E; inversion E; subst; apply T2; cbn; auto|]. inversion E; subst. apply (IH ltac:(intros ?; apply T2; cbn; auto) a). auto.
  - destruct a as [|x a].
    + cbn in E. inversion E; subst. apply H. cbn. auto.
    + inversion E; subst. apply (IH ltac:(intros I; apply H; cbn; auto) a). auto.
Qed.
Lemma url_parts (n h pt : str) t (path p' : str) sch port : ~ In 58 n -> ~ In 47 h -> ~ In 58 h -> port_part pt t ->
  (forall x, t = Some x -> x <> [] /\ ~ In 58 x) -> path_part path p' -> ~ contains scheme_sep path ->
  scheme_named n sch -> port_value sch t port ->
  url_from (n ++ scheme_sep ++ h ++ pt ++ path) = Url sch h port p'.
Proof.
  intros N H1 H2 PP T PA NP SN PV. eapply url_rest; eauto; [|eapply no_sep_rest; eauto].
  apply (in_contains 58); [cbn; auto|auto].
Qed.
Lemma url_pieces (n h pt : str) t (path p' : str) sch port : ~ contains scheme_sep n -> ~ In 47 h -> ~ In 58 h -> port_part pt t ->
  path_part path p' -> ~ contains scheme_sep (h ++ pt ++ path) -> scheme_named n sch -> port_value sch t port ->
  url_from (n ++ scheme_sep ++ h ++ pt ++ path) = Url sch h port p'.
Proof. intros. eapply url_rest; eauto. Qed.
Lemma url_truncated (n a b : str) : ~ contains scheme_sep n -> ~ contains scheme_sep a ->
  url_from (n ++ scheme_sep ++ a ++ scheme_sep ++ b) = url_from (n ++ scheme_sep ++ a).
Proof.
  intros N A. unfold url_from. fold scheme_sep. rewrite !split_next_some by auto. rewrite split_next_none by auto. reflexivity.
Qed.
Lemma url_localhost s : ~ contains scheme_sep s -> exists sch, scheme_named s sch /\
  url_from s = Url sch (lit "localhost") (match sch with Http => 80 | Https => 443 end) (lit "/").
Proof.
  intros N. exists (scheme_from s). split; [apply scheme_from_named|]. unfold url_from. fold scheme_sep. rewrite split_next_none by auto. reflexivity.
Qed.
(** every string is covered: either it has no separator, or it is scheme, separator, host,
    port part, path part and possibly a second separator with a rest that is ignored *)
Lemma url_every s : ~ contains scheme_sep s \/
  exists (n h pt : str) t (path p' tail : str) sch port,
    s = n ++ scheme_sep ++ h ++ pt ++ path ++ tail /\ ~ contains scheme_sep n /\ ~ contains scheme_sep (h ++ pt ++ path) /\
    (tail = [] \/ exists b, tail = scheme_sep ++ b) /\ ~ In 47 h /\ ~ In 58 h /\ port_part pt t /\ path_part path p' /\
    scheme_named n sch /\ port_value sch t port /\ url_from s = Url sch h port p'.
Proof.
  destruct (contains_dec s) as [C|N]; [right|auto].
  destruct (first_sep _ C) as (n & r & -> & N).
  assert (X : exists a tail, r = a ++ tail /\ (tail = [] \/ exists b, tail = scheme_sep ++ b) /\ ~ contains scheme_sep a /\ url_from (n ++ scheme_sep ++ r) = url_from (n ++ scheme_sep ++ a)).
  { destruct (contains_dec r) as [C2|N2]; [|exists r, []; rewrite app_nil_r; auto]. destruct (first_sep _ C2) as (a & b & -> & A). exists a, (scheme_sep ++ b).
    split; [reflexivity|]. split; [right; eexists; reflexivity|]. split; [exact A|]. now apply url_truncated. }
  destruct X as (a & tail & -> & T & A & E). clear C.
  assert (D : exists h pt t path p', a = h ++ pt ++ path /\ ~ In 47 h /\ ~ In 58 h /\ port_part pt t /\ path_part path p').
  { assert (D1 : exists hp path p', a = hp ++ path /\ ~ In 47 hp /\ path_part path p').
    { destruct (split_once_cases 47 a) as [[I _]|(x & y & -> & I & _)].
      - exists a, [], (lit "/"). rewrite app_nil_r. repeat split; auto. constructor.
      - exists x, (47 :: y), (47 :: y). repeat split; auto. constructor. }
    destruct D1 as (hp & path & p' & -> & I & PA). destruct (split_once_cases 58 hp) as [[I2 _]|(x & y & -> & I2 & _)].
    - exists hp, [], None, path, p'. repeat split; auto. constructor.
    - rewrite in_app_iff in I. cbn in I. exists x, (58 :: y), (Some y), path, p'. rewrite <- app_assoc. repeat split; auto. constructor. tauto. }
  destruct D as (h & pt & t & path & p' & -> & H1 & H2 & PP & PA).
  assert (PV : exists port, port_value (scheme_from n) t port) by (eexists; apply port_value_iff; reflexivity). destruct PV as [port PV].
  exists n, h, pt, t, path, p', tail, (scheme_from n), port.
  rewrite E, (url_rest n h pt path N A H1 H2 _ _ _ _ PP PA (scheme_from_named n) PV).
  rewrite <- !app_assoc. pose proof (scheme_from_named n). repeat (split; [auto|]). reflexivity.
Qed.
(** a URL as parsing produces it *)
Definition parsed_url (u : url) : Prop :=
  ~ In 47 (u_host u) /\ ~ In 58 (u_host u) /\ (exists t, u_path u = 47 :: t) /\ ~ contains scheme_sep (u_path u).
Lemma contains_app_r (a b : str) : contains scheme_sep b -> contains scheme_sep (a ++ b).
Proof. intros (x & y & ->). exists (a ++ x), y. now rewrite <- app_assoc. Qed.
Lemma url_shape s : parsed_url (url_from s).
Proof.
  destruct (url_every s) as [N|(n & h & pt & t & path & p' & tail & sch & port & -> & N & A & _ & H1 & H2 & PP & PA & SN & PV & ->)].
  - destruct (url_localhost s N) as (sch & _ & ->). unfold parsed_url. cbn [u_host u_path].
    split; [cbn; intuition lia|]. split; [cbn; intuition lia|]. split; [eexists; reflexivity|]. intros (x & y & E). destruct x as [|? [|]]; discriminate.
  - split; [exact H1|]. split; [exact H2|]. cbn [u_path]. inversion PA; subst.
    + split; [eexists; reflexivity|]. intros (x & y & E). destruct x as [|? [|]]; discriminate.
    + split; [eexists; reflexivity|]. intros C. apply A. do 2 apply contains_app_r. exact C.
Qed.
Lemma reparse u : parsed_url u -> url_from (url_text u) = Url (u_scheme u) (u_host u) (match u_scheme u with Http => 80 | Https => 443 end) (u_path u).
Proof.
  intros (H1 & H2 & (t & PT) & NP). unfold url_text. fold scheme_sep. rewrite PT in *. 
  change (scheme_text (u_scheme u) ++ scheme_sep ++ u_host u ++ 47 :: t) with (scheme_text (u_scheme u) ++ scheme_sep ++ u_host u ++ [] ++ 47 :: t).
  apply url_parts with (t := None); auto; try discriminate.
  - destruct (u_scheme u); cbn; intuition lia.
  - constructor.
  - constructor.
  - destruct (u_scheme u); [right|left]; split; auto; discriminate.
  - right. split; [discriminate|reflexivity].
Qed.
Lemma url_roundtrip s : let u := url_from s in let u' := url_from (url_text u) in
  u_scheme u' = u_scheme u /\ u_host u' = u_host u /\ u_path u' = u_path u /\
  u_port u' = (match u_scheme u with Http => 80 | Https => 443 end) /\
  (u' = u <-> u_port u = match u_scheme u with Http => 80 | Https => 443 end).
Proof.
  intros u u'. subst u'. rewrite (reparse u (url_shape s)). cbn [u_scheme u_host u_path u_port]. repeat split.
  - intros E. rewrite <- E at 1. reflexivity.
  - intros E. rewrite <- E. destruct u; reflexivity.
Qed.
