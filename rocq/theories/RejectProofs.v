(** Rejected programs: the reason, and that what follows does not matter *)
From Verif Require Import Parser SpecSyntax SpecReject TextProofs LexerProofs ParserBase ParserSound ParserTop ParserFuel.
Open Scope N_scope.

Lemma named k : In (k, kind_debug k) names.
Proof. destruct k; cbv [names In kind_debug]; repeat first [left; reflexivity | right]. Qed.
Lemma names_unique k a : In (k, a) names -> a = kind_debug k.
Proof. cbv [names In]. intros H. repeat (destruct H as [H|H]; [inversion H; reflexivity|]). destruct H. Qed.

Lemma app_inv_suffix (p w : toks) c r : p ++ c :: r = w ++ r -> p ++ [c] = w.
Proof. intros H. apply (app_inv_tail r). now rewrite <- app_assoc. Qed.

Lemma eats_at ts w p c r : eats ts w (c :: r) -> ts = p ++ c :: r -> w = p ++ [c] /\ spelled c /\ wf r.
Proof.
  intros (u & t & r' & E & [= <- <-] & -> & S & W) Q. rewrite Q in E. split; auto.
  assert (p = u) by (apply (app_inv_tail (c :: r)); exact E). now subst.
Qed.

Section Local.

  (** what [F] does at [ts], after [x], depends on a prefix only *)
  Definition local {A} (la oadv eadv : bool) (x : toks) (F : toks -> pres A) (ts : toks) : Prop :=
    match F ts with
    | PFuel => True
    | PErr e => exists p t q, ts = p ++ t :: q /\ reason (perr_text e) (x ++ p) t /\ (eadv = true -> p <> []) /\
        forall q', F (p ++ t :: q') = PErr e
    | POk a ts' => exists p c r, ts = p ++ c :: r /\ ts' = c :: r /\ (oadv = true -> p <> []) /\
        forall r', (la = true -> hd_error r' = hd_error r) -> F (p ++ c :: r') = POk a (c :: r')
    end.

  Lemma local_ext {A} la o e x (F G : toks -> pres A) ts : (forall ts, F ts = G ts) -> local la o e x F ts -> local la o e x G ts.
  Proof.
    intros E. unfold local. rewrite <- E. destruct (F ts) as [a ts'|er|]; auto.
    - intros (p & c & r & A1 & A2 & A3 & A4). exists p, c, r. repeat split; auto. intros. rewrite <- E. auto.
    - intros (p & t & q & A1 & A2 & A3 & A4). exists p, t, q. repeat split; auto. intros. rewrite <- E. auto.
  Qed.

  Lemma local_weaken {A} la o e la' o' e' x (F : toks -> pres A) ts : (la = true -> la' = true) -> (o' = true -> o = true) -> (e' = true -> e = true) ->
    local la o e x F ts -> local la' o' e' x F ts.
  Proof.
    intros L O Er. unfold local. destruct (F ts) as [a ts'|er|]; auto.
    - intros (p & c & r & A1 & A2 & A3 & A4). exists p, c, r. repeat split; auto.
    - intros (p & t & q & A1 & A2 & A3 & A4). exists p, t, q. repeat split; auto.
  Qed.

  Lemma local_bind {A B} la1 o1 e1 la2 o2 e2 x (F : toks -> pres A) (G : A -> toks -> pres B) ts :
    local la1 o1 e1 x F ts ->
    (forall a p c r, F ts = POk a (c :: r) -> ts = p ++ c :: r -> local la2 o2 e2 (x ++ p) (G a) (c :: r)) ->
    la1 = false \/ (e2 = true /\ (o2 = true \/ la2 = true)) ->
    local la2 (o1 || o2) (e1 && (e2 || o1)) x (fun ts => pbind (F ts) G) ts.
  Proof.
    intros LF LG Side. unfold local at 1 in LF. destruct (F ts) as [a ts'|er|] eqn:EF.
    - destruct LF as (p & c & r & E1 & E2 & O1 & S1). subst ts'.
      specialize (LG a p c r eq_refl E1). unfold local in LG |- *. rewrite EF. cbn [pbind].
      destruct (G a (c :: r)) as [b ts''|er|] eqn:EG; auto.
      + destruct LG as (p2 & c2 & r2 & F1 & F2 & O2 & S2). exists (p ++ p2), c2, r2. repeat split; auto.
        * rewrite E1, F1. now rewrite app_assoc.
        * intros O N. apply app_eq_nil in N. destruct N as [-> ->]. apply orb_true_iff in O. destruct O as [O|O]; [now apply O1|now apply O2].
        * intros r' Hr. destruct p2 as [|d p2].
          -- cbn [app] in F1. injection F1 as <- <-. rewrite app_nil_r. rewrite S1.
             ++ cbn [pbind]. apply (S2 r'). exact Hr.
             ++ intros L1. destruct Side as [Sd|(_ & [Sd|Sd])]; [congruence| |auto]. exfalso. now apply (O2 Sd).
          -- cbn [app] in F1. injection F1 as <- F1. rewrite <- app_assoc. cbn [app]. rewrite (S1 (p2 ++ c2 :: r')).
             ++ cbn [pbind]. apply (S2 r'). exact Hr.
             ++ intros _. subst r. destruct p2; reflexivity.
      + destruct LG as (p2 & t & q & F1 & R & O2 & S2). exists (p ++ p2), t, q. repeat split; auto.
        * rewrite E1, F1. now rewrite app_assoc.
        * now rewrite app_assoc.
        * intros O N. apply app_eq_nil in N. destruct N as [-> ->]. apply andb_true_iff in O. destruct O as [_ O].
          apply orb_true_iff in O. destruct O as [O|O]; [now apply O2|now apply O1].
        * intros q'. destruct p2 as [|d p2].
          -- cbn [app] in F1. injection F1 as <- <-. rewrite app_nil_r. rewrite S1.
             ++ cbn [pbind]. apply (S2 q').
             ++ intros L1. destruct Side as [Sd|(Sd & _)]; [congruence|]. exfalso. now apply (O2 Sd).
          -- cbn [app] in F1. injection F1 as <- F1. rewrite <- app_assoc. cbn [app]. rewrite (S1 (p2 ++ t :: q')).
             ++ cbn [pbind]. apply (S2 q').
             ++ intros _. subst r. destruct p2; reflexivity.
    - unfold local. rewrite EF. cbn [pbind]. destruct LF as (p & t & q & E1 & R & O1 & S1). exists p, t, q. repeat split; auto.
      + intros O. apply andb_true_iff in O. apply O1. apply O.
      + intros q'. rewrite S1. reflexivity.
    - unfold local. rewrite EF. exact I.
  Qed.

  Lemma local_ret {A} la e x (g : token -> A) c r : local la false e x (fun ts => POk (g (current ts)) ts) (c :: r).
  Proof.
    unfold local. exists [], c, r. repeat split; auto. discriminate.
  Qed.

  Lemma local_const {A} la e x (v : A) c r : local la false e x (fun ts => POk v ts) (c :: r).
  Proof. exact (local_ret la e x (fun _ => v) c r). Qed.

  Lemma local_next {A} la o e x (F : toks -> pres A) c r : r <> [] -> local la o e (x ++ [c]) F r -> local la true true x (fun ts => F (next ts)) (c :: r).
  Proof.
    intros N. assert (NX : forall s, s <> [] -> next (c :: s) = s) by (intros [|? ?]; [congruence|reflexivity]).
    unfold local. rewrite (NX _ N). destruct (F r) as [a ts'|er|]; auto.
    - intros (p & c' & r' & E1 & E2 & O & S1). exists (c :: p), c', r'. repeat split; auto; [now rewrite E1|discriminate|].
      intros r'' Hr. cbn [app]. rewrite NX; [auto|]. destruct p; discriminate.
    - intros (p & t & q & E1 & R & O & S1). exists (c :: p), t, q. repeat split; auto; [now rewrite E1|now rewrite <- app_assoc in R|discriminate|].
      intros q'. cbn [app]. rewrite NX; [auto|]. destruct p; discriminate.
  Qed.

  Lemma local_peek {A} la o x (D : option token -> toks -> pres A) c r : la = true \/ o = true ->
    local la o true x (D (hd_error r)) (c :: r) -> local la o true x (fun ts => D (peek ts) ts) (c :: r).
  Proof.
    intros Side. assert (PK : forall s, peek (c :: s) = hd_error s) by (intros [|? ?]; reflexivity).
    unfold local. rewrite PK. destruct (D (hd_error r) (c :: r)) as [a ts'|er|]; auto.
    - intros (p & c' & r' & E1 & E2 & O & S1). exists p, c', r'. repeat split; auto. intros r'' Hr.
      destruct p as [|d p]; cbn [app] in *; injection E1 as <- E1.
      + rewrite PK. rewrite <- (S1 r'' Hr). f_equal. destruct Side as [Sd|Sd]; [rewrite (Hr Sd); congruence|exfalso; now apply (O Sd)].
      + rewrite PK. rewrite <- (S1 r'' Hr). f_equal. subst r. destruct p; reflexivity.
    - intros (p & t & q & E1 & R & O & S1). exists p, t, q. repeat split; auto. intros q'. specialize (O eq_refl).
      destruct p as [|d p]; [congruence|]. cbn [app] in *. injection E1 as <- E1. rewrite PK. rewrite <- (S1 q'). f_equal.
      subst r. destruct p; reflexivity.
  Qed.

  Lemma local_current {A} la o e x (D : token -> toks -> pres A) c r :
    local la o e x (D c) (c :: r) -> local la o e x (fun ts => D (current ts) ts) (c :: r).
  Proof.
    unfold local. cbn [current]. destruct (D c (c :: r)) as [a ts'|er|]; auto.
    - intros (p & c' & r' & E1 & E2 & O & S1). exists p, c', r'. repeat split; auto. intros r'' Hr.
      rewrite <- (S1 r'' Hr). f_equal. destruct p; cbn [app] in *; injection E1 as <- E1; reflexivity.
    - intros (p & t & q & E1 & R & O & S1). exists p, t, q. repeat split; auto. intros q'.
      rewrite <- (S1 q'). f_equal. destruct p; cbn [app] in *; injection E1 as <- E1; reflexivity.
  Qed.

  Lemma local_expect k x c r : r <> [] -> (forall t, tkind t <> k -> lacks k (x ++ [c]) t) -> local false true true x (expect k) (c :: r).
  Proof.
    intros N Lk. destruct r as [|t r]; [congruence|]. unfold local, expect. cbn [peek next].
    destruct (kind_eqb k (tkind t)) eqn:K.
    - exists [c], t, r. repeat split; auto; [discriminate|]. intros r' _. cbn [app peek next]. rewrite K. reflexivity.
    - apply kind_eqb_neq in K. exists [c], t, r. repeat split; auto; [|discriminate|].
      + cbn [perr_text]. apply re_lacks with (k := k); [apply Lk; congruence|apply named|apply named].
      + intros q'. cbn [app peek next]. apply kind_eqb_neq in K. rewrite K. reflexivity.
  Qed.
  Lemma expect_to k c r u c' r' : expect k (c :: r) = POk u (c' :: r') -> r = c' :: r' /\ tkind c' = k.
  Proof.
    unfold expect. destruct r as [|t r]; cbn [peek next]; [discriminate|]. destruct (kind_eqb k (tkind t)) eqn:K; [|discriminate].
    intros [= _ -> ->]. apply kind_eqb_eq in K. auto.
  Qed.

  Lemma local_semi {A} (v : A) x c r : spelled c -> wf r -> local true false true x (fun ts => POk v (skip_semi ts)) (c :: r).
  Proof.
    intros S W. unfold local. unfold skip_semi at 1. destruct r as [|t r]; [inversion W|]. unfold peek_is. cbn [peek next].
    destruct (kind_eqb KSemi (tkind t)) eqn:K.
    - exists [c], t, r. repeat split; auto; [discriminate|]. intros r' _. unfold skip_semi, peek_is. cbn [app peek next]. rewrite K. reflexivity.
    - exists [], c, (t :: r). repeat split; auto; [discriminate|]. intros r' Hr. specialize (Hr eq_refl). destruct r' as [|t' r']; [discriminate|].
      cbn in Hr. injection Hr as ->. unfold skip_semi, peek_is. cbn [app peek next]. rewrite K. reflexivity.
  Qed.
End Local.

Section Steps.

  Lemma lbind {A B} la1 o1 e1 la2 o2 e2 la o e x (F : toks -> pres A) (G : A -> toks -> pres B) ts :
    local la1 o1 e1 x F ts ->
    (forall a p c r, F ts = POk a (c :: r) -> ts = p ++ c :: r -> local la2 o2 e2 (x ++ p) (G a) (c :: r)) ->
    la1 = false \/ (e2 = true /\ (o2 = true \/ la2 = true)) ->
    (la2 = true -> la = true) -> (o = true -> o1 || o2 = true) -> (e = true -> e1 && (e2 || o1) = true) ->
    local la o e x (fun ts => pbind (F ts) G) ts.
  Proof. intros. eapply local_weaken; [..|eapply local_bind]; eauto. Qed.

  Definition lead (u : toks) : Prop := forall es w, es <> [] -> syntax_list false es w -> exists es', es' <> [] /\ syntax_list false es' (u ++ w).
  Definition lead2 (u : toks) : Prop := forall ps w, ps <> [] -> syntax_pairs false ps w -> exists ps', ps' <> [] /\ syntax_pairs false ps' (u ++ w).
  Lemma lead_nil : lead [].
  Proof. intros es w N S. eauto. Qed.
  Lemma lead2_nil : lead2 [].
  Proof. intros es w N S. eauto. Qed.
  Lemma lead_more u e w : lead u -> syntax false e w -> lead (u ++ w ++ [op KComma ","]).
  Proof.
    intros L S es w' N S'. destruct (L (e :: es) (w ++ op KComma "," :: w')) as (es' & N' & S''); [discriminate|now constructor|].
    exists es'. split; auto. rewrite <- !app_assoc. exact S''.
  Qed.
  Lemma lead2_more u k wk v wv : lead2 u -> syntax false k wk -> syntax false v wv ->
    lead2 (u ++ wk ++ op KColon ":" :: wv ++ [op KComma ","]).
  Proof.
    intros L S Sv es w' N S'. destruct (L ((k, v) :: es) (wk ++ op KColon ":" :: wv ++ op KComma "," :: w')) as (es' & N' & S''); [discriminate|now constructor|].
    exists es'. split; auto. rewrite <- !app_assoc. cbn [app]. rewrite <- !app_assoc. exact S''.
  Qed.

  Definition closes (k stop : kind) : Prop := In (k, stop) [(KLp, KRp); (KLs, KRs)].

  Record local_at (n : nat) : Prop := {
    l_expr : forall x p ts, wf ts -> local true false false x (parse_expr n p) ts;
    l_loop : forall x p left c r y w0, spelled c -> wf r -> x ++ [c] = y ++ w0 -> syntax false left w0 ->
      local true false true x (parse_loop n p left) (c :: r);
    l_let : forall x c r, spelled c -> wf r -> tkind c = KLet -> local true true true x (parse_let n) (c :: r);
    l_unary : forall x c r, spelled c -> wf r -> local true true true x (parse_unary n) (c :: r);
    l_binary : forall x left c r, spelled c -> wf r -> local true true true x (parse_binary n left) (c :: r);
    l_paren : forall x c r, spelled c -> wf r -> tkind c = KLp -> local false true true x (parse_paren n) (c :: r);
    l_if : forall x c r, spelled c -> wf r -> tkind c = KIf -> local true true true x (parse_if n) (c :: r);
    l_call : forall x f c r y w0, spelled c -> wf r -> tkind c = KLp -> x = y ++ w0 -> syntax false f w0 ->
      local false true true x (parse_call n f) (c :: r);
    l_list : forall x stop c r, spelled c -> wf r -> closes (tkind c) stop -> local false true true x (parse_list n stop) (c :: r);
    l_list_loop : forall x stop c r y b u, spelled c -> wf r -> closes (tkind b) stop -> x ++ [c] = y ++ b :: u -> lead u ->
      local true false true x (parse_list_loop n stop) (c :: r);
    l_array : forall x c r, spelled c -> wf r -> tkind c = KLs -> local false true true x (parse_array n) (c :: r);
    l_map : forall x c r, spelled c -> wf r -> tkind c = KLb -> local false true true x (parse_map n) (c :: r);
    l_map_loop : forall x c r y u, spelled c -> wf r -> In (tkind c) [KLb; KComma] -> x ++ [c] = y ++ op KLb "{" :: u -> lead2 u ->
      local true false true x (parse_map_loop n) (c :: r);
    l_index : forall x left c r, spelled c -> wf r -> tkind c = KLs -> local false true true x (parse_index n left) (c :: r);
    l_block : forall x c r, spelled c -> wf r -> (forall t, tkind t <> KLb -> lacks KLb (x ++ [c]) t) ->
      local false true true x (parse_block n) (c :: r);
    l_block_loop : forall x c r, spelled c -> wf r -> local true false true x (parse_block_loop n) (c :: r)
  }.

  Lemma wf_ne r : wf r -> r <> [].
  Proof. intros W ->. inversion W. Qed.
  Hint Resolve wf_ne : core.
  Lemma wf_hd c r : wf (c :: r) -> tkind c <> KEof -> spelled c /\ wf r.
  Proof. intros W N. inversion W; subst; [destruct (N eq_refl)|auto]. Qed.
  Lemma to_expect k c r u c' r' p : expect k (c :: r) = POk u (c' :: r') -> c :: r = p ++ c' :: r' -> wf r -> k <> KEof ->
    p = [c] /\ spelled c' /\ wf r' /\ tkind c' = k.
  Proof.
    intros E Q W N. destruct (expect_to _ _ _ _ _ _ E) as [-> K]. destruct (wf_hd _ _ W ltac:(congruence)) as [S W'].
    repeat split; auto. apply (app_inv_tail (c' :: r')). symmetry. exact Q.
  Qed.
  Lemma live_cons c r : spelled c -> wf r -> live (c :: r).
  Proof. intros. exists c, r. auto. Qed.
  Hint Resolve live_cons : core.
  Lemma to_next (ts : toks) p c' r' w (c : token) (r : toks) : eats (next (c :: r)) w (c' :: r') -> c :: r = p ++ c' :: r' -> wf r ->
    p ++ [c'] = c :: w /\ spelled c' /\ wf r'.
  Proof.
    intros E Q W. assert (NX : next (c :: r) = r) by (destruct r; [inversion W|reflexivity]). rewrite NX in E.
    destruct E as (u & t & r0 & E & [= <- <-] & -> & S & W'). split; auto.
    rewrite E in Q. change (c :: u ++ c' :: r') with ((c :: u) ++ c' :: r') in Q. apply app_inv_tail in Q. now subst p.
  Qed.
  Lemma opt t k s : spelled t -> tkind t = k -> In (k, s) (operators ++ keywords) -> t = Tok k s.
  Proof. apply spelled_op. Qed.

  Lemma semi_to c r c' r' : spelled c -> wf r -> skip_semi (c :: r) = c' :: r' -> spelled c' /\ wf r'.
  Proof.
    intros S W. unfold skip_semi, peek_is. destruct r as [|t r]; [inversion W|]. cbn [peek next].
    destruct (kind_eqb KSemi (tkind t)) eqn:K; intros [= <- <-]; auto. apply kind_eqb_eq in K. apply wf_hd; auto. congruence.
  Qed.

  Lemma integer_digits t : spelled t -> tkind t = KInteger -> Forall digit (tlit t).
  Proof.
    intros [sp Sp] K. destruct Sp; cbn [tkind tlit] in *; try discriminate; subst; try (cbv in H; intuition discriminate). constructor; auto.
  Qed.

  Section Step.
  Variable n : nat.
  Hypothesis IH : local_at n.

  Ltac side := solve [left; reflexivity | right; split; [reflexivity|left; reflexivity] | right; split; [reflexivity|right; reflexivity]
                     | intros _; reflexivity | discriminate | auto].

  Lemma t_let x c r : spelled c -> wf r -> tkind c = KLet -> local true true true x (parse_let (S n)) (c :: r).
  Proof.
    intros S W K. cbn [parse_let].
    apply (lbind false true true true true true); [|intros u p c1 r1 E Q|side..].
    { apply local_expect; auto. intros t N. apply lk_ident; auto. rewrite K. simpl. auto. }
    destruct (to_expect _ _ _ _ _ _ _ E Q W ltac:(discriminate)) as (-> & S1 & W1 & K1). cbv zeta.
    apply (local_current true true true (x ++ [c])
      (fun t ts => pbind (expect KAssign ts) (fun _ ts0 => pbind (parse_expr n prec_min (next ts0)) (fun v ts1 => POk (ELet (tlit t) v) (skip_semi ts1))))).
    apply (lbind false true true true true true); [|intros u' p c2 r2 E' Q'|side..].
    { apply local_expect; auto. intros t N. rewrite <- app_assoc. cbn [app]. rewrite (opt c _ _ S K ltac:(inop)), (tok_eta _ _ K1). now apply lk_assign. }
    destruct (to_expect _ _ _ _ _ _ _ E' Q' W1 ltac:(discriminate)) as (-> & S2 & W2 & K2).
    apply (lbind true true true true false true); [apply local_next with (o := false) (e := false); auto; now apply (l_expr _ IH)|intros v p c3 r3 E3 Q3|side..].
    destruct (so_expr _ (sound n) _ _ _ _ (proj1 (live_next _ (live_cons _ _ S2 W2))) E3) as (w & A & _).
    destruct (to_next [] _ _ _ _ _ _ A Q3 W2) as (_ & S3 & W3).
    now apply local_semi.
  Qed.

  Lemma t_unary x c r : spelled c -> wf r -> local true true true x (parse_unary (S n)) (c :: r).
  Proof.
    intros S W. cbn [parse_unary]. cbv zeta.
    apply (local_current true true true x (fun t ts => pbind (parse_expr n (precedence (tkind t) + (if kind_eqb (tkind t) KSub then 2 else 0)) (next ts)) (fun r ts => POk (EUn t r) ts))).
    apply (lbind true true true true false true); [apply local_next with (o := false) (e := false); auto; now apply (l_expr _ IH)|intros v p c3 r3 E3 Q3|side..].
    apply local_const.
  Qed.
  Lemma t_binary x left c r : spelled c -> wf r -> local true true true x (parse_binary (S n) left) (c :: r).
  Proof.
    intros S W. cbn [parse_binary]. cbv zeta.
    apply (local_current true true true x (fun t ts => pbind (parse_expr n (precedence (tkind t)) (next ts)) (fun r ts => POk (EBin t left r) ts))).
    apply (lbind true true true true false true); [apply local_next with (o := false) (e := false); auto; now apply (l_expr _ IH)|intros v p c3 r3 E3 Q3|side..].
    apply local_const.
  Qed.

  (** an expression after the current token *)
  Lemma after_expr c r v p c' r' pr : spelled c -> wf r -> parse_expr n pr (next (c :: r)) = POk v (c' :: r') -> c :: r = p ++ c' :: r' ->
    exists w, p ++ [c'] = c :: w /\ syntax false v w /\ spelled c' /\ wf r'.
  Proof.
    intros S W E Q. destruct (so_expr _ (sound n) _ _ _ _ (proj1 (live_next _ (live_cons _ _ S W))) E) as (w & A & Sx & _).
    destruct (to_next [] _ _ _ _ _ _ A Q W) as (P & S3 & W3). exists w. auto.
  Qed.

  Lemma t_paren x c r : spelled c -> wf r -> tkind c = KLp -> local false true true x (parse_paren (S n)) (c :: r).
  Proof.
    intros S W K. cbn [parse_paren].
    apply (lbind true true true false true true); [apply local_next with (o := false) (e := false); auto; now apply (l_expr _ IH)|intros v p c3 r3 E3 Q3|side..].
    destruct (after_expr _ _ _ _ _ _ _ S W E3 Q3) as (w & P & Sx & S3 & W3).
    apply (lbind false true true false false true); [|intros; apply local_const|side..].
    apply local_expect; auto. intros t N. rewrite <- app_assoc, P, (opt c _ _ S K ltac:(inop)). now apply lk_rp with (e := v).
  Qed.
  Lemma t_index x left c r : spelled c -> wf r -> tkind c = KLs -> local false true true x (parse_index (S n) left) (c :: r).
  Proof.
    intros S W K. cbn [parse_index].
    apply (lbind true true true false true true); [apply local_next with (o := false) (e := false); auto; now apply (l_expr _ IH)|intros v p c3 r3 E3 Q3|side..].
    destruct (after_expr _ _ _ _ _ _ _ S W E3 Q3) as (w & P & Sx & S3 & W3).
    apply (lbind false true true false false true); [|intros; apply local_const|side..].
    apply local_expect; auto. intros t N. rewrite <- app_assoc, P, (opt c _ _ S K ltac:(inop)). now apply lk_rs with (e := v).
  Qed.

  Lemma t_if x c r : spelled c -> wf r -> tkind c = KIf -> local true true true x (parse_if (S n)) (c :: r).
  Proof.
    intros S W K. cbn [parse_if].
    apply (lbind false true true true true true); [|intros u p c1 r1 E Q|side..].
    { apply local_expect; auto. intros t N. rewrite (opt c _ _ S K ltac:(inop)). now apply lk_lp. }
    destruct (to_expect _ _ _ _ _ _ _ E Q W ltac:(discriminate)) as (-> & S1 & W1 & K1).
    apply (lbind true true true true true true); [apply local_next with (o := false) (e := false); auto; now apply (l_expr _ IH)|intros v p c2 r2 E2 Q2|side..].
    destruct (after_expr _ _ _ _ _ _ _ S1 W1 E2 Q2) as (w & P & Sx & S2 & W2).
    apply (lbind false true true true true true); [|intros u' p3 c3 r3 E3 Q3|side..].
    { apply local_expect; auto. intros t N. rewrite <- app_assoc, P, (opt c1 _ _ S1 K1 ltac:(inop)). now apply lk_rp with (e := v). }
    destruct (to_expect _ _ _ _ _ _ _ E3 Q3 W2 ltac:(discriminate)) as (-> & S3 & W3 & K3).
    apply (lbind false true true true false true); [|intros cs p4 c4 r4 E4 Q4|side..].
    { apply (l_block _ IH); auto. intros t N.
      replace ((((x ++ [c]) ++ p) ++ [c2]) ++ [c3]) with (x ++ op KIf "if" :: op KLp "(" :: w ++ [op KRp ")"]); [now apply lk_lb_if with (e := v)|].
      rewrite <- !app_assoc. rewrite (app_assoc p), P, (opt c _ _ S K ltac:(inop)), (opt c1 _ _ S1 K1 ltac:(inop)), (opt c3 _ _ S3 K3 ltac:(inop)). reflexivity. }
    destruct (so_block _ (sound n) _ _ _ (live_cons _ _ S3 W3) E4) as (w4 & A4 & _).
    destruct (eats_at _ _ _ _ _ A4 Q4) as (_ & S4 & W4).
    apply (local_peek true false _ (fun o ts => if match o with Some t => kind_eqb KElse (tkind t) | None => false end
       then pbind (parse_block n (next ts)) (fun alt ts => POk (EIf v cs alt) ts) else POk (EIf v cs []) ts)); [side|].
    destruct r4 as [|t4 r4]; [inversion W4|]. cbn [hd_error]. destruct (kind_eqb KElse (tkind t4)) eqn:KE; [|apply local_const].
    apply kind_eqb_eq in KE. destruct (wf_hd _ _ W4 ltac:(congruence)) as [S5 W5].
    apply (lbind false true true true false true); [|intros; apply local_const|side..].
    apply local_next with (o := true) (e := true); [discriminate|]. apply (l_block _ IH); auto. intros t N.
    rewrite (opt t4 _ _ S5 (eq_sym KE) ltac:(inop)). now apply lk_lb_else.
  Qed.

  Lemma t_list x stop c r : spelled c -> wf r -> closes (tkind c) stop -> local false true true x (parse_list (S n) stop) (c :: r).
  Proof.
    intros S W K. cbn [parse_list].
    apply (lbind true false true false true true); [|intros es p c1 r1 E Q|side..].
    { eapply (l_list_loop _ IH); eauto using lead_nil. }
    apply (lbind false true true false false true); [|intros; apply local_const|side..].
    destruct (so_list_loop _ (sound n) _ _ _ _ (live_cons _ _ S W) E) as (w & A & _). destruct (eats_at _ _ _ _ _ A Q) as (_ & S1 & W1).
    assert (PS : forall m ts es' ts', parse_list_loop m stop ts = POk es' ts' -> peek_is stop ts' = true).
    { clear. induction m as [|m IHm]; intros ts es' ts' H; [discriminate|]. cbn [parse_list_loop] in H.
      destruct (peek_is stop ts) eqn:P; [inversion H; subst; auto|]. pinv H as e0 t0 E0. destruct (peek_is stop t0) eqn:P0.
      - pinv H as es0 t1 E1. inversion H; subst. eauto.
      - pinv H as u1 t1 E1. pinv H as es0 t2 E2. inversion H; subst. eauto. }
    apply PS in E. unfold RejectProofs.local, expect. unfold peek_is in E. destruct (peek (c1 :: r1)) as [t|] eqn:PK; [|discriminate].
    rewrite E. destruct r1 as [|t1 r1]; [discriminate|]. cbn [peek next] in *. injection PK as ->.
    exists [c1], t, r1. repeat split; auto; [discriminate|]. intros r' _. cbn [app peek next]. rewrite E. reflexivity.
  Qed.

  Lemma t_call x f c r y w0 : spelled c -> wf r -> tkind c = KLp -> x = y ++ w0 -> syntax false f w0 ->
    local false true true x (parse_call (S n) f) (c :: r).
  Proof.
    intros S W K -> Sf. cbn [parse_call].
    assert (C : closes (tkind c) KRp) by (unfold closes; rewrite K; simpl; auto).
    pose proof (l_list _ IH (y ++ w0) KRp c r S W C) as L.
    destruct (parse_list n KRp (c :: r)) as [es ts'|er|] eqn:E.
    - destruct (so_list _ (sound n) _ _ _ _ (live_cons _ _ S W) E ltac:(discriminate)) as (w & t & A & Kt & St & Sl & _).
      cbn [current] in A. unfold RejectProofs.local in L |- *. rewrite E in L |- *. cbn [pbind].
      destruct L as (p & c' & r' & Q & -> & O & Stab). destruct (eats_at _ _ _ _ _ A Q) as (P & S' & W').
      assert (EQ : c' = t /\ p = c :: w).
      { change (c :: w ++ [t]) with ((c :: w) ++ [t]) in P. apply app_inj_tail in P. destruct P as [<- <-]. auto. }
      destruct EQ as [-> ->].
      destruct f; try (exists (c :: w), t, r'; repeat split; auto; [|intros q'; rewrite Stab by discriminate; reflexivity];
         cbn [perr_text]; rewrite <- app_assoc, (opt c _ _ S K ltac:(inop)), (opt t _ _ St Kt ltac:(inop)); eapply re_call; [exact Sf|discriminate|exact Sl]).
      exists (c :: w), t, r'. repeat split; auto. intros r'' Hr. rewrite Stab by discriminate. reflexivity.
    - unfold RejectProofs.local in L |- *. rewrite E in L |- *. cbn [pbind]. destruct L as (p & t & q & Q & R & O & Stab).
      exists p, t, q. repeat split; auto. intros q'. rewrite Stab. reflexivity.
    - unfold RejectProofs.local. rewrite E. exact I.
  Qed.

  Lemma list_stop m x stop c r : peek_is stop (c :: r) = true -> local true false true x (parse_list_loop m stop) (c :: r).
  Proof.
    intros P. destruct m as [|m]; [exact I|]. unfold RejectProofs.local. cbn [parse_list_loop]. rewrite P.
    exists [], c, r. repeat split; auto; [discriminate|]. intros r' Hr. cbn [app].
    replace (peek_is stop (c :: r')) with true; [reflexivity|]. specialize (Hr eq_refl). symmetry.
    unfold peek_is in *. destruct r, r'; cbn [hd_error peek] in *; congruence.
  Qed.
  Lemma map_stop m x c r : peek_is KRb (c :: r) = true -> local true false true x (parse_map_loop m) (c :: r).
  Proof.
    intros P. destruct m as [|m]; [exact I|]. unfold RejectProofs.local. cbn [parse_map_loop]. rewrite P.
    exists [], c, r. repeat split; auto; [discriminate|]. intros r' Hr. cbn [app].
    replace (peek_is KRb (c :: r')) with true; [reflexivity|]. specialize (Hr eq_refl). symmetry.
    unfold peek_is in *. destruct r, r'; cbn [hd_error peek] in *; congruence.
  Qed.

  Definition has (k : kind) (o : option token) : bool := match o with Some t => kind_eqb k (tkind t) | None => false end.
  Lemma has_peek k c r : peek_is k (c :: r) = has k (hd_error r).
  Proof. destruct r; reflexivity. Qed.

  Lemma t_list_loop x stop c r y b u : spelled c -> wf r -> closes (tkind b) stop -> x ++ [c] = y ++ b :: u -> lead u ->
    local true false true x (parse_list_loop (S n) stop) (c :: r).
  Proof.
    intros S W C X Ld. cbn [parse_list_loop].
    apply (local_peek true false x (fun o ts => if has stop o then POk [] ts else
        pbind (parse_expr n prec_min (next ts)) (fun e ts =>
        if peek_is stop ts then pbind (parse_list_loop n stop ts) (fun es ts => POk (e :: es) ts)
        else pbind (expect KComma ts) (fun _ ts => pbind (parse_list_loop n stop ts) (fun es ts => POk (e :: es) ts))))); [side|].
    destruct (has stop (hd_error r)); [apply local_const|].
    apply (lbind true true true true false true); [apply local_next with (o := false) (e := false); auto; now apply (l_expr _ IH)|intros v p c1 r1 E Q|side..].
    destruct (after_expr _ _ _ _ _ _ _ S W E Q) as (w & P & Sx & S1 & W1).
    apply (local_peek true false (x ++ p) (fun o ts => if has stop o then pbind (parse_list_loop n stop ts) (fun es ts => POk (v :: es) ts)
        else pbind (expect KComma ts) (fun _ ts => pbind (parse_list_loop n stop ts) (fun es ts => POk (v :: es) ts)))); [side|].
    pose proof (has_peek stop c1 r1) as HP. destruct (has stop (hd_error r1)) eqn:HS.
    - apply (lbind true false true true false true); [now apply list_stop|intros; apply local_const|side..].
    - assert (NS : forall t, hd_error r1 = Some t -> tkind t <> stop).
      { intros t Ht Kt. rewrite Ht in HS. cbn [has] in HS. apply kind_eqb_neq in HS. congruence. }
      assert (L1 : exists es, es <> [] /\ syntax_list false es (u ++ w)) by (apply (Ld [v] w); [discriminate|now constructor]).
      assert (PX : (x ++ p) ++ [c1] = y ++ b :: u ++ w).
      { rewrite <- app_assoc, P. change (c :: w) with ([c] ++ w). rewrite app_assoc, X, <- app_assoc. reflexivity. }
      apply (lbind false true true true false true); [|intros u' p2 c2 r2 E2 Q2|side..].
      + destruct r1 as [|t1 r1]; [inversion W1|]. unfold RejectProofs.local, expect. cbn [peek next].
        destruct (kind_eqb KComma (tkind t1)) eqn:K.
        * exists [c1], t1, r1. repeat split; auto; [discriminate|]. intros r' _. cbn [app peek next]. rewrite K. reflexivity.
        * exists [c1], t1, r1. repeat split; auto; [|discriminate|].
          -- cbn [perr_text]. apply re_lacks with (k := KComma); [|apply named|apply named].
             rewrite PX. destruct L1 as (es & N & Sl). apply kind_eqb_neq in K. eapply lk_comma; eauto.
          -- intros q'. cbn [app peek next]. rewrite K. reflexivity.
      + destruct (to_expect _ _ _ _ _ _ _ E2 Q2 W1 ltac:(discriminate)) as (-> & S2 & W2 & K2).
        apply (lbind true false true true false true); [|intros; apply local_const|side..].
        apply (l_list_loop _ IH _ _ _ _ y b (u ++ w ++ [c2])); auto.
        * rewrite PX. rewrite <- !app_assoc. cbn [app]. rewrite <- app_assoc. reflexivity.
        * rewrite (opt c2 _ _ S2 K2 ltac:(inop)). eapply lead_more; eauto.
  Qed.

  Lemma t_map_loop x c r y u : spelled c -> wf r -> In (tkind c) [KLb; KComma] -> x ++ [c] = y ++ op KLb "{" :: u -> lead2 u ->
    local true false true x (parse_map_loop (S n)) (c :: r).
  Proof.
    intros S W C X Ld. cbn [parse_map_loop].
    apply (local_peek true false x (fun o ts => if has KRb o then POk [] ts else
        pbind (parse_expr n prec_min (next ts)) (fun k ts =>
        pbind (expect KColon ts) (fun _ ts =>
        pbind (parse_expr n prec_min (next ts)) (fun v ts =>
        if peek_is KRb ts then pbind (parse_map_loop n ts) (fun ps ts => POk ((k, v) :: ps) ts)
        else pbind (expect KComma ts) (fun _ ts => pbind (parse_map_loop n ts) (fun ps ts => POk ((k, v) :: ps) ts))))))); [side|].
    destruct (has KRb (hd_error r)); [apply local_const|].
    apply (lbind true true true true true true); [apply local_next with (o := false) (e := false); auto; now apply (l_expr _ IH)|intros k p c1 r1 E Q|side..].
    destruct (after_expr _ _ _ _ _ _ _ S W E Q) as (wk & P & Sk & S1 & W1).
    apply (lbind false true true true true true); [|intros u' p2 c2 r2 E2 Q2|side..].
    { apply local_expect; auto. intros t N. rewrite <- app_assoc, P. now apply lk_colon with (e := k). }
    destruct (to_expect _ _ _ _ _ _ _ E2 Q2 W1 ltac:(discriminate)) as (-> & S2 & W2 & K2).
    apply (lbind true true true true false true); [apply local_next with (o := false) (e := false); auto; now apply (l_expr _ IH)|intros v p3 c3 r3 E3 Q3|side..].
    destruct (after_expr _ _ _ _ _ _ _ S2 W2 E3 Q3) as (wv & P3 & Sv & S3 & W3).
    apply (local_peek true false (((x ++ p) ++ [c1]) ++ p3) (fun o ts => if has KRb o then pbind (parse_map_loop n ts) (fun ps ts => POk ((k, v) :: ps) ts)
        else pbind (expect KComma ts) (fun _ ts => pbind (parse_map_loop n ts) (fun ps ts => POk ((k, v) :: ps) ts)))); [side|].
    pose proof (has_peek KRb c3 r3) as HP. destruct (has KRb (hd_error r3)) eqn:HS.
    - apply (lbind true false true true false true); [now apply map_stop|intros; apply local_const|side..].
    - assert (NS : forall t, hd_error r3 = Some t -> tkind t <> KRb).
      { intros t Ht Kt. rewrite Ht in HS. cbn [has] in HS. apply kind_eqb_neq in HS. congruence. }
      assert (L1 : exists ps, ps <> [] /\ syntax_pairs false ps (u ++ wk ++ op KColon ":" :: wv)) by (apply (Ld [(k, v)]); [discriminate|now constructor]).
      assert (PX : (((x ++ p) ++ [c1]) ++ p3) ++ [c3] = y ++ op KLb "{" :: u ++ wk ++ op KColon ":" :: wv).
      { rewrite <- (app_assoc x), P, <- app_assoc, P3, (opt c2 _ _ S2 K2 ltac:(inop)). change (c :: wk) with ([c] ++ wk).
        rewrite (app_assoc x), X, <- !app_assoc. reflexivity. }
      apply (lbind false true true true false true); [|intros u4 p4 c4 r4 E4 Q4|side..].
      + destruct r3 as [|t1 r3]; [inversion W3|]. unfold RejectProofs.local, expect. cbn [peek next].
        destruct (kind_eqb KComma (tkind t1)) eqn:K.
        * exists [c3], t1, r3. repeat split; auto; [discriminate|]. intros r' _. cbn [app peek next]. rewrite K. reflexivity.
        * exists [c3], t1, r3. repeat split; auto; [|discriminate|].
          -- cbn [perr_text]. apply re_lacks with (k := KComma); [|apply named|apply named].
             rewrite PX. destruct L1 as (es & N & Sl). apply kind_eqb_neq in K. eapply lk_comma_map; eauto.
          -- intros q'. cbn [app peek next]. rewrite K. reflexivity.
      + destruct (to_expect _ _ _ _ _ _ _ E4 Q4 W3 ltac:(discriminate)) as (-> & S4 & W4 & K4).
        apply (lbind true false true true false true); [|intros; apply local_const|side..].
        apply (l_map_loop _ IH _ _ _ y (u ++ wk ++ op KColon ":" :: wv ++ [c4])); auto.
        * rewrite K4. simpl. auto.
        * rewrite PX. rewrite <- !app_assoc. cbn [app]. rewrite <- !app_assoc. reflexivity.
        * rewrite (opt c4 _ _ S4 K4 ltac:(inop)). eapply lead2_more; eauto.
  Qed.

  Lemma t_array x c r : spelled c -> wf r -> tkind c = KLs -> local false true true x (parse_array (S n)) (c :: r).
  Proof.
    intros S W K. cbn [parse_array]. apply (lbind false true true false false true); [|intros; apply local_const|side..].
    apply (l_list _ IH); auto. unfold closes. rewrite K. simpl. auto.
  Qed.

  Lemma t_map x c r : spelled c -> wf r -> tkind c = KLb -> local false true true x (parse_map (S n)) (c :: r).
  Proof.
    intros S W K. cbn [parse_map].
    apply (lbind true false true false true true); [|intros es p c1 r1 E Q|side..].
    { apply (l_map_loop _ IH) with (y := x) (u := []); auto using lead2_nil; [rewrite K; simpl; auto|]. now rewrite (opt c _ _ S K ltac:(inop)). }
    apply (lbind false true true false false true); [|intros; apply local_const|side..].
    destruct (so_map_loop _ (sound n) _ _ _ (live_cons _ _ S W) E) as (w & A & _). destruct (eats_at _ _ _ _ _ A Q) as (_ & S1 & W1).
    assert (PS : forall m ts es' ts', parse_map_loop m ts = POk es' ts' -> peek_is KRb ts' = true).
    { clear. induction m as [|m IHm]; intros ts es' ts' H; [discriminate|]. cbn [parse_map_loop] in H.
      destruct (peek_is KRb ts) eqn:P; [inversion H; subst; auto|]. pinv H as e0 t0 E0. pinv H as u0 t1 E1. pinv H as v0 t2 E2. destruct (peek_is KRb t2) eqn:P0.
      - pinv H as es0 t3 E3. inversion H; subst. eauto.
      - pinv H as u1 t3 E3. pinv H as es0 t4 E4. inversion H; subst. eauto. }
    apply PS in E. unfold RejectProofs.local, expect. unfold peek_is in E. destruct (peek (c1 :: r1)) as [t|] eqn:PK; [|discriminate].
    rewrite E. destruct r1 as [|t1 r1]; [discriminate|]. cbn [peek next] in *. injection PK as ->.
    exists [c1], t, r1. repeat split; auto; [discriminate|]. intros r' _. cbn [app peek next]. rewrite E. reflexivity.
  Qed.

  Lemma t_block_loop x c r : spelled c -> wf r -> local true false true x (parse_block_loop (S n)) (c :: r).
  Proof.
    intros S W. cbn [parse_block_loop].
    apply (local_peek true false x (fun o ts => if has KRb o then POk [] ts else
        pbind (parse_expr n prec_min (next ts)) (fun e ts => pbind (parse_block_loop n (skip_semi ts)) (fun es ts => POk (e :: es) ts)))); [side|].
    destruct (has KRb (hd_error r)); [apply local_const|].
    apply (lbind true true true true false true); [apply local_next with (o := false) (e := false); auto; now apply (l_expr _ IH)|intros v p c1 r1 E Q|side..].
    destruct (after_expr _ _ _ _ _ _ _ S W E Q) as (w & P & Sx & S1 & W1).
    apply (lbind true false true true false true) with (F := fun ts => parse_block_loop n (skip_semi ts)); [|intros; apply local_const|side..].
    apply (lbind true false true true false true) with (F := fun ts => POk tt (skip_semi ts)) (G := fun _ ts => parse_block_loop n ts); [now apply local_semi|intros u p2 c2 r2 E2 Q2|side..].
    destruct (semi_to _ _ _ _ S1 W1 (f_equal (fun x => match x with POk _ t => t | _ => [] end) E2)) as [S2 W2]. now apply (l_block_loop _ IH).
  Qed.

  Lemma t_block x c r : spelled c -> wf r -> (forall t, tkind t <> KLb -> lacks KLb (x ++ [c]) t) ->
    local false true true x (parse_block (S n)) (c :: r).
  Proof.
    intros S W Lk. cbn [parse_block].
    apply (lbind false true true false true true); [now apply local_expect; auto|intros u p c1 r1 E Q|side..].
    destruct (to_expect _ _ _ _ _ _ _ E Q W ltac:(discriminate)) as (-> & S1 & W1 & K1).
    apply (lbind true false true false true true); [now apply (l_block_loop _ IH)|intros es p2 c2 r2 E2 Q2|side..].
    apply (lbind false true true false false true); [|intros; apply local_const|side..].
    destruct (so_block_loop _ (sound n) _ _ _ (live_cons _ _ S1 W1) E2) as (w & A & _). destruct (eats_at _ _ _ _ _ A Q2) as (_ & S2 & W2).
    assert (PS : forall m ts es' ts', parse_block_loop m ts = POk es' ts' -> peek_is KRb ts' = true).
    { clear. induction m as [|m IHm]; intros ts es' ts' H; [discriminate|]. cbn [parse_block_loop] in H.
      destruct (peek_is KRb ts) eqn:P; [inversion H; subst; auto|]. pinv H as e0 t0 E0. pinv H as es0 t3 E3. inversion H; subst. eauto. }
    apply PS in E2. unfold RejectProofs.local, expect. unfold peek_is in E2. destruct (peek (c2 :: r2)) as [t|] eqn:PK; [|discriminate].
    rewrite E2. destruct r2 as [|t1 r2]; [discriminate|]. cbn [peek next] in *. injection PK as ->.
    exists [c2], t, r2. repeat split; auto; [discriminate|]. intros r' _. cbn [app peek next]. rewrite E2. reflexivity.
  Qed.

  Lemma t_loop x p left c r y w0 : spelled c -> wf r -> x ++ [c] = y ++ w0 -> syntax false left w0 ->
    local true false true x (parse_loop (S n) p left) (c :: r).
  Proof.
    intros S W X Sx. cbn [parse_loop].
    apply (local_peek true false x (fun o ts =>
      if negb (has KSemi o) && (p <? match o with Some t => precedence (tkind t) | None => 0 end) then
        match o with
        | Some t =>
            if is_binop (tkind t) then pbind (parse_binary n left (next ts)) (fun e ts => parse_loop n p e ts)
            else
              match tkind t with
              | KLp => pbind (parse_call n left (next ts)) (fun e ts => parse_loop n p e ts)
              | KLs => pbind (parse_index n left (next ts)) (fun e ts => parse_loop n p e ts)
              | KDot => pbind (parse_field left (next ts)) (fun e ts => parse_loop n p e ts)
              | _ => parse_loop n p left ts
              end
        | None => parse_loop n p left ts
        end
      else POk left ts)); [side|].
    destruct r as [|t r]; [inversion W|]. cbn [hd_error].
    destruct (negb (has KSemi (Some t)) && (p <? precedence (tkind t))) eqn:Go; [|apply local_const].
    assert (NX : next (c :: t :: r) = t :: r) by reflexivity.
    assert (Spin : local true false true x (parse_loop n p left) (c :: t :: r)) by (eapply (l_loop _ IH); eauto).
    assert (ST : forall w, c :: t :: w = [c] ++ t :: w) by reflexivity.
    assert (AT : forall (p1 : toks) c1 r1 w, c :: t :: r = p1 ++ c1 :: r1 -> eats (t :: r) (t :: w) (c1 :: r1) ->
      (x ++ p1) ++ [c1] = y ++ w0 ++ t :: w /\ spelled c1 /\ wf r1).
    { intros p1 c1 r1 w Q A. destruct A as (u & t' & r0 & E & [= <- <-] & E2 & S' & W').
      assert (p1 = c :: u). { apply (app_inv_tail (c1 :: r1)). rewrite <- Q, E. reflexivity. } subst p1. split; auto.
      rewrite <- app_assoc. cbn [app]. rewrite <- E2. rewrite ST, !app_assoc, X. reflexivity. }
    destruct (is_binop (tkind t)) eqn:B.
    - assert (KE : tkind t <> KEof) by (intros K; rewrite K in B; discriminate). destruct (wf_hd _ _ W KE) as [S1 W1].
      apply (lbind true true true true false true) with (F := fun ts => parse_binary n left (next ts)); [|intros v p1 c1 r1 E Q|side..].
      { apply local_next with (o := true) (e := true); [discriminate|]. now apply (l_binary _ IH). }
      rewrite NX in E. destruct (so_binary _ (sound n) _ _ _ _ (live_cons _ _ S1 W1) E) as (rr & w & -> & A & Sr & _). cbn [current] in *.
      destruct (AT _ _ _ _ Q A) as (PX & S2 & W2).
      apply (l_loop _ IH _ _ _ _ _ y (w0 ++ t :: w)); auto. constructor; auto. now apply binary_iff.
    - destruct (tkind t) eqn:KT; try exact Spin.
      + (* field *)
        destruct (wf_hd _ _ W ltac:(congruence)) as [S1 W1].
        apply (lbind false true true true false true) with (F := fun ts => parse_field left (next ts)); [|intros v p1 c1 r1 E Q|side..].
        { apply local_next with (o := true) (e := true); [discriminate|]. unfold parse_field.
          apply (lbind false true true false false true); [|intros; exact (local_ret _ _ _ (fun t => EField left (tlit t)) _ _)|side..].
          apply local_expect; auto. intros t' N. apply lk_ident; auto. rewrite KT. simpl. auto. }
        rewrite NX in E. unfold parse_field in E. destruct (expect KIdent (t :: r)) as [u ts'|?|] eqn:EX; try discriminate E. cbn [pbind] in E.
        injection E as <- ->. destruct (expect_to _ _ _ _ _ _ EX) as [-> K1]. destruct (wf_hd _ _ W1 ltac:(congruence)) as [S2 W2].
        assert (A : eats (t :: c1 :: r1) (t :: [c1]) (c1 :: r1)) by (exists [t], c1, r1; repeat split; auto).
        destruct (AT _ _ _ _ Q A) as (PX & _ & _).
        apply (l_loop _ IH _ _ _ _ _ y (w0 ++ [t; c1])); auto. cbn [current].
        rewrite (opt t _ _ S1 KT ltac:(inop)). rewrite (tok_eta _ _ K1) at 2. now constructor.
      + (* call *)
        destruct (wf_hd _ _ W ltac:(congruence)) as [S1 W1].
        apply (lbind false true true true false true) with (F := fun ts => parse_call n left (next ts)); [|intros v p1 c1 r1 E Q|side..].
        { apply local_next with (o := true) (e := true); [discriminate|]. eapply (l_call _ IH); eauto. }
        rewrite NX in E. destruct (so_call _ (sound n) _ _ _ _ (live_cons _ _ S1 W1) KT E) as (nm & es & w & -> & -> & A & Sl & _).
        pose proof (opt t _ (lit "(") S1 KT ltac:(inop)) as Ht. unfold op in A. rewrite <- Ht in A.
        destruct (AT _ _ _ _ Q A) as (PX & S2 & W2).
        apply (l_loop _ IH _ _ _ _ _ y (w0 ++ t :: w ++ [op KRp ")"])); auto.
        inversion Sx; subst. cbn [app]. now constructor.
      + (* index *)
        destruct (wf_hd _ _ W ltac:(congruence)) as [S1 W1].
        apply (lbind false true true true false true) with (F := fun ts => parse_index n left (next ts)); [|intros v p1 c1 r1 E Q|side..].
        { apply local_next with (o := true) (e := true); [discriminate|]. now apply (l_index _ IH). }
        rewrite NX in E. destruct (so_index _ (sound n) _ _ _ _ (live_cons _ _ S1 W1) KT E) as (i & w & -> & A & Si & _).
        pose proof (opt t _ (lit "[") S1 KT ltac:(inop)) as Ht. unfold op in A. rewrite <- Ht in A.
        destruct (AT _ _ _ _ Q A) as (PX & S2 & W2).
        apply (l_loop _ IH _ _ _ _ _ y (w0 ++ t :: w ++ [op KRs "]"])); auto.
        rewrite Ht. now constructor.
  Qed.

  Lemma t_expr x p ts : wf ts -> local true false false x (parse_expr (S n) p) ts.
  Proof.
    intros W. destruct (wf_nonempty _ W) as (c & r & ->). cbn [parse_expr].
    assert (Bad : ~ In (tkind c) starters -> local true false false x (fun ts => @PErr expr (EBadExpr (tlit c))) (c :: r)).
    { intros N. unfold RejectProofs.local. exists [], c, r. repeat split; auto; [|discriminate]. now constructor. }
    apply (local_current true false false x (fun t ts =>
      match tkind t with
      | KIdent => parse_loop n p (EIdent (tlit t)) ts
      | KInteger => pbind (parse_integer_literal ts) (fun e ts => parse_loop n p e ts)
      | KFloat => pbind (parse_float_literal ts) (fun e ts => parse_loop n p e ts)
      | KTrue | KFalse => pbind (parse_boolean_literal ts) (fun e ts => parse_loop n p e ts)
      | KString => parse_loop n p (EStr (tlit t)) ts
      | KLet => pbind (parse_let n ts) (fun e ts => parse_loop n prec_max e ts)
      | KNot | KSub => pbind (parse_unary n ts) (fun e ts => parse_loop n p e ts)
      | KLp => pbind (parse_paren n ts) (fun e ts => parse_loop n p e ts)
      | KIf => pbind (parse_if n ts) (fun e ts => parse_loop n p e ts)
      | KLs => pbind (parse_array n ts) (fun e ts => parse_loop n p e ts)
      | KLb => pbind (parse_map n ts) (fun e ts => parse_loop n p e ts)
      | _ => PErr (EBadExpr (tlit t))
      end)).
    destruct (kind_eq_dec (tkind c) KEof) as [KE|KE]; [rewrite KE in *; apply Bad; simpl; intuition discriminate|].
    destruct (wf_hd _ _ W KE) as [S1 W1]. pose proof (live_cons _ _ S1 W1) as L.
    assert (After : forall (la o e : bool) pr (F : toks -> pres expr), (e = true \/ e = false) -> local la true true x F (c :: r) ->
      (forall v c1 r1, F (c :: r) = POk v (c1 :: r1) -> exists w, eats (c :: r) w (c1 :: r1) /\ syntax false v w) ->
      local true false false x (fun ts => pbind (F ts) (fun e ts => parse_loop n pr e ts)) (c :: r)).
    { intros la o e pr F _ LF Post. apply (lbind la true true true false true); [exact LF|intros v p1 c1 r1 E Q|side..].
      destruct (Post _ _ _ E) as (w & A & Sx). destruct (eats_at _ _ _ _ _ A Q) as (-> & S2 & W2).
      apply (l_loop _ IH _ _ _ _ _ x (p1 ++ [c1])); auto. now rewrite app_assoc. }
    assert (Lit : forall (v : expr) (F : toks -> pres expr), (forall r', F (c :: r') = POk v (c :: r')) -> syntax false v [c] ->
      local true false false x (fun ts => pbind (F ts) (fun e ts => parse_loop n p e ts)) (c :: r)).
    { intros v F HF Sv. apply (lbind false false true true false true); [|intros v' p1 c1 r1 E Q|side..].
      - unfold RejectProofs.local. rewrite HF. exists [], c, r. repeat split; auto; [discriminate|]. intros r' _. apply HF.
      - rewrite HF in E. injection E as <- <- <-. assert (p1 = []) by (apply (app_inv_tail (c :: r)); symmetry; exact Q). subst p1.
        rewrite app_nil_r. apply (l_loop _ IH _ _ _ _ _ x [c]); auto. }
    assert (Err : forall (F : toks -> pres expr) er, (forall r', F (c :: r') = PErr er) -> reason (perr_text er) (x ++ []) c ->
      local true false false x (fun ts => pbind (F ts) (fun e ts => parse_loop n p e ts)) (c :: r)).
    { intros F er HF R. unfold RejectProofs.local. rewrite HF. cbn [pbind]. exists [], c, r. repeat split; auto; [discriminate|].
      intros q'. cbn [app]. rewrite HF. reflexivity. }
    destruct (tkind c) eqn:K; try (apply Bad; simpl; intuition discriminate).
    - eapply local_weaken with (la := true) (o := false) (e := true); [auto..|discriminate|]. apply (l_loop _ IH _ _ _ _ _ x [c]); auto. clear - K. destruct c as [k l]. cbn in K. subst k. constructor.
    - (* integer *)
      destruct (digits_val 0 (tlit c)) as [z|] eqn:D.
      + pose proof (digits_val_digits _ _ _ D) as DD. rewrite (digits_val_decimal _ DD) in D. injection D as <-.
        destruct (Z.of_N (decimal (tlit c)) <=? i64_max)%Z eqn:Le.
        * apply (Lit (EInt (Z.of_N (decimal (tlit c))))).
          -- intros r'. unfold parse_integer_literal. cbn [current]. rewrite (digits_val_decimal _ DD), Le. reflexivity.
          -- rewrite (tok_eta _ _ K) at 2. constructor; auto; [now apply spelled_integer|]. unfold i64_max in Le. apply Z.leb_le in Le. lia.
        * apply (Err _ (EBadInt (tlit c))).
          -- intros r'. unfold parse_integer_literal. cbn [current]. rewrite (digits_val_decimal _ DD), Le. reflexivity.
          -- cbn [perr_text]. rewrite (tok_eta _ _ K) at 2. constructor. unfold i64_max in Le. apply Z.leb_gt in Le. lia.
      + exfalso. rewrite (digits_val_decimal _ (integer_digits _ S1 K)) in D. discriminate.
    - (* float *)
      destruct (parse_f64 (tlit c)) as [f|] eqn:D.
      + apply (Lit (EFloat f)).
        * intros r'. unfold parse_float_literal. cbn [current]. rewrite D. reflexivity.
        * rewrite (tok_eta _ _ K). constructor. now apply FloatLiteral.parse_f64_iff.
      + apply (Err _ (EBadFloat (tlit c))).
        * intros r'. unfold parse_float_literal. cbn [current]. rewrite D. reflexivity.
        * cbn [perr_text]. rewrite (tok_eta _ _ K) at 2. constructor. intros f F. apply FloatLiteral.parse_f64_iff in F. congruence.
    - apply (Lit (EBool true)); rewrite (opt c _ _ S1 K ltac:(inop)); [reflexivity|constructor].
    - apply (Lit (EBool false)); rewrite (opt c _ _ S1 K ltac:(inop)); [reflexivity|constructor].
    - eapply local_weaken with (la := true) (o := false) (e := true); [auto..|discriminate|]. apply (l_loop _ IH _ _ _ _ _ x [c]); auto. clear - K. destruct c as [k l]. cbn in K. subst k. constructor.
    - apply (After true true true); auto; [now apply (l_unary _ IH)|]. intros v c1 r1 E.
      destruct (so_unary _ (sound n) _ _ _ L ltac:(right; auto) E) as ((w & A & Sx & _) & _). eauto.
    - apply (After true true true); auto; [now apply (l_unary _ IH)|]. intros v c1 r1 E.
      destruct (so_unary _ (sound n) _ _ _ L ltac:(left; auto) E) as ((w & A & Sx & _) & _). eauto.
    - apply (After false true true); auto; [now apply (l_paren _ IH)|]. intros v c1 r1 E.
      destruct (so_paren _ (sound n) _ _ _ L K E) as ((w & A & Sx & _) & _). eauto.
    - apply (After false true true); auto; [now apply (l_map _ IH)|]. intros v c1 r1 E.
      destruct (so_map _ (sound n) _ _ _ L K E) as ((w & A & Sx & _) & _). eauto.
    - apply (After false true true); auto; [now apply (l_array _ IH)|]. intros v c1 r1 E.
      destruct (so_array _ (sound n) _ _ _ L K E) as ((w & A & Sx & _) & _). eauto.
    - apply (After true true true); auto; [now apply (l_let _ IH)|]. intros v c1 r1 E.
      destruct (so_let _ (sound n) _ _ _ L K E) as ((w & A & Sx & _) & _). eauto.
    - apply (After true true true); auto; [now apply (l_if _ IH)|]. intros v c1 r1 E.
      destruct (so_if _ (sound n) _ _ _ L K E) as ((w & A & Sx & _) & _). eauto.
  Qed.
  End Step.

  Lemma local_all n : local_at n.
  Proof.
    induction n as [|n IH].
    - constructor; intros; exact I.
    - constructor; intros; eauto using t_expr, t_loop, t_let, t_unary, t_binary, t_paren, t_if, t_call, t_list, t_list_loop, t_array, t_map,
        t_map_loop, t_index, t_block, t_block_loop.
  Qed.

  Ltac side := solve [left; reflexivity | right; split; [reflexivity|left; reflexivity] | right; split; [reflexivity|right; reflexivity]
                     | intros _; reflexivity | discriminate | auto].

  Lemma t_request n x c r : spelled c -> wf r -> tkind c = KRequest -> local true true true x (parse_request n) (c :: r).
  Proof.
    intros S W K. unfold parse_request.
    apply (lbind false true true true true true); [|intros u p c1 r1 E Q|side..].
    { apply local_expect; auto. intros t N. apply lk_ident; auto. rewrite K. simpl. auto. }
    destruct (to_expect _ _ _ _ _ _ _ E Q W ltac:(discriminate)) as (-> & S1 & W1 & K1). cbv zeta.
    apply (local_current true true true (x ++ [c]) (fun t ts => pbind (expect KTemplate ts) (fun _ ts =>
      if peek_is KLs ts then pbind (parse_list n KRs (next ts)) (fun asserts ts0 => POk (tlit t, tlit (current ts), asserts) ts0)
      else POk (tlit t, tlit (current ts), []) ts))).
    apply (lbind false true true true false true); [|intros u' p c2 r2 E' Q'|side..].
    { apply local_expect; auto. intros t N. rewrite <- app_assoc. cbn [app]. rewrite (opt c _ _ S K ltac:(inop)), (tok_eta _ _ K1). now apply lk_template. }
    destruct (to_expect _ _ _ _ _ _ _ E' Q' W1 ltac:(discriminate)) as (-> & S2 & W2 & K2).
    apply (local_current true false true ((x ++ [c]) ++ [c1]) (fun t ts =>
      if peek_is KLs ts then pbind (parse_list n KRs (next ts)) (fun asserts ts0 => POk (tlit c1, tlit t, asserts) ts0)
      else POk (tlit c1, tlit t, []) ts)).
    apply (local_peek true false ((x ++ [c]) ++ [c1]) (fun o ts => if has KLs o then pbind (parse_list n KRs (next ts)) (fun asserts ts0 => POk (tlit c1, tlit c2, asserts) ts0)
      else POk (tlit c1, tlit c2, []) ts)); [side|].
    destruct r2 as [|t r2]; [inversion W2|]. cbn [hd_error has]. destruct (kind_eqb KLs (tkind t)) eqn:KL; [|apply local_const].
    apply kind_eqb_eq in KL. destruct (wf_hd _ _ W2 ltac:(congruence)) as [S3 W3].
    apply (lbind false true true true false true) with (F := fun ts => parse_list n KRs (next ts)); [|intros; apply local_const|side..].
    apply local_next with (o := true) (e := true); [discriminate|]. apply (l_list _ (local_all n)); auto. unfold closes. rewrite <- KL. simpl. auto.
  Qed.

  Lemma t_test n x c r : spelled c -> wf r -> tkind c = KTest -> local true true true x (parse_test n) (c :: r).
  Proof.
    intros S W K. unfold parse_test.
    apply (lbind false true true true true true); [|intros u p c1 r1 E Q|side..].
    { apply local_expect; auto. intros t N. apply lk_ident; auto. rewrite K. simpl. auto. }
    destruct (to_expect _ _ _ _ _ _ _ E Q W ltac:(discriminate)) as (-> & S1 & W1 & K1). cbv zeta.
    apply (local_current true true true (x ++ [c]) (fun t ts => pbind (parse_block n ts) (fun block ts => POk (tlit t, block) ts))).
    apply (lbind false true true true false true); [|intros; apply local_const|side..].
    apply (l_block _ (local_all n)); auto. intros t N. rewrite <- app_assoc. cbn [app]. rewrite (opt c _ _ S K ltac:(inop)), (tok_eta _ _ K1). now apply lk_lb_test.
  Qed.

  Lemma t_top n : forall x src ts, wf ts -> local false false false x (parse_top n src) ts.
  Proof.
    induction n as [|n IH]; intros x src ts W; [exact I|]. destruct (wf_nonempty _ W) as (c & r & ->). cbn [parse_top].
    apply (local_current false false false x (fun t ts =>
      match tkind t with
      | KEof => POk src ts
      | KRequest =>
          pbind (parse_request n ts) (fun '(name, message, asserts) ts =>
          parse_top n (Source (s_exprs src) (mset name (message, asserts) (s_requests src)) (s_tests src)) (next (skip_semi ts)))
      | KTest =>
          pbind (parse_test n ts) (fun '(name, block) ts =>
          parse_top n (Source (s_exprs src) (s_requests src) (mset name block (s_tests src))) (next (skip_semi ts)))
      | _ =>
          pbind (parse_expr n prec_min ts) (fun e ts =>
          parse_top n (Source (s_exprs src ++ [e]) (s_requests src) (s_tests src)) (next (skip_semi ts)))
      end)).
    assert (Rest : forall x src c r, spelled c -> wf r -> local false true true x (fun ts => parse_top n src (next (skip_semi ts))) (c :: r)).
    { clear - IH. intros x src c r S W.
      apply (lbind true false true false true true) with (F := fun ts => POk tt (skip_semi ts)) (G := fun _ ts => parse_top n src (next ts)); [now apply local_semi|intros u p2 c2 r2 E2 Q2|side..].
      destruct (semi_to _ _ _ _ S W (f_equal (fun x => match x with POk _ t => t | _ => [] end) E2)) as [S2 W2].
      apply local_next with (o := false) (e := false); auto. }
    destruct (kind_eq_dec (tkind c) KEof) as [KE|KE]; [rewrite KE; apply local_const|].
    destruct (wf_hd _ _ W KE) as [S1 W1]. pose proof (live_cons _ _ S1 W1) as L.
    assert (Ex : local false false false x (fun ts => pbind (parse_expr n prec_min ts) (fun e ts =>
          parse_top n (Source (s_exprs src ++ [e]) (s_requests src) (s_tests src)) (next (skip_semi ts)))) (c :: r)).
    { apply (lbind true false false false true true); [now apply (l_expr _ (local_all n))|intros v p c1 r1 E Q|side..].
      destruct (so_expr _ (sound n) _ _ _ _ W E) as (w & A & _). destruct (eats_at _ _ _ _ _ A Q) as (_ & S2 & W2). now apply Rest. }
    destruct (tkind c) eqn:K; try exact Ex; [congruence| |].
    - apply (lbind true true true false true true); [now apply t_request|intros [[nm m] es] p c1 r1 E Q|side..].
      destruct (request_sound _ _ _ _ L K E) as (w & A & _). destruct (eats_at _ _ _ _ _ A Q) as (_ & S2 & W2). now apply Rest.
    - apply (lbind true true true false true true); [now apply t_test|intros [nm b] p c1 r1 E Q|side..].
      destruct (test_sound _ _ _ _ L K E) as (w & A & _). destruct (eats_at _ _ _ _ _ A Q) as (_ & S2 & W2). now apply Rest.
  Qed.
End Steps.

Theorem rejected_reason text e : parse text = Err e -> exists p t q, segment text = p ++ t :: q /\ reason (perr_text e) p t /\
  forall text' q', segment text' = p ++ t :: q' -> parse text' = Err e.
Proof.
  unfold parse. destruct (parse_fuel (fuel_for (segment text)) (segment text)) as [src ts|er|] eqn:E; try discriminate. intros [= <-].
  pose proof (t_top (fuel_for (segment text)) [] (Source [] [] []) (segment text) (wf_segment text)) as L.
  unfold local in L. unfold parse_fuel in E. rewrite E in L. destruct L as (p & t & q & Q & R & _ & Stab).
  exists p, t, q. repeat split; auto. intros text' q' Q'. specialize (Stab q'). rewrite <- Q' in Stab.
  rewrite (fuel_suffices text' (fuel_for (segment text))); unfold parse_fuel; rewrite Stab; [reflexivity|discriminate].
Qed.
