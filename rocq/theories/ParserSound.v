(** What the parser accepts is the concrete syntax of what it returns, and
    respects precedence *)
From Verif Require Import Parser SpecSyntax TextProofs LexerProofs ParserBase FloatLiteral.
Open Scope N_scope.

(** [eats ts w ts']: going from [ts] to [ts'] consumes the tokens [w], the last
    of which is the current token of [ts'] *)
Definition eats (ts w ts' : toks) : Prop :=
  exists u t r, ts = u ++ t :: r /\ ts' = t :: r /\ w = u ++ [t] /\ spelled t /\ wf r.

Lemma eats_live ts w ts' : eats ts w ts' -> live ts'.
Proof. intros (u & t & r & -> & -> & -> & S & W). exists t, r; auto. Qed.

Lemma eats_length ts w ts' : eats ts w ts' -> (length ts + 1 = length w + length ts')%nat.
Proof. intros (u & t & r & -> & -> & -> & S & W). rewrite !app_length. simpl. lia. Qed.

Lemma eats_app ts w ts' : eats ts w ts' -> ts = w ++ tl ts'.
Proof. intros (u & t & r & -> & -> & -> & S & W). rewrite <- app_assoc. reflexivity. Qed.

Lemma eats_one ts : live ts -> eats ts [current ts] ts.
Proof. intros (t & r & -> & S & W). exists [], t, r; auto. Qed.

Lemma eats_step ts w ts' w' ts'' : eats ts w ts' -> eats (next ts') w' ts'' -> eats ts (w ++ w') ts''.
Proof.
  intros E (u' & t' & r' & E' & -> & -> & S' & W').
  pose proof (live_next _ (eats_live _ _ _ E)) as (_ & t1 & N & _).
  destruct E as (u & t & r & -> & -> & -> & S & W). assert (N' : r = next (t :: r)) by (injection N; auto). rewrite E' in N'.
  exists ((u ++ [t]) ++ u'), t', r'. repeat split; auto.
  - rewrite <- !app_assoc. simpl. now rewrite <- N'.
  - now rewrite <- !app_assoc.
Qed.

Lemma eats_expect ts w ts' k u ts'' : eats ts w ts' -> expect k ts' = POk u ts'' -> k <> KEof ->
  exists t, eats ts (w ++ [t]) ts'' /\ tkind t = k /\ spelled t /\ current ts'' = t.
Proof.
  intros E X N. destruct (expect_ok _ _ _ _ (eats_live _ _ _ E) N X) as (t0 & t & r & -> & -> & K & S & W).
  exists t. split; [|auto]. eapply eats_step; eauto. simpl.
  replace [t] with [current (t :: r)] by reflexivity. apply eats_one. exists t, r; auto.
Qed.

Lemma eats_peek ts w ts' k : eats ts w ts' -> peek_is k ts' = true -> k <> KEof ->
  exists t, eats ts (w ++ [t]) (next ts') /\ tkind t = k /\ spelled t /\ current (next ts') = t.
Proof.
  intros E X N. destruct (peek_is_ok _ _ (eats_live _ _ _ E) N X) as (t0 & t & r & -> & K & S & W & _).
  exists t. split; [|auto]. eapply eats_step; eauto. simpl.
  replace [t] with [current (t :: r)] by reflexivity. apply eats_one. exists t, r; auto.
Qed.

Lemma eats_glue ts w ts' c w' ts'' : eats ts w ts' -> eats ts' (c :: w') ts'' -> eats ts (w ++ w') ts''.
Proof.
  intros (u & t & r & -> & -> & -> & S & W) (u' & t' & r' & E' & -> & W1 & S' & W').
  destruct u' as [|c' u']; simpl in *; inversion E'; subst; inversion W1; subst.
  - rewrite app_nil_r. exists u, t', r'. auto.
  - exists (u ++ c' :: u'), t', r'. rewrite <- !app_assoc. simpl. auto.
Qed.

Lemma eats_wf_next ts w ts' : eats ts w ts' -> wf (next ts').
Proof. intros E. apply live_next. eapply eats_live; eauto. Qed.

(** properties of trees *)
Lemma everywhere_fix P es :
  (fix all (l : list expr) : Prop := match l with [] => True | e :: l => everywhere P e /\ all l end) es
  <-> Forall (everywhere P) es.
Proof. induction es as [|e es IH]; split; intros H; auto; [constructor; tauto|inversion H; tauto]. Qed.
Lemma everywhere_fix2 P ps :
  (fix all2 (l : list (expr * expr)) : Prop :=
      match l with [] => True | (k, v) :: l => everywhere P k /\ everywhere P v /\ all2 l end) ps
  <-> Forall (fun kv => everywhere P (fst kv) /\ everywhere P (snd kv)) ps.
Proof. induction ps as [|[k v] ps IH]; split; intros H; auto; [constructor; simpl; tauto|inversion H; simpl in *; tauto]. Qed.

Lemma everywhere_eq P e : everywhere P e <-> P e /\
  match e with
  | EInt _ | EFloat _ | EBool _ | EStr _ | EIdent _ => True
  | EArr es => Forall (everywhere P) es
  | EMap ps => Forall (fun kv => everywhere P (fst kv) /\ everywhere P (snd kv)) ps
  | EIndex e i => everywhere P e /\ everywhere P i
  | EField e _ => everywhere P e
  | ELet _ e => everywhere P e
  | EUn _ e => everywhere P e
  | EBin _ l r => everywhere P l /\ everywhere P r
  | EParen e => everywhere P e
  | EIf c cs alt => everywhere P c /\ Forall (everywhere P) cs /\ Forall (everywhere P) alt
  | ECall _ es => Forall (everywhere P) es
  end.
Proof.
  destruct e; cbn [everywhere]; rewrite ?everywhere_fix, ?everywhere_fix2; reflexivity.
Qed.

Definition nlo := no_let_operand.
Definition good (e : expr) : Prop := nlo e -> prec_ok e.
Definition goods (es : list expr) : Prop := Forall good es.
Definition goods2 (ps : list (expr * expr)) : Prop := Forall (fun kv => good (fst kv) /\ good (snd kv)) ps.

Lemma goods_all es : goods es -> Forall nlo es -> Forall prec_ok es.
Proof. intros G. induction G; intros N; constructor; inversion N; subst; auto. Qed.
Lemma goods2_all ps : goods2 ps -> Forall (fun kv => nlo (fst kv) /\ nlo (snd kv)) ps ->
  Forall (fun kv => prec_ok (fst kv) /\ prec_ok (snd kv)) ps.
Proof. intros G. induction G as [|kv ps [A B] G IH]; intros N; constructor; inversion N; subst; auto. split; [apply A|apply B]; tauto. Qed.

Definition above (p : N) (e : expr) : Prop := forall t a b, e = EBin t a b -> p < precedence (tkind t).
(** the precedence up to which operators may follow *)
Definition lvl (e : expr) : N :=
  match e with EBin t _ _ => precedence (tkind t) | EUn _ _ => 11 | _ => 13 end.

Definition expr_post p ts e ts' : Prop :=
  exists w, eats ts w ts' /\ syntax false e w /\
    (nlo e -> prec_ok e /\ (is_let e \/ (peek_precedence ts' <= p /\ above p e))).

Definition loop_inv p e ts : Prop :=
  nlo e -> prec_ok e /\ ((is_let e /\ 13 <= p) \/ (~ is_let e /\ peek_precedence ts <= lvl e /\ above p e)).
Definition loop_post p left ts e ts' : Prop :=
  loop_inv p left ts -> forall ts0 w0, eats ts0 w0 ts -> syntax false left w0 ->
  exists w, eats ts0 w ts' /\ syntax false e w /\
    (nlo e -> prec_ok e /\ (is_let e \/ (peek_precedence ts' <= p /\ above p e))).

(** for functions that start at the first token of what they return *)
Definition prim_post ts e ts' : Prop := exists w, eats ts w ts' /\ syntax false e w /\ good e.
Definition list_post stop ts es ts' : Prop :=
  exists w t, eats ts (current ts :: w ++ [t]) ts' /\ tkind t = stop /\ spelled t /\ syntax_list false es w /\ goods es.
Definition list_loop_post ts es ts' : Prop :=
  exists w, eats ts (current ts :: w) ts' /\ syntax_list false es w /\ goods es.
Definition map_loop_post ts ps ts' : Prop :=
  exists w, eats ts (current ts :: w) ts' /\ syntax_pairs false ps w /\ goods2 ps.
Definition block_loop_post ts es ts' : Prop :=
  exists w, eats ts (current ts :: w) ts' /\ syntax_block false es w /\ goods es.
Definition block_post ts es ts' : Prop :=
  exists w, eats ts (current ts :: op KLb "{" :: w ++ [op KRb "}"]) ts' /\ syntax_block false es w /\ goods es.

Record sound_at (n : nat) : Prop := {
  so_expr : forall p ts e ts', wf ts -> parse_expr n p ts = POk e ts' -> expr_post p ts e ts';
  so_loop : forall p l ts e ts', live ts -> parse_loop n p l ts = POk e ts' -> loop_post p l ts e ts';
  so_let : forall ts e ts', live ts -> tkind (current ts) = KLet -> parse_let n ts = POk e ts' ->
    prim_post ts e ts' /\ is_let e;
  so_unary : forall ts e ts', live ts -> unary (tkind (current ts)) -> parse_unary n ts = POk e ts' ->
    prim_post ts e ts' /\ is_unary e /\ (nlo e -> peek_precedence ts' <= 11);
  so_binary : forall l ts e ts', live ts -> parse_binary n l ts = POk e ts' ->
    exists r w, e = EBin (current ts) l r /\ eats ts (current ts :: w) ts' /\ syntax false r w /\
      (nlo r -> prec_ok r /\ (is_let r \/ (peek_precedence ts' <= precedence (tkind (current ts)) /\
                                           above (precedence (tkind (current ts))) r)));
  so_paren : forall ts e ts', live ts -> tkind (current ts) = KLp -> parse_paren n ts = POk e ts' ->
    prim_post ts e ts' /\ exists v, e = EParen v;
  so_if : forall ts e ts', live ts -> tkind (current ts) = KIf -> parse_if n ts = POk e ts' ->
    prim_post ts e ts' /\ exists c a b, e = EIf c a b;
  so_call : forall f ts e ts', live ts -> tkind (current ts) = KLp -> parse_call n f ts = POk e ts' ->
    exists name es w, f = EIdent name /\ e = ECall name es /\
      eats ts (op KLp "(" :: w ++ [op KRp ")"]) ts' /\ syntax_list false es w /\ goods es;
  so_list : forall stop ts es ts', live ts -> parse_list n stop ts = POk es ts' -> stop <> KEof -> list_post stop ts es ts';
  so_list_loop : forall stop ts es ts', live ts -> parse_list_loop n stop ts = POk es ts' -> list_loop_post ts es ts';
  so_array : forall ts e ts', live ts -> tkind (current ts) = KLs -> parse_array n ts = POk e ts' ->
    prim_post ts e ts' /\ exists es, e = EArr es;
  so_map : forall ts e ts', live ts -> tkind (current ts) = KLb -> parse_map n ts = POk e ts' ->
    prim_post ts e ts' /\ exists ps, e = EMap ps;
  so_map_loop : forall ts ps ts', live ts -> parse_map_loop n ts = POk ps ts' -> map_loop_post ts ps ts';
  so_index : forall l ts e ts', live ts -> tkind (current ts) = KLs -> parse_index n l ts = POk e ts' ->
    exists i w, e = EIndex l i /\ eats ts (op KLs "[" :: w ++ [op KRs "]"]) ts' /\ syntax false i w /\ good i;
  so_block : forall ts es ts', live ts -> parse_block n ts = POk es ts' -> block_post ts es ts';
  so_block_loop : forall ts es ts', live ts -> parse_block_loop n ts = POk es ts' -> block_loop_post ts es ts'
}.

Tactic Notation "pinv" hyp(H) "as" ident(a) ident(t) ident(E) :=
  match type of H with
  | pbind ?x ?f = POk _ _ => destruct x as [a t|?|] eqn:E; cbn [pbind] in H; try discriminate H
  end.
Ltac inop := apply in_or_app; (left; simpl; tauto) || (right; simpl; tauto).
Ltac isop S K := let E := fresh in pose proof (spelled_op _ _ _ S K ltac:(inop)) as E.

(** identifier-like tokens: kind and literal determine the token *)
Lemma tok_eta t k : tkind t = k -> t = Tok k (tlit t).
Proof. intros <-. now destruct t. Qed.

Lemma spelled_integer t : spelled t -> tkind t = KInteger -> tlit t <> [].
Proof.
  intros [w S] K.
  inversion S as [k s A|c s A B|c s A B D|k s A|c s A B D|k d body A B|c A B D F G]; subst; simpl in *; try discriminate; exfalso;
    repeat match goal with X : _ \/ _ |- _ => destruct X end; try contradiction;
    match goal with X : (_, _) = (_, _) |- _ => inversion X end; subst; discriminate.
Qed.

Section Step.
  Variable n : nat.
  Hypothesis IH : sound_at n.

  Lemma post_good p ts e ts' : expr_post p ts e ts' -> exists w, eats ts w ts' /\ syntax false e w /\ good e.
  Proof. intros (w & A & B & C). exists w. repeat split; auto. intros N. apply C; auto. Qed.

  Ltac neof := let X := fresh in intro X; discriminate X.

  Lemma current_op ts k s : live ts -> tkind (current ts) = k -> In (k, s) (operators ++ keywords) -> current ts = Tok k s.
  Proof. intros (t & r & -> & S & _) K I. simpl in *. now apply spelled_op. Qed.

  Lemma step_let ts e ts' : live ts -> tkind (current ts) = KLet -> parse_let (S n) ts = POk e ts' ->
    prim_post ts e ts' /\ is_let e.
  Proof.
    intros L K H. cbn [parse_let] in H. cbv zeta in H.
    pinv H as u1 ts1 E1. pinv H as u2 ts2 E2. pinv H as v ts3 E3. inversion H; subst; clear H. split; [|exact I].
    pose proof (eats_one _ L) as A0.
    destruct (eats_expect _ _ _ _ _ _ A0 E1 ltac:(neof)) as (t1 & A1 & K1 & S1 & C1).
    destruct (eats_expect _ _ _ _ _ _ A1 E2 ltac:(neof)) as (t2 & A2 & K2 & S2 & _).
    destruct (post_good _ _ _ _ (so_expr _ IH _ _ _ _ (eats_wf_next _ _ _ A2) E3)) as (w & A3 & Sx & G).
    pose proof (eats_step _ _ _ _ _ A2 A3) as A4.
    rewrite C1.
    assert (G' : good (ELet (tlit t1) v)).
    { intros N. apply everywhere_eq in N. apply everywhere_eq. split; auto. apply G. apply N. }
    rewrite (current_op ts _ (lit "let") L K ltac:(inop)) in A4.
    rewrite (spelled_op _ _ _ S2 K2 ltac:(inop)), (tok_eta _ _ K1) in A4.
    unfold skip_semi. destruct (peek_is KSemi ts3) eqn:P.
    - destruct (eats_peek _ _ _ _ A4 P ltac:(neof)) as (t4 & A5 & K4 & S4 & _).
      eexists. split; [exact A5|]. split; auto.
      rewrite (spelled_op _ _ _ S4 K4 ltac:(inop)). simpl.
      apply sx_let_semi; auto.
    - eexists. split; [exact A4|]. split; auto. simpl. now apply sx_let.
  Qed.

  Lemma step_unary ts e ts' : live ts -> unary (tkind (current ts)) -> parse_unary (S n) ts = POk e ts' ->
    prim_post ts e ts' /\ is_unary e /\ (nlo e -> peek_precedence ts' <= 11).
  Proof.
    intros L U H. cbn [parse_unary] in H. cbv zeta in H. pinv H as r ts1 E1. inversion H; subst; clear H.
    pose proof (eats_one _ L) as A0.
    destruct (so_expr _ IH _ _ _ _ (eats_wf_next _ _ _ A0) E1) as (w & A1 & Sx & G).
    pose proof (eats_step _ _ _ _ _ A0 A1) as A2.
    assert (P : precedence (tkind (current ts)) + (if kind_eqb (tkind (current ts)) KSub then 2 else 0) = 11).
    { destruct U as [->| ->]; reflexivity. }
    rewrite P in G. split; [|split; [exact I|]].
    - exists (current ts :: w). split; [exact A2|]. split; [now apply sx_un|].
      intros N. pose proof (proj1 (everywhere_eq _ _) N) as [N1 N2].
      destruct (G N2) as [G1 G2]. apply everywhere_eq. split; auto.
      destruct G2 as [G2|[_ G2]]; [contradiction|]. intros B. destruct r; try contradiction.
      specialize (G2 _ _ _ eq_refl). cbn [tkind] in *.
      assert (Hb : is_binop (tkind t) = true).
      { inversion Sx; subst. now apply binary_iff. }
      apply binop_range in Hb. lia.
    - intros N. apply everywhere_eq in N. destruct N as [N1 N2]. destruct (G N2) as [G1 [G2|[G2 _]]]; [contradiction|auto].
  Qed.

  Lemma step_binary l ts e ts' : live ts -> parse_binary (S n) l ts = POk e ts' ->
    exists r w, e = EBin (current ts) l r /\ eats ts (current ts :: w) ts' /\ syntax false r w /\
      (nlo r -> prec_ok r /\ (is_let r \/ (peek_precedence ts' <= precedence (tkind (current ts)) /\
                                           above (precedence (tkind (current ts))) r))).
  Proof.
    intros L H. cbn [parse_binary] in H. cbv zeta in H. pinv H as r ts1 E1. inversion H; subst; clear H.
    pose proof (eats_one _ L) as A0.
    destruct (so_expr _ IH _ _ _ _ (eats_wf_next _ _ _ A0) E1) as (w & A1 & Sx & G).
    exists r, w. split; auto. split; [exact (eats_step _ _ _ _ _ A0 A1)|auto].
  Qed.

  Lemma step_paren ts e ts' : live ts -> tkind (current ts) = KLp -> parse_paren (S n) ts = POk e ts' ->
    prim_post ts e ts' /\ exists v, e = EParen v.
  Proof.
    intros L K H. cbn [parse_paren] in H. pinv H as r ts1 E1. pinv H as u ts2 E2. inversion H; subst; clear H.
    pose proof (eats_one _ L) as A0.
    destruct (post_good _ _ _ _ (so_expr _ IH _ _ _ _ (eats_wf_next _ _ _ A0) E1)) as (w & A1 & Sx & G).
    pose proof (eats_step _ _ _ _ _ A0 A1) as A2.
    destruct (eats_expect _ _ _ _ _ _ A2 E2 ltac:(neof)) as (t2 & A3 & K2 & S2 & _).
    split; [|eauto].
    rewrite (current_op ts _ (lit "(") L K ltac:(inop)), (spelled_op _ _ _ S2 K2 ltac:(inop)) in A3.
    eexists. split; [exact A3|]. split; [now apply sx_paren|].
    intros N. apply everywhere_eq in N. apply everywhere_eq. split; auto. apply G. apply N.
  Qed.

  Lemma step_list_loop stop ts es ts' : live ts -> parse_list_loop (S n) stop ts = POk es ts' -> list_loop_post ts es ts'.
  Proof.
    intros L H. cbn [parse_list_loop] in H. pose proof (eats_one _ L) as A0.
    destruct (peek_is stop ts).
    { inversion H; subst. exists []. split; [auto|]. split; constructor. }
    pinv H as e ts1 E1.
    destruct (post_good _ _ _ _ (so_expr _ IH _ _ _ _ (eats_wf_next _ _ _ A0) E1)) as (w & A1 & Sx & G).
    pose proof (eats_step _ _ _ _ _ A0 A1) as A2.
    destruct (peek_is stop ts1) eqn:P.
    - (* the loop stops here *)
      pinv H as es2 ts2 E2. inversion H; subst; clear H.
      destruct n as [|n']; [discriminate|]. cbn [parse_list_loop] in E2. rewrite P in E2. inversion E2; subst.
      exists w. split; auto. split; [now apply sl_last|]. repeat constructor; auto.
    - pinv H as u ts2 E2. pinv H as es2 ts3 E3. inversion H; subst; clear H.
      destruct (eats_expect _ _ _ _ _ _ A2 E2 ltac:(neof)) as (t2 & A3 & K2 & S2 & C2).
      destruct (so_list_loop _ IH _ _ _ _ (eats_live _ _ _ A3) E3) as (w' & A4 & Sl & Gs).
      rewrite C2 in A4. rewrite (spelled_op _ _ _ S2 K2 ltac:(inop)) in *.
      exists (w ++ op KComma "," :: w'). split; [|split; [now apply sl_cons|now constructor]].
      pose proof (eats_glue _ _ _ _ _ _ A3 A4) as A5. simpl in A5. rewrite <- app_assoc in A5. exact A5.
  Qed.

  Lemma step_list stop ts es ts' : live ts -> parse_list (S n) stop ts = POk es ts' -> stop <> KEof -> list_post stop ts es ts'.
  Proof.
    intros L H N. cbn [parse_list] in H. pinv H as es1 ts1 E1. pinv H as u ts2 E2. inversion H; subst; clear H.
    destruct (so_list_loop _ IH _ _ _ _ L E1) as (w & A1 & Sl & Gs).
    destruct (eats_expect _ _ _ _ _ _ A1 E2 N) as (t2 & A2 & K2 & S2 & _).
    exists w, t2. repeat split; auto.
  Qed.

  Lemma step_array ts e ts' : live ts -> tkind (current ts) = KLs -> parse_array (S n) ts = POk e ts' ->
    prim_post ts e ts' /\ exists es, e = EArr es.
  Proof.
    intros L K H. cbn [parse_array] in H. pinv H as es1 ts1 E1. inversion H; subst; clear H. split; [|eauto].
    destruct (so_list _ IH _ _ _ _ L E1 ltac:(neof)) as (w & t & A1 & K1 & S1 & Sl & Gs).
    rewrite (current_op ts _ (lit "[") L K ltac:(inop)), (spelled_op _ _ _ S1 K1 ltac:(inop)) in A1.
    eexists. split; [exact A1|]. split; [now apply sx_arr|].
    intros N. apply everywhere_eq in N. apply everywhere_eq. split; auto. apply goods_all; auto. apply N.
  Qed.

  Lemma step_call f ts e ts' : live ts -> tkind (current ts) = KLp -> parse_call (S n) f ts = POk e ts' ->
    exists name es w, f = EIdent name /\ e = ECall name es /\
      eats ts (op KLp "(" :: w ++ [op KRp ")"]) ts' /\ syntax_list false es w /\ goods es.
  Proof.
    intros L K H. cbn [parse_call] in H. pinv H as es1 ts1 E1. destruct f; try discriminate. inversion H; subst; clear H.
    destruct (so_list _ IH _ _ _ _ L E1 ltac:(neof)) as (w & t & A1 & K1 & S1 & Sl & Gs).
    rewrite (current_op ts _ (lit "(") L K ltac:(inop)), (spelled_op _ _ _ S1 K1 ltac:(inop)) in A1.
    exists name, es1, w. repeat split; auto.
  Qed.

  Lemma step_index l ts e ts' : live ts -> tkind (current ts) = KLs -> parse_index (S n) l ts = POk e ts' ->
    exists i w, e = EIndex l i /\ eats ts (op KLs "[" :: w ++ [op KRs "]"]) ts' /\ syntax false i w /\ good i.
  Proof.
    intros L K H. cbn [parse_index] in H. pinv H as i ts1 E1. pinv H as u ts2 E2. inversion H; subst; clear H.
    pose proof (eats_one _ L) as A0.
    destruct (post_good _ _ _ _ (so_expr _ IH _ _ _ _ (eats_wf_next _ _ _ A0) E1)) as (w & A1 & Sx & G).
    pose proof (eats_step _ _ _ _ _ A0 A1) as A2.
    destruct (eats_expect _ _ _ _ _ _ A2 E2 ltac:(neof)) as (t2 & A3 & K2 & S2 & _).
    rewrite (current_op ts _ (lit "[") L K ltac:(inop)), (spelled_op _ _ _ S2 K2 ltac:(inop)) in A3.
    exists i, w. repeat split; auto.
  Qed.

  Lemma step_map_loop ts ps ts' : live ts -> parse_map_loop (S n) ts = POk ps ts' -> map_loop_post ts ps ts'.
  Proof.
    intros L H. cbn [parse_map_loop] in H. pose proof (eats_one _ L) as A0.
    destruct (peek_is KRb ts).
    { inversion H; subst. exists []. split; [auto|]. split; constructor. }
    pinv H as k ts1 E1. pinv H as u1 ts2 E2. pinv H as v ts3 E3.
    destruct (post_good _ _ _ _ (so_expr _ IH _ _ _ _ (eats_wf_next _ _ _ A0) E1)) as (wk & A1 & Sk & Gk).
    pose proof (eats_step _ _ _ _ _ A0 A1) as A2.
    destruct (eats_expect _ _ _ _ _ _ A2 E2 ltac:(neof)) as (t2 & A3 & K2 & S2 & _).
    rewrite (spelled_op _ _ _ S2 K2 ltac:(inop)) in A3.
    destruct (post_good _ _ _ _ (so_expr _ IH _ _ _ _ (eats_wf_next _ _ _ A3) E3)) as (wv & A4 & Sv & Gv).
    pose proof (eats_step _ _ _ _ _ A3 A4) as A5.
    destruct (peek_is KRb ts3) eqn:P.
    - pinv H as ps2 ts4 E4. inversion H; subst; clear H.
      destruct n as [|n']; [discriminate|]. cbn [parse_map_loop] in E4. rewrite P in E4. inversion E4; subst.
      exists (wk ++ op KColon ":" :: wv). split.
      { rewrite <- !app_assoc in A5. exact A5. }
      split; [now apply sp_last|]. repeat constructor; auto.
    - pinv H as u2 ts4 E4. pinv H as ps2 ts5 E5. inversion H; subst; clear H.
      destruct (eats_expect _ _ _ _ _ _ A5 E4 ltac:(neof)) as (t4 & A6 & K4 & S4 & C4).
      rewrite (spelled_op _ _ _ S4 K4 ltac:(inop)) in *.
      destruct (so_map_loop _ IH _ _ _ (eats_live _ _ _ A6) E5) as (w' & A7 & Sl & Gs).
      exists (wk ++ op KColon ":" :: wv ++ op KComma "," :: w').
      split; [|split; [now apply sp_cons|constructor; auto]].
      pose proof (eats_glue _ _ _ _ _ _ A6 A7) as A8. rewrite <- !app_assoc in A8. exact A8.
  Qed.

  Lemma step_map ts e ts' : live ts -> tkind (current ts) = KLb -> parse_map (S n) ts = POk e ts' ->
    prim_post ts e ts' /\ exists ps, e = EMap ps.
  Proof.
    intros L K H. cbn [parse_map] in H. pinv H as ps ts1 E1. pinv H as u ts2 E2. inversion H; subst; clear H. split; [|eauto].
    destruct (so_map_loop _ IH _ _ _ L E1) as (w & A1 & Sl & Gs).
    destruct (eats_expect _ _ _ _ _ _ A1 E2 ltac:(neof)) as (t2 & A2 & K2 & S2 & _).
    rewrite (current_op ts _ (lit "{") L K ltac:(inop)), (spelled_op _ _ _ S2 K2 ltac:(inop)) in A2.
    eexists. split; [exact A2|]. split; [now apply sx_map|].
    intros N. apply everywhere_eq in N. apply everywhere_eq. split; auto. apply goods2_all; auto. apply N.
  Qed.

  Lemma step_block_loop ts es ts' : live ts -> parse_block_loop (S n) ts = POk es ts' -> block_loop_post ts es ts'.
  Proof.
    intros L H. cbn [parse_block_loop] in H. pose proof (eats_one _ L) as A0.
    destruct (peek_is KRb ts).
    { inversion H; subst. exists []. split; [auto|]. split; constructor. }
    pinv H as e ts1 E1. pinv H as es2 ts2 E2. inversion H; subst; clear H.
    destruct (post_good _ _ _ _ (so_expr _ IH _ _ _ _ (eats_wf_next _ _ _ A0) E1)) as (w & A1 & Sx & G).
    pose proof (eats_step _ _ _ _ _ A0 A1) as A2.
    unfold skip_semi in E2. destruct (peek_is KSemi ts1) eqn:P.
    - destruct (eats_peek _ _ _ _ A2 P ltac:(neof)) as (t2 & A3 & K2 & S2 & C2).
      destruct (so_block_loop _ IH _ _ _ (eats_live _ _ _ A3) E2) as (w' & A4 & Sl & Gs).
      rewrite (spelled_op _ _ _ S2 K2 ltac:(inop)) in *.
      exists (w ++ op KSemi ";" :: w'). split; [|split; [now apply sb_cons|now constructor]].
      pose proof (eats_glue _ _ _ _ _ _ A3 A4) as A5. rewrite <- !app_assoc in A5. exact A5.
    - destruct (so_block_loop _ IH _ _ _ (eats_live _ _ _ A2) E2) as (w' & A4 & Sl & Gs).
      exists (w ++ w'). split; [|split; [now apply sb_next|now constructor]].
      pose proof (eats_glue _ _ _ _ _ _ A2 A4) as A5. rewrite <- !app_assoc in A5. exact A5.
  Qed.

  Lemma step_block ts es ts' : live ts -> parse_block (S n) ts = POk es ts' -> block_post ts es ts'.
  Proof.
    intros L H. cbn [parse_block] in H. pinv H as u ts1 E1. pinv H as es1 ts2 E2. pinv H as u2 ts3 E3. inversion H; subst; clear H.
    destruct (eats_expect _ _ _ _ _ _ (eats_one _ L) E1 ltac:(neof)) as (t1 & A1 & K1 & S1 & C1).
    destruct (so_block_loop _ IH _ _ _ (eats_live _ _ _ A1) E2) as (w & A2 & Sl & Gs).
    pose proof (eats_glue _ _ _ _ _ _ A1 A2) as A3.
    destruct (eats_expect _ _ _ _ _ _ A3 E3 ltac:(neof)) as (t3 & A4 & K3 & S3 & _).
    rewrite (spelled_op _ _ _ S1 K1 ltac:(inop)), (spelled_op _ _ _ S3 K3 ltac:(inop)) in A4.
    exists w. split; auto.
  Qed.

  Lemma step_if ts e ts' : live ts -> tkind (current ts) = KIf -> parse_if (S n) ts = POk e ts' ->
    prim_post ts e ts' /\ exists c a b, e = EIf c a b.
  Proof.
    intros L K H. cbn [parse_if] in H.
    pinv H as u1 ts1 E1. pinv H as c ts2 E2. pinv H as u2 ts3 E3. pinv H as cs ts4 E4.
    destruct (eats_expect _ _ _ _ _ _ (eats_one _ L) E1 ltac:(neof)) as (t1 & A1 & K1 & S1 & C1).
    destruct (post_good _ _ _ _ (so_expr _ IH _ _ _ _ (eats_wf_next _ _ _ A1) E2)) as (wc & A2 & Sc & Gc).
    pose proof (eats_step _ _ _ _ _ A1 A2) as A3.
    destruct (eats_expect _ _ _ _ _ _ A3 E3 ltac:(neof)) as (t3 & A4 & K3 & S3 & C3).
    destruct (so_block _ IH _ _ _ (eats_live _ _ _ A4) E4) as (wcs & A5 & Scs & Gcs).
    pose proof (eats_glue _ _ _ _ _ _ A4 A5) as A6.
    rewrite (current_op ts _ (lit "if") L K ltac:(inop)), (spelled_op _ _ _ S1 K1 ltac:(inop)), (spelled_op _ _ _ S3 K3 ltac:(inop)) in A6.
    destruct (peek_is KElse ts4) eqn:P.
    - pinv H as alt ts5 E5. inversion H; subst; clear H. split; [|eauto].
      destruct (eats_peek _ _ _ _ A6 P ltac:(neof)) as (t5 & A7 & K5 & S5 & C5).
      rewrite (spelled_op _ _ _ S5 K5 ltac:(inop)) in A7.
      destruct (so_block _ IH _ _ _ (eats_live _ _ _ A7) E5) as (walt & A8 & Salt & Galt).
      pose proof (eats_glue _ _ _ _ _ _ A7 A8) as A9.
      eexists. split; [exact A9|]. split.
      + cbn [app]. rewrite <- !app_assoc. cbn [app]. rewrite <- !app_assoc. cbn [app]. now apply sx_if_else.
      + intros N. apply everywhere_eq in N. apply everywhere_eq. destruct N as [_ (N1 & N2 & N3)].
        split; auto. split; [now apply Gc|]. split; apply goods_all; auto.
    - inversion H; subst; clear H. split; [|eauto].
      eexists. split; [exact A6|]. split.
      + cbn [app]. rewrite <- !app_assoc. cbn [app]. now apply sx_if.
      + intros N. apply everywhere_eq in N. apply everywhere_eq. destruct N as [_ (N1 & N2 & N3)].
        split; auto. split; [now apply Gc|]. split; [apply goods_all; auto|constructor].
  Qed.

  Lemma step_expr p ts e ts' : wf ts -> parse_expr (S n) p ts = POk e ts' -> expr_post p ts e ts'.
  Proof.
    intros W H. cbn [parse_expr] in H.
    assert (L : live ts).
    { apply wf_live; auto. intros X. rewrite X in H. discriminate. }
    pose proof (eats_one _ L) as A0.
    assert (Prim : forall p left ts1 w,
        ~ is_let left -> ~ is_unary left -> ~ is_binary left ->
        good left -> eats ts w ts1 -> syntax false left w -> parse_loop n p left ts1 = POk e ts' -> expr_post p ts e ts').
    { intros p0 left ts1 w NL NU NB G A Sx E.
      refine (so_loop _ IH _ _ _ _ _ (eats_live _ _ _ A) E _ _ _ A Sx).
      intros N. split; [auto|]. right. split; auto. split.
      - destruct left; try contradiction; simpl; try apply peek_precedence_range; exfalso; (apply NU; exact I) || (apply NB; exact I).
      - intros t a b ->. exfalso; apply NB; exact I. }
    destruct (tkind (current ts)) eqn:K; try discriminate H.
    - (* identifier *)
      rewrite (tok_eta _ _ K) in A0.
      eapply Prim with (5 := A0); eauto; try (intros []; fail); [|now constructor].
      intros _. apply everywhere_eq. auto.
    - (* integer *)
      unfold parse_integer_literal in H. destruct (digits_val 0 (tlit (current ts))) as [z|] eqn:D; [|discriminate].
      destruct (Z.of_N z <=? i64_max)%Z eqn:Le; [|discriminate]. cbn [pbind] in H.
      pose proof (digits_val_digits _ _ _ D) as DD. rewrite (digits_val_decimal _ DD) in D. inversion D; subst z.
      rewrite (tok_eta _ _ K) in A0.
      assert (NE : tlit (current ts) <> []).
      { destruct L as (t & r & -> & St & _). simpl in *. now apply spelled_integer. }
      eapply Prim with (5 := A0); eauto; try (intros []; fail).
      + intros _. apply everywhere_eq. auto.
      + constructor; auto. unfold i64_max in Le. apply Z.leb_le in Le. lia.
    - (* float *)
      unfold parse_float_literal in H. destruct (parse_f64 (tlit (current ts))) as [f|] eqn:D; [|discriminate]. cbn [pbind] in H.
      rewrite (tok_eta _ _ K) in A0.
      eapply Prim with (5 := A0); eauto; try (intros []; fail); [|now apply sx_float, parse_f64_iff].
      intros _. apply everywhere_eq. auto.
    - (* true *)
      rewrite (current_op ts _ (lit "true") L K ltac:(inop)) in A0. unfold parse_boolean_literal in H.
      rewrite (current_op ts _ (lit "true") L K ltac:(inop)) in H. cbn -[parse_loop] in H.
      eapply Prim with (5 := A0); eauto; try (intros []; fail); [|now constructor].
      intros _. apply everywhere_eq. auto.
    - (* false *)
      rewrite (current_op ts _ (lit "false") L K ltac:(inop)) in A0. unfold parse_boolean_literal in H.
      rewrite (current_op ts _ (lit "false") L K ltac:(inop)) in H. cbn -[parse_loop] in H.
      eapply Prim with (5 := A0); eauto; try (intros []; fail); [|now constructor].
      intros _. apply everywhere_eq. auto.
    - (* string *)
      rewrite (tok_eta _ _ K) in A0.
      eapply Prim with (5 := A0); eauto; try (intros []; fail); [|now constructor].
      intros _. apply everywhere_eq. auto.
    - (* minus *)
      pinv H as v ts1 E1.
      destruct (so_unary _ IH _ _ _ L ltac:(right; auto) E1) as ((w & A & Sx & G) & U & P11).
      refine (so_loop _ IH _ _ _ _ _ (eats_live _ _ _ A) H _ _ _ A Sx).
      intros N. split; [auto|]. right. destruct v; try contradiction. split; [intros []|]. split; [simpl; auto|intros ? ? ? [=]].
    - (* not *)
      pinv H as v ts1 E1.
      destruct (so_unary _ IH _ _ _ L ltac:(left; auto) E1) as ((w & A & Sx & G) & U & P11).
      refine (so_loop _ IH _ _ _ _ _ (eats_live _ _ _ A) H _ _ _ A Sx).
      intros N. split; [auto|]. right. destruct v; try contradiction. split; [intros []|]. split; [simpl; auto|intros ? ? ? [=]].
    - (* paren *)
      pinv H as v ts1 E1. destruct (so_paren _ IH _ _ _ L K E1) as ((w & A & Sx & G) & x & ->).
      eapply Prim with (5 := A); eauto; intros [].
    - (* map *)
      pinv H as v ts1 E1. destruct (so_map _ IH _ _ _ L K E1) as ((w & A & Sx & G) & x & ->).
      eapply Prim with (5 := A); eauto; intros [].
    - (* array *)
      pinv H as v ts1 E1. destruct (so_array _ IH _ _ _ L K E1) as ((w & A & Sx & G) & x & ->).
      eapply Prim with (5 := A); eauto; intros [].
    - (* let *)
      pinv H as v ts1 E1. destruct (so_let _ IH _ _ _ L K E1) as ((w & A & Sx & G) & IL).
      destruct n as [|n']; [discriminate|]. cbn [parse_loop] in H.
      replace (prec_max <? peek_precedence ts1) with false in H
        by (symmetry; apply N.ltb_ge; pose proof (peek_precedence_range ts1); unfold prec_max; lia).
      rewrite andb_false_r in H. inversion H; subst.
      exists w. split; [exact A|]. split; [exact Sx|]. intros N. split; [apply G; exact N|]. left; exact IL.
    - (* if *)
      pinv H as v ts1 E1. destruct (so_if _ IH _ _ _ L K E1) as ((w & A & Sx & G) & x & y & z & ->).
      eapply Prim with (5 := A); eauto; intros [].
  Qed.

  Lemma step_loop p l ts e ts' : live ts -> parse_loop (S n) p l ts = POk e ts' -> loop_post p l ts e ts'.
  Proof.
    intros L H Inv ts0 w0 A0 Sx0. cbn [parse_loop] in H.
    destruct (negb (peek_is KSemi ts) && (p <? peek_precedence ts)) eqn:C.
    2:{ (* leaving the loop *)
      assert (X : e = l /\ ts' = ts) by (inversion H; auto). destruct X as [-> ->]. clear H. exists w0. split; auto. split; auto. intros N. destruct (Inv N) as [G I]. split; auto.
      destruct I as [[I _]|(I1 & I2 & I3)]; auto. right. split; auto.
      apply andb_false_iff in C. destruct C as [C|C].
      - apply negb_false_iff in C. unfold peek_is in C. unfold peek_precedence. destruct (peek ts) as [t|]; [|discriminate].
        apply kind_eqb_eq in C. rewrite <- C. simpl. lia.
      - apply N.ltb_ge in C. exact C. }
    apply andb_true_iff in C. destruct C as [_ C]. apply N.ltb_lt in C.
    assert (Pk : exists t0 t r, ts = t0 :: t :: r /\ spelled t /\ wf r /\ p < precedence (tkind t)).
    { destruct L as (t0 & r0 & -> & S & W). destruct r0 as [|t r]; unfold peek_precedence in C; simpl in C; [lia|].
      exists t0, t, r. inversion W; subst; [simpl in C; lia|auto]. }
    destruct Pk as (t0 & t & r & -> & St & Wr & Pt). cbn [peek] in H. rewrite next_cons in H.
    assert (L1 : live (t :: r)) by (exists t, r; auto).
    assert (PP : peek_precedence (t0 :: t :: r) = precedence (tkind t)) by reflexivity.
    assert (T13 : precedence (tkind t) <= 13) by apply precedence_range.
    destruct (is_binop (tkind t)) eqn:B.
    - (* binary operator *)
      pinv H as e1 ts1 E1.
      destruct (so_binary _ IH _ _ _ _ L1 E1) as (rr & w & -> & A1 & Sr & Gr). cbn [current] in *.
      pose proof (eats_step _ _ _ _ _ A0 A1) as A2.
      refine (so_loop _ IH _ _ _ _ _ (eats_live _ _ _ A2) H _ _ _ A2 _).
      + intros N. pose proof (proj1 (everywhere_eq _ _) N) as [N1 [N2 N3]].
        destruct (Inv N2) as [Gl Il]. destruct (Gr N3) as [Gr1 [Gr2|[Gr2 Gr3]]]; [contradiction|].
        destruct Il as [[_ Il]|(NL & Lv & Ab)]; [lia|]. rewrite PP in Lv.
        split.
        * apply everywhere_eq. split; [|split; auto]. split; [auto|]. split.
          -- intros t' a b -> X. apply looser_iff in X. simpl in Lv. lia.
          -- intros t' a b ->. apply looser_iff. split; auto. split; [|now apply (Gr3 _ a b)].
             inversion Sr; subst. now apply binary_iff.
        * right. split; [intros []|]. split; [simpl; auto|]. intros ? ? ? [= <- <- <-]. auto.
      + now apply sx_bin; auto; apply binary_iff.
    - destruct (precedence_cases (tkind t) ltac:(lia)) as [X|[X|[X|[X|X]]]]; [congruence| | | |]; rewrite X in H.
      + (* a `!`: the loop turns on the spot *)
        refine (so_loop _ IH _ _ _ _ _ L H Inv _ _ A0 Sx0).
      + (* call *)
        pinv H as e1 ts1 E1.
        destruct (so_call _ IH _ _ _ _ L1 X E1) as (nm & es & w & -> & -> & A1 & Sl & Gs).
        pose proof (eats_step _ _ _ _ _ A0 A1) as A2.
        refine (so_loop _ IH _ _ _ _ _ (eats_live _ _ _ A2) H _ _ _ A2 _).
        * intros N. pose proof (proj1 (everywhere_eq _ _) N) as [N1 N2]. split.
          -- apply everywhere_eq. split; auto. now apply goods_all.
          -- right. split; [intros []|]. split; [apply peek_precedence_range|intros ? ? ? [=]].
        * inversion Sx0; subst. now apply sx_call.
      + (* index *)
        pinv H as e1 ts1 E1.
        destruct (so_index _ IH _ _ _ _ L1 X E1) as (i & w & -> & A1 & Si & Gi).
        pose proof (eats_step _ _ _ _ _ A0 A1) as A2.
        refine (so_loop _ IH _ _ _ _ _ (eats_live _ _ _ A2) H _ _ _ A2 _).
        * intros N. pose proof (proj1 (everywhere_eq _ _) N) as [N1 [N2 N3]].
          destruct (Inv N2) as [Gl Il]. destruct Il as [[_ Il]|(NL & Lv & Ab)]; [lia|].
          rewrite PP, X in Lv. split.
          -- apply everywhere_eq. split; [|split; [exact Gl|exact (Gi N3)]]. split; auto. split; intros Y; destruct l; try contradiction; cbn [lvl precedence] in Lv.
             inversion Sx0; subst. match goal with Y : binary _ |- _ => apply binary_iff, binop_range in Y; lia end.
          -- right. split; [intros []|]. split; [apply peek_precedence_range|intros ? ? ? [=]].
        * now apply sx_index.
      + (* field *)
        unfold parse_field in H.
        destruct (expect KIdent (t :: r)) as [u ts1|?|] eqn:E1; cbn [pbind] in H; try discriminate H.
        destruct (eats_expect _ _ _ _ _ _ (eats_one _ L1) E1 ltac:(neof)) as (t1 & A1 & K1 & S1 & C1).
        pose proof (eats_step _ _ _ _ _ A0 A1) as A2. cbn [current] in A2. rewrite C1 in H.
        refine (so_loop _ IH _ _ _ _ _ (eats_live _ _ _ A2) H _ _ _ A2 _).
        * intros N. pose proof (proj1 (everywhere_eq _ _) N) as [N1 N2].
          destruct (Inv N2) as [Gl Il]. destruct Il as [[_ Il]|(NL & Lv & Ab)]; [lia|].
          rewrite PP, X in Lv. split.
          -- apply everywhere_eq. split; [|auto]. split; auto. split; intros Y; destruct l; try contradiction; cbn [lvl precedence] in Lv.
             inversion Sx0; subst. match goal with Y : binary _ |- _ => apply binary_iff, binop_range in Y; lia end.
          -- right. split; [intros []|]. split; [apply peek_precedence_range|intros ? ? ? [=]].
        * rewrite (spelled_op _ _ _ St X ltac:(inop)). destruct t1 as [k1 l1]. simpl in K1. subst k1. now apply sx_field.
  Qed.
End Step.

Lemma sound : forall n, sound_at n.
Proof.
  induction n as [|n IH].
  - constructor; intros; discriminate.
  - constructor; intros; eauto using step_expr, step_loop, step_let, step_unary, step_binary, step_paren, step_if, step_call,
      step_list, step_list_loop, step_array, step_map, step_map_loop, step_index, step_block, step_block_loop.
Qed.
