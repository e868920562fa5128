(** What the parser accepts is read as SpecReading.v says *)
From Verif Require Import Parser SpecReading TextProofs LexerProofs ParserBase ParserSound FloatLiteral.
Open Scope N_scope.

(** the kind of the token after the current one *)
Definition pk (ts : toks) : kind := first (tl ts) KEof.

Lemma pk_prec ts : peek_precedence ts = precedence (pk ts).
Proof. destruct ts as [|t [|x r]]; reflexivity. Qed.
Lemma pk_is k ts : peek_is k ts = true -> pk ts = k.
Proof. destruct ts as [|t [|x r]]; cbn; try discriminate. intros H. symmetry. now apply kind_eqb_eq. Qed.
Lemma pk_is_not k ts : k <> KEof -> peek_is k ts = false -> pk ts <> k.
Proof. destruct ts as [|t [|x r]]; cbn; try congruence. intros _ H. apply kind_eqb_neq in H. congruence. Qed.
Lemma pk_expect k ts u ts' : expect k ts = POk u ts' -> pk ts = k.
Proof.
  unfold expect. destruct ts as [|t [|x r]]; cbn; try discriminate.
  destruct (kind_eqb k (tkind x)) eqn:E; try discriminate. intros _. symmetry. now apply kind_eqb_eq.
Qed.

Lemma carries_prec k : carries k <-> 0 < precedence k.
Proof.
  split.
  - intros [B|I]; [apply binary_iff, binop_range in B; lia|].
    cbn in I. repeat destruct I as [I|I]; try contradiction; subst; cbn; lia.
  - intros L. destruct (precedence_cases _ L) as [B|[-> |[-> |[-> | ->]]]]; [left; now apply binary_iff| | | |]; right; cbn; tauto.
Qed.

(** all operators at the left edge bind tighter than [p] *)
Definition high (p : N) (e : expr) : Prop := forall t, In t (edge e) -> p < precedence (tkind t).
(** an operator of kind [k] may follow *)
Definition open (k : kind) (e : expr) : Prop :=
  match e with
  | EBin t _ b => is_let b \/ precedence k <= precedence (tkind t)
  | EUn _ c => is_let c \/ precedence k <= 11
  | _ => True
  end.

Definition done (p : N) (k : kind) (e : expr) : Prop := is_let e \/ (precedence k <= p /\ high p e).

Lemma done_over k e : done 0 k e -> over k e.
Proof. intros [H|[H _]] C; auto. apply carries_prec in C. lia. Qed.

Lemma edge_binary k e w : reads k e w -> forall t, In t (edge e) -> binary (tkind t).
Proof.
  induction 1; intros x I; cbn [edge] in I; try contradiction; auto.
  destruct I as [<- | I]; auto.
Qed.

Lemma high_edge k e w p : reads k e w -> 10 <= p -> high p e -> edge e = [].
Proof.
  intros R L H. destruct (edge e) as [|t l] eqn:E; auto. exfalso.
  assert (I : In t (edge e)) by (rewrite E; now left). pose proof (H _ I) as A.
  apply (edge_binary _ _ _ R) in I. apply binary_iff, binop_range in I. lia.
Qed.

Lemma let_edge e : is_let e -> edge e = [].
Proof. destruct e; cbn; tauto. Qed.

Definition rexpr_post p ts e ts' : Prop := exists w, eats ts w ts' /\ reads (pk ts') e w /\ done p (pk ts') e.
Definition rloop_post p left ts e ts' : Prop :=
  forall ts0 w0, eats ts0 w0 ts -> reads (pk ts) left w0 ->
  ((is_let left /\ 13 <= p) \/ (~ is_let left /\ open (pk ts) left /\ high p left)) ->
  exists w, eats ts0 w ts' /\ reads (pk ts') e w /\ done p (pk ts') e.
Definition rprim_post ts e ts' : Prop := exists w, eats ts w ts' /\ reads (pk ts') e w.

Record rsound_at (n : nat) : Prop := {
  rs_expr : forall p ts e ts', wf ts -> parse_expr n p ts = POk e ts' -> rexpr_post p ts e ts';
  rs_loop : forall p l ts e ts', live ts -> parse_loop n p l ts = POk e ts' -> rloop_post p l ts e ts';
  rs_let : forall ts e ts', live ts -> tkind (current ts) = KLet -> parse_let n ts = POk e ts' ->
    rprim_post ts e ts' /\ is_let e;
  rs_unary : forall ts e ts', live ts -> unary (tkind (current ts)) -> parse_unary n ts = POk e ts' ->
    rprim_post ts e ts' /\ is_unary e /\ open (pk ts') e;
  rs_binary : forall l ts e ts', live ts -> parse_binary n l ts = POk e ts' ->
    exists r w, e = EBin (current ts) l r /\ eats ts (current ts :: w) ts' /\ reads (pk ts') r w /\
      done (precedence (tkind (current ts))) (pk ts') r;
  rs_paren : forall ts e ts', live ts -> tkind (current ts) = KLp -> parse_paren n ts = POk e ts' ->
    rprim_post ts e ts' /\ exists v, e = EParen v;
  rs_if : forall ts e ts', live ts -> tkind (current ts) = KIf -> parse_if n ts = POk e ts' ->
    rprim_post ts e ts' /\ exists c a b, e = EIf c a b;
  rs_call : forall f ts e ts', live ts -> tkind (current ts) = KLp -> parse_call n f ts = POk e ts' ->
    exists name es w, f = EIdent name /\ e = ECall name es /\
      eats ts (op KLp "(" :: w ++ [op KRp ")"]) ts' /\ reads_list KRp es w;
  rs_list : forall stop ts es ts', live ts -> parse_list n stop ts = POk es ts' -> stop <> KEof ->
    exists w t, eats ts (current ts :: w ++ [t]) ts' /\ tkind t = stop /\ spelled t /\ reads_list stop es w;
  rs_list_loop : forall stop ts es ts', live ts -> parse_list_loop n stop ts = POk es ts' ->
    exists w, eats ts (current ts :: w) ts' /\ reads_list stop es w;
  rs_array : forall ts e ts', live ts -> tkind (current ts) = KLs -> parse_array n ts = POk e ts' ->
    rprim_post ts e ts' /\ exists es, e = EArr es;
  rs_map : forall ts e ts', live ts -> tkind (current ts) = KLb -> parse_map n ts = POk e ts' ->
    rprim_post ts e ts' /\ exists ps, e = EMap ps;
  rs_map_loop : forall ts ps ts', live ts -> parse_map_loop n ts = POk ps ts' ->
    exists w, eats ts (current ts :: w) ts' /\ reads_pairs ps w;
  rs_index : forall l ts e ts', live ts -> tkind (current ts) = KLs -> parse_index n l ts = POk e ts' ->
    exists i w, e = EIndex l i /\ eats ts (op KLs "[" :: w ++ [op KRs "]"]) ts' /\ reads KRs i w;
  rs_block : forall ts es ts', live ts -> parse_block n ts = POk es ts' ->
    exists w, eats ts (current ts :: op KLb "{" :: w ++ [op KRb "}"]) ts' /\ reads_block es w;
  rs_block_loop : forall ts es ts', live ts -> parse_block_loop n ts = POk es ts' ->
    exists w, eats ts (current ts :: w) ts' /\ reads_block es w /\ pk ts' = KRb
}.

(** what is read next starts with the token that follows *)
Lemma pk_first ts c w ts' : eats ts (c :: w) ts' -> pk ts = first w (pk ts').
Proof.
  intros E. pose proof (eats_app _ _ _ E) as A. subst ts. unfold pk. cbn [app tl].
  destruct w as [|t w]; reflexivity.
Qed.

Ltac neof := let X := fresh in intro X; discriminate X.

Section Step.
  Variable n : nat.
  Hypothesis IH : rsound_at n.

  Lemma rstep_let ts e ts' : live ts -> tkind (current ts) = KLet -> parse_let (S n) ts = POk e ts' ->
    rprim_post ts e ts' /\ is_let e.
  Proof.
    intros L K H. cbn [parse_let] in H. cbv zeta in H.
    pinv H as u1 ts1 E1. pinv H as u2 ts2 E2. pinv H as v ts3 E3. inversion H; subst; clear H. split; [|exact I].
    pose proof (eats_one _ L) as A0.
    destruct (eats_expect _ _ _ _ _ _ A0 E1 ltac:(neof)) as (t1 & A1 & K1 & S1 & C1).
    destruct (eats_expect _ _ _ _ _ _ A1 E2 ltac:(neof)) as (t2 & A2 & K2 & S2 & _).
    destruct (rs_expr _ IH _ _ _ _ (eats_wf_next _ _ _ A2) E3) as (w & A3 & Sx & D).
    pose proof (eats_step _ _ _ _ _ A2 A3) as A4.
    rewrite C1.
    rewrite (current_op ts _ (lit "let") L K ltac:(inop)) in A4.
    rewrite (spelled_op _ _ _ S2 K2 ltac:(inop)), (tok_eta _ _ K1) in A4.
    unfold skip_semi. destruct (peek_is KSemi ts3) eqn:P.
    - destruct (eats_peek _ _ _ _ A4 P ltac:(neof)) as (t4 & A5 & K4 & S4 & _).
      eexists. split; [exact A5|].
      rewrite (spelled_op _ _ _ S4 K4 ltac:(inop)). simpl. apply pk_is in P. rewrite P in Sx.
      now apply rd_let_semi.
    - eexists. split; [exact A4|]. simpl. apply rd_let; auto; [now apply done_over|].
      apply pk_is_not; auto; discriminate.
  Qed.

  Lemma rstep_unary ts e ts' : live ts -> unary (tkind (current ts)) -> parse_unary (S n) ts = POk e ts' ->
    rprim_post ts e ts' /\ is_unary e /\ open (pk ts') e.
  Proof.
    intros L U H. cbn [parse_unary] in H. cbv zeta in H. pinv H as r ts1 E1. inversion H; subst; clear H.
    pose proof (eats_one _ L) as A0.
    assert (P : precedence (tkind (current ts)) + (if kind_eqb (tkind (current ts)) KSub then 2 else 0) = 11).
    { destruct U as [->| ->]; reflexivity. }
    rewrite P in E1.
    destruct (rs_expr _ IH _ _ _ _ (eats_wf_next _ _ _ A0) E1) as (w & A1 & Sx & D).
    pose proof (eats_step _ _ _ _ _ A0 A1) as A2.
    split; [|split; [exact I|]].
    - exists (current ts :: w). split; [exact A2|]. apply rd_un; auto.
      destruct D as [D|[_ D]]; [now apply let_edge|]. eapply high_edge; [exact Sx| |exact D]. lia.
    - cbn [open]. destruct D as [D|[D _]]; auto.
  Qed.

  Lemma rstep_binary l ts e ts' : live ts -> parse_binary (S n) l ts = POk e ts' ->
    exists r w, e = EBin (current ts) l r /\ eats ts (current ts :: w) ts' /\ reads (pk ts') r w /\
      done (precedence (tkind (current ts))) (pk ts') r.
  Proof.
    intros L H. cbn [parse_binary] in H. cbv zeta in H. pinv H as r ts1 E1. inversion H; subst; clear H.
    pose proof (eats_one _ L) as A0.
    destruct (rs_expr _ IH _ _ _ _ (eats_wf_next _ _ _ A0) E1) as (w & A1 & Sx & D).
    exists r, w. split; auto. split; [exact (eats_step _ _ _ _ _ A0 A1)|auto].
  Qed.

  Lemma rstep_paren ts e ts' : live ts -> tkind (current ts) = KLp -> parse_paren (S n) ts = POk e ts' ->
    rprim_post ts e ts' /\ exists v, e = EParen v.
  Proof.
    intros L K H. cbn [parse_paren] in H. pinv H as r ts1 E1. pinv H as u ts2 E2. inversion H; subst; clear H.
    pose proof (eats_one _ L) as A0.
    destruct (rs_expr _ IH _ _ _ _ (eats_wf_next _ _ _ A0) E1) as (w & A1 & Sx & _).
    pose proof (eats_step _ _ _ _ _ A0 A1) as A2.
    destruct (eats_expect _ _ _ _ _ _ A2 E2 ltac:(neof)) as (t2 & A3 & K2 & S2 & _).
    split; [|eauto].
    rewrite (current_op ts _ (lit "(") L K ltac:(inop)), (spelled_op _ _ _ S2 K2 ltac:(inop)) in A3.
    eexists. split; [exact A3|]. rewrite (pk_expect _ _ _ _ E2) in Sx. now apply rd_paren.
  Qed.

  Lemma rstep_list_loop stop ts es ts' : live ts -> parse_list_loop (S n) stop ts = POk es ts' ->
    exists w, eats ts (current ts :: w) ts' /\ reads_list stop es w.
  Proof.
    intros L H. cbn [parse_list_loop] in H. pose proof (eats_one _ L) as A0.
    destruct (peek_is stop ts).
    { inversion H; subst. exists []. split; [auto|]. constructor. }
    pinv H as e ts1 E1.
    destruct (rs_expr _ IH _ _ _ _ (eats_wf_next _ _ _ A0) E1) as (w & A1 & Sx & _).
    pose proof (eats_step _ _ _ _ _ A0 A1) as A2.
    destruct (peek_is stop ts1) eqn:P.
    - (* the loop stops here *)
      pinv H as es2 ts2 E2. inversion H; subst; clear H.
      destruct n as [|n']; [discriminate|]. cbn [parse_list_loop] in E2. rewrite P in E2. inversion E2; subst.
      exists w. split; auto. apply pk_is in P. rewrite P in Sx. now apply rl_last.
    - pinv H as u ts2 E2. pinv H as es2 ts3 E3. inversion H; subst; clear H.
      destruct (eats_expect _ _ _ _ _ _ A2 E2 ltac:(neof)) as (t2 & A3 & K2 & S2 & C2).
      destruct (rs_list_loop _ IH _ _ _ _ (eats_live _ _ _ A3) E3) as (w' & A4 & Sl).
      rewrite C2 in A4. rewrite (spelled_op _ _ _ S2 K2 ltac:(inop)) in *.
      rewrite (pk_expect _ _ _ _ E2) in Sx.
      exists (w ++ op KComma "," :: w'). split; [|now apply rl_cons].
      pose proof (eats_glue _ _ _ _ _ _ A3 A4) as A5. simpl in A5. rewrite <- app_assoc in A5. exact A5.
  Qed.

  Lemma rstep_list stop ts es ts' : live ts -> parse_list (S n) stop ts = POk es ts' -> stop <> KEof ->
    exists w t, eats ts (current ts :: w ++ [t]) ts' /\ tkind t = stop /\ spelled t /\ reads_list stop es w.
  Proof.
    intros L H N. cbn [parse_list] in H. pinv H as es1 ts1 E1. pinv H as u ts2 E2. inversion H; subst; clear H.
    destruct (rs_list_loop _ IH _ _ _ _ L E1) as (w & A1 & Sl).
    destruct (eats_expect _ _ _ _ _ _ A1 E2 N) as (t2 & A2 & K2 & S2 & _).
    exists w, t2. repeat split; auto.
  Qed.

  Lemma rstep_array ts e ts' : live ts -> tkind (current ts) = KLs -> parse_array (S n) ts = POk e ts' ->
    rprim_post ts e ts' /\ exists es, e = EArr es.
  Proof.
    intros L K H. cbn [parse_array] in H. pinv H as es1 ts1 E1. inversion H; subst; clear H. split; [|eauto].
    destruct (rs_list _ IH _ _ _ _ L E1 ltac:(neof)) as (w & t & A1 & K1 & S1 & Sl).
    rewrite (current_op ts _ (lit "[") L K ltac:(inop)), (spelled_op _ _ _ S1 K1 ltac:(inop)) in A1.
    eexists. split; [exact A1|]. now apply rd_arr.
  Qed.

  Lemma rstep_call f ts e ts' : live ts -> tkind (current ts) = KLp -> parse_call (S n) f ts = POk e ts' ->
    exists name es w, f = EIdent name /\ e = ECall name es /\
      eats ts (op KLp "(" :: w ++ [op KRp ")"]) ts' /\ reads_list KRp es w.
  Proof.
    intros L K H. cbn [parse_call] in H. pinv H as es1 ts1 E1. destruct f; try discriminate. inversion H; subst; clear H.
    destruct (rs_list _ IH _ _ _ _ L E1 ltac:(neof)) as (w & t & A1 & K1 & S1 & Sl).
    rewrite (current_op ts _ (lit "(") L K ltac:(inop)), (spelled_op _ _ _ S1 K1 ltac:(inop)) in A1.
    exists name, es1, w. repeat split; auto.
  Qed.

  Lemma rstep_index l ts e ts' : live ts -> tkind (current ts) = KLs -> parse_index (S n) l ts = POk e ts' ->
    exists i w, e = EIndex l i /\ eats ts (op KLs "[" :: w ++ [op KRs "]"]) ts' /\ reads KRs i w.
  Proof.
    intros L K H. cbn [parse_index] in H. pinv H as i ts1 E1. pinv H as u ts2 E2. inversion H; subst; clear H.
    pose proof (eats_one _ L) as A0.
    destruct (rs_expr _ IH _ _ _ _ (eats_wf_next _ _ _ A0) E1) as (w & A1 & Sx & _).
    pose proof (eats_step _ _ _ _ _ A0 A1) as A2.
    destruct (eats_expect _ _ _ _ _ _ A2 E2 ltac:(neof)) as (t2 & A3 & K2 & S2 & _).
    rewrite (current_op ts _ (lit "[") L K ltac:(inop)), (spelled_op _ _ _ S2 K2 ltac:(inop)) in A3.
    rewrite (pk_expect _ _ _ _ E2) in Sx.
    exists i, w. repeat split; auto.
  Qed.

  Lemma rstep_map_loop ts ps ts' : live ts -> parse_map_loop (S n) ts = POk ps ts' ->
    exists w, eats ts (current ts :: w) ts' /\ reads_pairs ps w.
  Proof.
    intros L H. cbn [parse_map_loop] in H. pose proof (eats_one _ L) as A0.
    destruct (peek_is KRb ts).
    { inversion H; subst. exists []. split; [auto|]. constructor. }
    pinv H as k ts1 E1. pinv H as u1 ts2 E2. pinv H as v ts3 E3.
    destruct (rs_expr _ IH _ _ _ _ (eats_wf_next _ _ _ A0) E1) as (wk & A1 & Sk & _).
    pose proof (eats_step _ _ _ _ _ A0 A1) as A2.
    destruct (eats_expect _ _ _ _ _ _ A2 E2 ltac:(neof)) as (t2 & A3 & K2 & S2 & _).
    rewrite (spelled_op _ _ _ S2 K2 ltac:(inop)) in A3.
    destruct (rs_expr _ IH _ _ _ _ (eats_wf_next _ _ _ A3) E3) as (wv & A4 & Sv & _).
    pose proof (eats_step _ _ _ _ _ A3 A4) as A5.
    rewrite (pk_expect _ _ _ _ E2) in Sk.
    destruct (peek_is KRb ts3) eqn:P.
    - pinv H as ps2 ts4 E4. inversion H; subst; clear H.
      destruct n as [|n']; [discriminate|]. cbn [parse_map_loop] in E4. rewrite P in E4. inversion E4; subst.
      apply pk_is in P. rewrite P in Sv.
      exists (wk ++ op KColon ":" :: wv). split.
      { rewrite <- !app_assoc in A5. exact A5. }
      now apply rp_last.
    - pinv H as u2 ts4 E4. pinv H as ps2 ts5 E5. inversion H; subst; clear H.
      destruct (eats_expect _ _ _ _ _ _ A5 E4 ltac:(neof)) as (t4 & A6 & K4 & S4 & C4).
      rewrite (spelled_op _ _ _ S4 K4 ltac:(inop)) in *.
      destruct (rs_map_loop _ IH _ _ _ (eats_live _ _ _ A6) E5) as (w' & A7 & Sl).
      rewrite (pk_expect _ _ _ _ E4) in Sv.
      exists (wk ++ op KColon ":" :: wv ++ op KComma "," :: w').
      split; [|now apply rp_cons].
      pose proof (eats_glue _ _ _ _ _ _ A6 A7) as A8. rewrite <- !app_assoc in A8. exact A8.
  Qed.

  Lemma rstep_map ts e ts' : live ts -> tkind (current ts) = KLb -> parse_map (S n) ts = POk e ts' ->
    rprim_post ts e ts' /\ exists ps, e = EMap ps.
  Proof.
    intros L K H. cbn [parse_map] in H. pinv H as ps ts1 E1. pinv H as u ts2 E2. inversion H; subst; clear H. split; [|eauto].
    destruct (rs_map_loop _ IH _ _ _ L E1) as (w & A1 & Sl).
    destruct (eats_expect _ _ _ _ _ _ A1 E2 ltac:(neof)) as (t2 & A2 & K2 & S2 & _).
    rewrite (current_op ts _ (lit "{") L K ltac:(inop)), (spelled_op _ _ _ S2 K2 ltac:(inop)) in A2.
    eexists. split; [exact A2|]. now apply rd_map.
  Qed.

  Lemma rstep_block_loop ts es ts' : live ts -> parse_block_loop (S n) ts = POk es ts' ->
    exists w, eats ts (current ts :: w) ts' /\ reads_block es w /\ pk ts' = KRb.
  Proof.
    intros L H. cbn [parse_block_loop] in H. pose proof (eats_one _ L) as A0.
    destruct (peek_is KRb ts) eqn:P0.
    { inversion H; subst. exists []. split; [auto|]. split; [constructor|now apply pk_is]. }
    pinv H as e ts1 E1. pinv H as es2 ts2 E2. inversion H; subst; clear H.
    destruct (rs_expr _ IH _ _ _ _ (eats_wf_next _ _ _ A0) E1) as (w & A1 & Sx & D).
    pose proof (eats_step _ _ _ _ _ A0 A1) as A2.
    unfold skip_semi in E2. destruct (peek_is KSemi ts1) eqn:P.
    - destruct (eats_peek _ _ _ _ A2 P ltac:(neof)) as (t2 & A3 & K2 & S2 & C2).
      destruct (rs_block_loop _ IH _ _ _ (eats_live _ _ _ A3) E2) as (w' & A4 & Sl & Pe).
      rewrite (spelled_op _ _ _ S2 K2 ltac:(inop)) in *. apply pk_is in P. rewrite P in Sx.
      exists (w ++ op KSemi ";" :: w'). split; [|split; [now apply rb_semi|auto]].
      pose proof (eats_glue _ _ _ _ _ _ A3 A4) as A5. rewrite <- !app_assoc in A5. exact A5.
    - destruct (rs_block_loop _ IH _ _ _ (eats_live _ _ _ A2) E2) as (w' & A4 & Sl & Pe).
      pose proof (pk_first _ _ _ _ A4) as F. rewrite Pe in F. rewrite F in Sx, D.
      exists (w ++ w'). split; [|split; [apply rb_next; auto; now apply done_over|auto]].
      pose proof (eats_glue _ _ _ _ _ _ A2 A4) as A5. rewrite <- !app_assoc in A5. exact A5.
  Qed.

  Lemma rstep_block ts es ts' : live ts -> parse_block (S n) ts = POk es ts' ->
    exists w, eats ts (current ts :: op KLb "{" :: w ++ [op KRb "}"]) ts' /\ reads_block es w.
  Proof.
    intros L H. cbn [parse_block] in H. pinv H as u ts1 E1. pinv H as es1 ts2 E2. pinv H as u2 ts3 E3. inversion H; subst; clear H.
    destruct (eats_expect _ _ _ _ _ _ (eats_one _ L) E1 ltac:(neof)) as (t1 & A1 & K1 & S1 & C1).
    destruct (rs_block_loop _ IH _ _ _ (eats_live _ _ _ A1) E2) as (w & A2 & Sl & _).
    pose proof (eats_glue _ _ _ _ _ _ A1 A2) as A3.
    destruct (eats_expect _ _ _ _ _ _ A3 E3 ltac:(neof)) as (t3 & A4 & K3 & S3 & _).
    rewrite (spelled_op _ _ _ S1 K1 ltac:(inop)), (spelled_op _ _ _ S3 K3 ltac:(inop)) in A4.
    exists w. split; auto.
  Qed.

  Lemma rstep_if ts e ts' : live ts -> tkind (current ts) = KIf -> parse_if (S n) ts = POk e ts' ->
    rprim_post ts e ts' /\ exists c a b, e = EIf c a b.
  Proof.
    intros L K H. cbn [parse_if] in H.
    pinv H as u1 ts1 E1. pinv H as c ts2 E2. pinv H as u2 ts3 E3. pinv H as cs ts4 E4.
    destruct (eats_expect _ _ _ _ _ _ (eats_one _ L) E1 ltac:(neof)) as (t1 & A1 & K1 & S1 & C1).
    destruct (rs_expr _ IH _ _ _ _ (eats_wf_next _ _ _ A1) E2) as (wc & A2 & Sc & _).
    pose proof (eats_step _ _ _ _ _ A1 A2) as A3.
    destruct (eats_expect _ _ _ _ _ _ A3 E3 ltac:(neof)) as (t3 & A4 & K3 & S3 & C3).
    destruct (rs_block _ IH _ _ _ (eats_live _ _ _ A4) E4) as (wcs & A5 & Scs).
    pose proof (eats_glue _ _ _ _ _ _ A4 A5) as A6. rewrite (pk_expect _ _ _ _ E3) in Sc.
    rewrite (current_op ts _ (lit "if") L K ltac:(inop)), (spelled_op _ _ _ S1 K1 ltac:(inop)), (spelled_op _ _ _ S3 K3 ltac:(inop)) in A6.
    destruct (peek_is KElse ts4) eqn:P.
    - pinv H as alt ts5 E5. inversion H; subst; clear H. split; [|eauto].
      destruct (eats_peek _ _ _ _ A6 P ltac:(neof)) as (t5 & A7 & K5 & S5 & C5).
      rewrite (spelled_op _ _ _ S5 K5 ltac:(inop)) in A7.
      destruct (rs_block _ IH _ _ _ (eats_live _ _ _ A7) E5) as (walt & A8 & Salt).
      pose proof (eats_glue _ _ _ _ _ _ A7 A8) as A9.
      eexists. split; [exact A9|].
      cbn [app]. rewrite <- !app_assoc. cbn [app]. rewrite <- !app_assoc. cbn [app]. now apply rd_if_else.
    - inversion H; subst; clear H. split; [|eauto].
      eexists. split; [exact A6|].
      cbn [app]. rewrite <- !app_assoc. cbn [app]. apply rd_if; auto. apply pk_is_not; auto; discriminate.
  Qed.

  Lemma rstep_expr p ts e ts' : wf ts -> parse_expr (S n) p ts = POk e ts' -> rexpr_post p ts e ts'.
  Proof.
    intros W H. cbn [parse_expr] in H.
    assert (L : live ts).
    { apply wf_live; auto. intros X. rewrite X in H. discriminate. }
    pose proof (eats_one _ L) as A0.
    assert (Prim : forall p left ts1 w,
        ~ is_let left -> ~ is_unary left -> ~ is_binary left -> edge left = [] ->
        eats ts w ts1 -> reads (pk ts1) left w -> parse_loop n p left ts1 = POk e ts' -> rexpr_post p ts e ts').
    { intros p0 left ts1 w NL NU NB Ed A Sx E.
      refine (rs_loop _ IH _ _ _ _ _ (eats_live _ _ _ A) E _ _ A Sx _).
      right. split; auto. split.
      - destruct left; cbn; auto; exfalso; (apply NU; exact I) || (apply NB; exact I).
      - intros t X. rewrite Ed in X. destruct X. }
    destruct (tkind (current ts)) eqn:K; try discriminate H.
    - (* identifier *)
      rewrite (tok_eta _ _ K) in A0.
      eapply Prim with (5 := A0) (7 := H); try (intros []; fail); try reflexivity. constructor.
    - (* integer *)
      unfold parse_integer_literal in H. destruct (digits_val 0 (tlit (current ts))) as [z|] eqn:D; [|discriminate].
      destruct (Z.of_N z <=? i64_max)%Z eqn:Le; [|discriminate]. cbn [pbind] in H.
      pose proof (digits_val_digits _ _ _ D) as DD. rewrite (digits_val_decimal _ DD) in D. inversion D; subst z.
      rewrite (tok_eta _ _ K) in A0.
      assert (NE : tlit (current ts) <> []).
      { destruct L as (t & r & -> & St & _). simpl in *. now apply spelled_integer. }
      eapply Prim with (5 := A0) (7 := H); try (intros []; fail); try reflexivity.
      constructor; auto. unfold i64_max in Le. apply Z.leb_le in Le. lia.
    - (* float *)
      unfold parse_float_literal in H. destruct (parse_f64 (tlit (current ts))) as [f|] eqn:D; [|discriminate]. cbn [pbind] in H.
      rewrite (tok_eta _ _ K) in A0.
      eapply Prim with (5 := A0) (7 := H); try (intros []; fail); try reflexivity. now apply rd_float, parse_f64_iff.
    - (* true *)
      rewrite (current_op ts _ (lit "true") L K ltac:(inop)) in A0. unfold parse_boolean_literal in H.
      rewrite (current_op ts _ (lit "true") L K ltac:(inop)) in H. cbn -[parse_loop] in H.
      eapply Prim with (5 := A0) (7 := H); try (intros []; fail); try reflexivity. constructor.
    - (* false *)
      rewrite (current_op ts _ (lit "false") L K ltac:(inop)) in A0. unfold parse_boolean_literal in H.
      rewrite (current_op ts _ (lit "false") L K ltac:(inop)) in H. cbn -[parse_loop] in H.
      eapply Prim with (5 := A0) (7 := H); try (intros []; fail); try reflexivity. constructor.
    - (* string *)
      rewrite (tok_eta _ _ K) in A0.
      eapply Prim with (5 := A0) (7 := H); try (intros []; fail); try reflexivity. constructor.
    - (* minus *)
      pinv H as v ts1 E1.
      destruct (rs_unary _ IH _ _ _ L ltac:(right; auto) E1) as ((w & A & Sx) & U & Op).
      refine (rs_loop _ IH _ _ _ _ _ (eats_live _ _ _ A) H _ _ A Sx _).
      right. destruct v; try contradiction. split; [intros []|]. split; [exact Op|intros ? []].
    - (* not *)
      pinv H as v ts1 E1.
      destruct (rs_unary _ IH _ _ _ L ltac:(left; auto) E1) as ((w & A & Sx) & U & Op).
      refine (rs_loop _ IH _ _ _ _ _ (eats_live _ _ _ A) H _ _ A Sx _).
      right. destruct v; try contradiction. split; [intros []|]. split; [exact Op|intros ? []].
    - (* paren *)
      pinv H as v ts1 E1. destruct (rs_paren _ IH _ _ _ L K E1) as ((w & A & Sx) & x & ->).
      eapply Prim with (5 := A) (7 := H); try (intros []; fail); try reflexivity; exact Sx.
    - (* map *)
      pinv H as v ts1 E1. destruct (rs_map _ IH _ _ _ L K E1) as ((w & A & Sx) & x & ->).
      eapply Prim with (5 := A) (7 := H); try (intros []; fail); try reflexivity; exact Sx.
    - (* array *)
      pinv H as v ts1 E1. destruct (rs_array _ IH _ _ _ L K E1) as ((w & A & Sx) & x & ->).
      eapply Prim with (5 := A) (7 := H); try (intros []; fail); try reflexivity; exact Sx.
    - (* let *)
      pinv H as v ts1 E1. destruct (rs_let _ IH _ _ _ L K E1) as ((w & A & Sx) & IL).
      destruct n as [|n']; [discriminate|]. cbn [parse_loop] in H.
      replace (prec_max <? peek_precedence ts1) with false in H
        by (symmetry; apply N.ltb_ge; pose proof (peek_precedence_range ts1); unfold prec_max; lia).
      rewrite andb_false_r in H. inversion H; subst.
      exists w. split; [exact A|]. split; [exact Sx|]. left; exact IL.
    - (* if *)
      pinv H as v ts1 E1. destruct (rs_if _ IH _ _ _ L K E1) as ((w & A & Sx) & x & y & z & ->).
      eapply Prim with (5 := A) (7 := H); try (intros []; fail); try reflexivity; exact Sx.
  Qed.

  Lemma open_applicable k e w k' : reads k e w -> ~ is_let e -> 11 < precedence k' -> open k' e -> applicable e.
  Proof.
    intros R NL P O. destruct e; cbn in *; auto; destruct O as [O|O]; auto; [lia|].
    inversion R; subst. match goal with Y : binary _ |- _ => apply binary_iff, binop_range in Y; lia end.
  Qed.

  Lemma rstep_loop p l ts e ts' : live ts -> parse_loop (S n) p l ts = POk e ts' -> rloop_post p l ts e ts'.
  Proof.
    intros L H ts0 w0 A0 Sx0 Inv. cbn [parse_loop] in H.
    destruct (negb (peek_is KSemi ts) && (p <? peek_precedence ts)) eqn:C.
    2:{ (* leaving the loop *)
      assert (X : e = l /\ ts' = ts) by (inversion H; auto). destruct X as [-> ->]. clear H. exists w0. split; auto. split; auto.
      destruct Inv as [[I _]|(I1 & I2 & I3)]; [now left|]. right. split; auto. rewrite <- pk_prec.
      apply andb_false_iff in C. destruct C as [C|C].
      - apply negb_false_iff in C. apply pk_is in C. rewrite pk_prec, C. cbn. lia.
      - apply N.ltb_ge in C. exact C. }
    apply andb_true_iff in C. destruct C as [_ C]. apply N.ltb_lt in C.
    assert (Pk : exists t0 t r, ts = t0 :: t :: r /\ spelled t /\ wf r /\ p < precedence (tkind t)).
    { destruct L as (t0 & r0 & -> & S & W). destruct r0 as [|t r]; unfold peek_precedence in C; simpl in C; [lia|].
      exists t0, t, r. inversion W; subst; [simpl in C; lia|auto]. }
    destruct Pk as (t0 & t & r & -> & St & Wr & Pt). cbn [peek] in H. rewrite next_cons in H.
    assert (L1 : live (t :: r)) by (exists t, r; auto).
    change (pk (t0 :: t :: r)) with (tkind t) in *.
    assert (T13 : precedence (tkind t) <= 13) by apply precedence_range.
    destruct Inv as [[_ Il]|(NL & Op & Hi)].
    { assert (X : False) by lia. destruct X. }
    destruct (is_binop (tkind t)) eqn:B.
    - (* binary operator *)
      pinv H as e1 ts1 E1.
      destruct (rs_binary _ IH _ _ _ _ L1 E1) as (rr & w & -> & A1 & Sr & D). cbn [current] in *.
      pose proof (eats_step _ _ _ _ _ A0 A1) as A2.
      refine (rs_loop _ IH _ _ _ _ _ (eats_live _ _ _ A2) H _ _ A2 _ _).
      + apply rd_bin; auto; [now apply binary_iff| |].
        * intros t' a b -> X. apply looser_iff in X. cbn [open] in Op. destruct Op as [Op|Op]; auto. lia.
        * intros t' I. apply looser_iff. split; auto. split; [apply binary_iff; eapply edge_binary; eauto|].
          destruct D as [D|[_ D]]; [rewrite (let_edge _ D) in I; destruct I|now apply D].
      + right. split; [intros []|]. split; [cbn [open]; destruct D as [D|[D _]]; auto|].
        intros t' [<- | I]; auto.
    - destruct (precedence_cases (tkind t) ltac:(lia)) as [X|[X|[X|[X|X]]]]; [congruence| | | |]; rewrite X in H.
      + (* a [!]: the loop turns on the spot *)
        refine (rs_loop _ IH _ _ _ _ _ L H _ _ A0 Sx0 _). right. auto.
      + (* call *)
        pinv H as e1 ts1 E1.
        destruct (rs_call _ IH _ _ _ _ L1 X E1) as (nm & es & w & -> & -> & A1 & Sl).
        pose proof (eats_step _ _ _ _ _ A0 A1) as A2.
        refine (rs_loop _ IH _ _ _ _ _ (eats_live _ _ _ A2) H _ _ A2 _ _).
        * inversion Sx0; subst. now apply rd_call.
        * right. split; [intros []|]. split; [exact I|intros ? []].
      + (* index *)
        pinv H as e1 ts1 E1.
        destruct (rs_index _ IH _ _ _ _ L1 X E1) as (i & w & -> & A1 & Si).
        pose proof (eats_step _ _ _ _ _ A0 A1) as A2. rewrite X in Sx0, Op.
        refine (rs_loop _ IH _ _ _ _ _ (eats_live _ _ _ A2) H _ _ A2 _ _).
        * apply rd_index; auto. eapply open_applicable; eauto. cbn. lia.
        * right. split; [intros []|]. split; [exact I|exact Hi].
      + (* field *)
        unfold parse_field in H.
        destruct (expect KIdent (t :: r)) as [u ts1|?|] eqn:E1; cbn [pbind] in H; try discriminate H.
        destruct (eats_expect _ _ _ _ _ _ (eats_one _ L1) E1 ltac:(neof)) as (t1 & A1 & K1 & S1 & C1).
        pose proof (eats_step _ _ _ _ _ A0 A1) as A2. cbn [current] in A2. rewrite C1 in H. rewrite X in Sx0, Op.
        refine (rs_loop _ IH _ _ _ _ _ (eats_live _ _ _ A2) H _ _ A2 _ _).
        * rewrite (spelled_op _ _ _ St X ltac:(inop)). destruct t1 as [k1 l1]. simpl in K1. subst k1. apply rd_field; auto.
          eapply open_applicable; eauto. cbn. lia.
        * right. split; [intros []|]. split; [exact I|exact Hi].
  Qed.
End Step.

Lemma rsound : forall n, rsound_at n.
Proof.
  induction n as [|n IH].
  - constructor; intros; discriminate.
  - constructor; intros; eauto using rstep_expr, rstep_loop, rstep_let, rstep_unary, rstep_binary, rstep_paren, rstep_if, rstep_call,
      rstep_list, rstep_list_loop, rstep_array, rstep_map, rstep_map_loop, rstep_index, rstep_block, rstep_block_loop.
Qed.
