(** The depth of parsing *)
From Verif Require Import Deep SpecStack SpecSyntax SpecLex TextProofs LexOneProofs LexerProofs ParserBase ParserTop.
Open Scope nat_scope.

(** ** the depth does not change what is parsed *)
Lemma fst_dbind {A B} (x : deep A) (f : A -> toks -> deep B) : fst (dbind x f) = pbind (fst x) (fun a ts => fst (f a ts)).
Proof. unfold dbind, pbind. now destruct (fst x). Qed.
Lemma pbind_ext {A B} (x y : pres A) (f g : A -> toks -> pres B) : x = y -> (forall a ts, f a ts = g a ts) -> pbind x f = pbind y g.
Proof. intros -> E. destruct y; cbn; auto. Qed.
Record same_at (n : nat) : Prop := {
  s_expr : forall p ts, fst (deep_expr n p ts) = parse_expr n p ts;
  s_loop : forall p l ts, fst (deep_loop n p l ts) = parse_loop n p l ts;
  s_let : forall ts, fst (deep_let n ts) = parse_let n ts;
  s_unary : forall ts, fst (deep_unary n ts) = parse_unary n ts;
  s_binary : forall l ts, fst (deep_binary n l ts) = parse_binary n l ts;
  s_paren : forall ts, fst (deep_paren n ts) = parse_paren n ts;
  s_if : forall ts, fst (deep_if n ts) = parse_if n ts;
  s_call : forall f ts, fst (deep_call n f ts) = parse_call n f ts;
  s_list : forall k ts, fst (deep_list n k ts) = parse_list n k ts;
  s_list_loop : forall k ts, fst (deep_list_loop n k ts) = parse_list_loop n k ts;
  s_array : forall ts, fst (deep_array n ts) = parse_array n ts;
  s_map : forall ts, fst (deep_map n ts) = parse_map n ts;
  s_map_loop : forall ts, fst (deep_map_loop n ts) = parse_map_loop n ts;
  s_index : forall l ts, fst (deep_index n l ts) = parse_index n l ts;
  s_block : forall ts, fst (deep_block n ts) = parse_block n ts;
  s_block_loop : forall ts, fst (deep_block_loop n ts) = parse_block_loop n ts }.
Ltac same IH := repeat (first
  [ reflexivity
  | rewrite fst_dbind; apply pbind_ext; [|intros ? ?]
  | apply (s_expr _ IH) | apply (s_loop _ IH) | apply (s_let _ IH) | apply (s_unary _ IH) | apply (s_binary _ IH) | apply (s_paren _ IH)
  | apply (s_if _ IH) | apply (s_call _ IH) | apply (s_list _ IH) | apply (s_list_loop _ IH) | apply (s_array _ IH) | apply (s_map _ IH)
  | apply (s_map_loop _ IH) | apply (s_index _ IH) | apply (s_block _ IH) | apply (s_block_loop _ IH)
  | progress (cbv zeta)
  | match goal with |- fst (if ?b then _ else _) = _ => destruct b | |- fst (match ?x with _ => _ end) = _ => destruct x end ]).
Lemma same_all n : same_at n.
Proof.
  induction n as [|n IH]; [constructor; reflexivity|]. constructor; intros; cbn [deep_expr deep_loop deep_let deep_unary deep_binary deep_paren deep_if deep_call
    deep_list deep_list_loop deep_array deep_map deep_map_loop deep_index deep_block deep_block_loop parse_expr parse_loop parse_let parse_unary parse_binary parse_paren parse_if parse_call
    parse_list parse_list_loop parse_array parse_map parse_map_loop parse_index parse_block parse_block_loop]; unfold deeper; cbn [fst]; same IH.
Qed.
Lemma same_request n ts : fst (deep_request n ts) = parse_request n ts.
Proof. unfold deep_request, parse_request. same (same_all n). Qed.
Lemma same_test n ts : fst (deep_test n ts) = parse_test n ts.
Proof. unfold deep_test, parse_test. same (same_all n). Qed.
Lemma same_top n : forall src ts, fst (deep_top n src ts) = parse_top n src ts.
Proof.
  induction n as [|n IH]; intros src ts; [reflexivity|]. cbn [deep_top parse_top].
  destruct (tkind (current ts)); try reflexivity; rewrite fst_dbind; apply pbind_ext; auto using same_request, same_test, (s_expr _ (same_all n)).
  - intros [[a b] c] t. apply IH.
  - intros [a b] t. apply IH.
Qed.

(** ** how deep *)
(** at most [N] deep, and what is left to read *)
Definition within {A} (N : nat) (P : toks -> Prop) (x : deep A) : Prop := snd x <= N /\ forall a ts, fst x = POk a ts -> P ts.
Lemma within_bind {A B} N (P Q : toks -> Prop) (x : deep A) (f : A -> toks -> deep B) :
  within N Q x -> (forall a ts, Q ts -> within N P (f a ts)) -> within N P (dbind x f).
Proof.
  intros [X1 X2] F. unfold dbind, within. destruct (fst x) as [a ts|e|] eqn:E; cbn [fst snd]; try (split; [exact X1|discriminate]).
  destruct (F a ts (X2 a ts eq_refl)) as [F1 F2]. split; [lia|exact F2].
Qed.
Lemma within_ok {A} N (P : toks -> Prop) (a : A) ts : P ts -> within N P (dok a ts).
Proof. intros H. split; [cbn; lia|]. intros ? ? [= <- <-]. exact H. Qed.
Lemma within_0 {A} N (P : toks -> Prop) (x : pres A) : (forall a ts, x = POk a ts -> P ts) -> within N P (d0 x).
Proof. intros H. split; [cbn; lia|exact H]. Qed.
Lemma within_err {A} N P e : within N P (derr e : deep A).
Proof. split; [cbn; lia|discriminate]. Qed.
Lemma within_fuel {A} N P : within N P (dfuel : deep A).
Proof. split; [cbn; lia|discriminate]. Qed.
Lemma within_weak {A} N M (P Q : toks -> Prop) (x : deep A) : within N P x -> N <= M -> (forall ts, P ts -> Q ts) -> within M Q x.
Proof. intros [A1 A2] L W. split; [lia|]. eauto. Qed.
Lemma within_deeper {A} N P (x : deep A) : within N P x -> within (S N) P (deeper x).
Proof. intros [X Y]. split; [cbn; lia|exact Y]. Qed.

Section Bound.
  Variable R : nat.
  Let C := 12 + R.
  Definition wt (ts : toks) : nat := rise ts + lets ts.
  Definition room (p : N) : nat := if (p <? 10)%N then (10 - N.to_nat p) + R else 0.
  Definition ready (m : nat) (ts : toks) : Prop := live ts /\ runs ts <= R /\ wt (tl ts) <= m.
  Lemma within_expect N k ts m : k <> KEof -> ready m ts ->
    within N (fun ts' => exists t0, ts = t0 :: ts' /\ tkind (current ts') = k /\ live ts' /\ runs ts' <= R) (d0 (expect k ts)).
  Proof.
    intros K (L & U & _). apply within_0. intros a ts' E. destruct (expect_ok _ _ _ _ L K E) as (t0 & t & r & -> & -> & T & S & W).
    exists t0. split; auto. split; auto. split; [now exists t, r|]. cbn [runs] in U. cbn [runs]. lia.
  Qed.
  Lemma live_tl ts : live ts -> next ts = tl ts /\ wf (tl ts).
  Proof. intros L. destruct (live_next _ L) as (W & t & E & _). rewrite E at 2 3. split; auto. Qed.
  Lemma runs_tl ts : runs (tl ts) <= runs ts.
  Proof. destruct ts; cbn [tl runs]; lia. Qed.
  Lemma run_runs ts : run ts <= runs ts.
  Proof. destruct ts; [cbn; lia|]. cbn [runs]. lia. Qed.

  (** weights of the current token *)
  Definition open_k (k : kind) : bool := match k with KLp | KLb | KLs => true | _ => false end.
  Definition close_k (k : kind) : bool := match k with KRp | KRb | KRs => true | _ => false end.
  Lemma wt_open ts : live ts -> open_k (tkind (current ts)) = true -> wt ts = S (wt (tl ts)).
  Proof. intros (t & r & -> & _) K. unfold wt. cbn [current tl rise lets] in *. destruct (tkind t); try discriminate K; reflexivity. Qed.
  Lemma wt_let ts : live ts -> tkind (current ts) = KLet -> wt ts = S (wt (tl ts)).
  Proof. intros (t & r & -> & _) K. unfold wt. cbn [current tl rise lets] in *. rewrite K. lia. Qed.
  Lemma wt_close ts : live ts -> close_k (tkind (current ts)) = true -> wt (tl ts) <= S (wt ts).
  Proof. intros (t & r & -> & _) K. unfold wt. cbn [current tl rise lets] in *. destruct (tkind t); try discriminate K; lia. Qed.
  Lemma wt_other ts : live ts -> close_k (tkind (current ts)) = false -> wt (tl ts) <= wt ts.
  Proof. intros (t & r & -> & _) K. unfold wt. cbn [current tl rise lets] in *. destruct (tkind t); try discriminate K; lia. Qed.

  Definition Q := 11 + R.
  Record bound_at (n : nat) : Prop := {
    b_expr : forall p ts, wf ts -> runs ts <= R -> within (1 + Nat.max (run ts) (room p) + wt ts * C) (ready (wt ts)) (deep_expr n p ts);
    b_loop : forall p l ts m, ready m ts -> within (room p + m * C) (ready m) (deep_loop n p l ts);
    b_let : forall ts m, ready m ts -> within (Q + m * C) (ready m) (deep_let n ts);
    b_unary : forall ts m, ready m ts -> (tkind (current ts) = KNot \/ tkind (current ts) = KSub) -> within (run ts + m * C) (ready m) (deep_unary n ts);
    b_binary : forall l ts m, ready m ts -> is_binop (tkind (current ts)) = true -> within (1 + Nat.max R (room (precedence (tkind (current ts)))) + m * C) (ready m) (deep_binary n l ts);
    b_paren : forall ts m, ready m ts -> within (Q + m * C) (ready (S m)) (deep_paren n ts);
    b_if : forall ts m, ready m ts -> within (m * C) (ready m) (deep_if n ts);
    b_call : forall f ts m, ready m ts -> within (Q + m * C) (ready (S m)) (deep_call n f ts);
    b_list : forall k ts m, ready m ts -> close_k k = true -> within (Q + m * C) (ready (S m)) (deep_list n k ts);
    b_list_loop : forall k ts m, ready m ts -> close_k k = true -> within (Q + m * C) (ready m) (deep_list_loop n k ts);
    b_array : forall ts m, ready m ts -> within (Q + m * C) (ready (S m)) (deep_array n ts);
    b_map : forall ts m, ready m ts -> within (Q + m * C) (ready (S m)) (deep_map n ts);
    b_map_loop : forall ts m, ready m ts -> within (Q + m * C) (ready m) (deep_map_loop n ts);
    b_index : forall l ts m, ready m ts -> within (Q + m * C) (ready (S m)) (deep_index n l ts);
    b_block : forall ts m, ready m ts -> within (m * C) (ready m) (deep_block n ts);
    b_block_loop : forall ts m, ready m ts -> within (Q + m * C) (ready m) (deep_block_loop n ts) }.

  Section Step.
    Variable n : nat.
    Hypothesis IH : bound_at n.
    Lemma room_0 : room 0 = 10 + R.
    Proof. reflexivity. Qed.
    (** an expression after the current token *)
    Lemma sub_expr ts m : ready m ts -> within (Q + m * C) (ready m) (deep_expr n prec_min (next ts)).
    Proof.
      intros (L & U & W). destruct (live_tl _ L) as [-> V]. pose proof (runs_tl ts). pose proof (run_runs (tl ts)).
      eapply within_weak; [apply (b_expr _ IH); [exact V|lia]| |].
      - unfold prec_min. rewrite room_0. unfold Q. nia.
      - intros ts' (L' & U' & W'). split; auto. split; auto. lia.
    Qed.
    (** step onto a token that is no closing bracket *)
    Lemma expect_other N k ts m : k <> KEof -> close_k k = false -> ready m ts ->
      within N (fun ts' => ready m ts' /\ tkind (current ts') = k /\ wt ts' <= m) (d0 (expect k ts)).
    Proof.
      intros K O G. eapply within_weak; [apply (within_expect N k ts m K G)|lia|]. intros ts' (t0 & -> & T & L & U). destruct G as (_ & _ & W). cbn [tl] in W.
      pose proof (wt_other ts' L ltac:(now rewrite T)). split; [split; [exact L|split; [exact U|lia]]|]. auto.
    Qed.
    Lemma expect_close N k ts m : close_k k = true -> ready m ts -> within N (ready (S m)) (d0 (expect k ts)).
    Proof.
      intros O G. eapply within_weak; [apply (within_expect N k ts m ltac:(now destruct k) G)|lia|]. intros ts' (t0 & -> & T & L & U). destruct G as (_ & _ & W). cbn [tl] in W.
      pose proof (wt_close ts' L ltac:(now rewrite T)). split; [exact L|]. split; [exact U|lia].
    Qed.
    Lemma expect_open N k ts m : open_k k = true -> ready m ts -> within N (fun ts' => exists j, m = S j /\ ready j ts') (d0 (expect k ts)).
    Proof.
      intros O G. eapply within_weak; [apply (within_expect N k ts m ltac:(now destruct k) G)|lia|]. intros ts' (t0 & -> & T & L & U). destruct G as (_ & _ & W). cbn [tl] in W.
      rewrite (wt_open ts' L ltac:(now rewrite T)) in W. exists (pred m). split; [lia|]. split; [exact L|]. split; [exact U|lia].
    Qed.
    Lemma skip_ready m ts : ready m ts -> ready m (skip_semi ts).
    Proof.
      intros (L & U & W). unfold skip_semi. destruct (peek_is KSemi ts) eqn:E; [|now split].
      destruct (peek_is_ok KSemi ts L ltac:(discriminate) E) as (t0 & t & r & -> & K & S & V & _). cbn [next tl runs] in *.
      assert (L' : live (t :: r)) by (now exists t, r). split; [exact L'|]. split; [cbn [runs]; lia|].
      pose proof (wt_other _ L' ltac:(cbn [current]; now rewrite K)). cbn [tl] in *. lia.
    Qed.
    Lemma step_let ts m : ready m ts -> within (Q + m * C) (ready m) (deep_let (S n) ts).
    Proof.
      intros G. cbn [deep_let]. eapply within_bind; [apply (expect_other _ KIdent ts m); auto; discriminate|]. intros _ t1 (G1 & _).
      eapply within_bind; [apply (expect_other _ KAssign t1 m); auto; discriminate|]. intros _ t2 (G2 & _).
      eapply within_bind; [apply sub_expr, G2|]. intros v t3 G3. apply within_ok. now apply skip_ready.
    Qed.
    Lemma step_unary ts m : ready m ts -> (tkind (current ts) = KNot \/ tkind (current ts) = KSub) -> within (run ts + m * C) (ready m) (deep_unary (S n) ts).
    Proof.
      intros (L & U & W) K. cbn [deep_unary]. cbv zeta. destruct (live_tl _ L) as [E V]. pose proof (runs_tl ts).
      assert (X : run ts = S (run (tl ts))) by (destruct L as (t & r & -> & _); cbn [current tl run] in *; destruct K as [-> | ->]; reflexivity).
      assert (P : room (precedence (tkind (current ts)) + (if kind_eqb (tkind (current ts)) KSub then 2 else 0)) = 0) by (destruct K as [-> | ->]; reflexivity).
      eapply within_bind; [eapply within_weak; [rewrite E; apply (b_expr _ IH); [exact V|lia]| |]|].
      - rewrite P, X. nia.
      - intros ts' (L' & U' & W'). instantiate (1 := ready m). split; auto. split; auto. lia.
      - intros r t1 G1. now apply within_ok.
    Qed.
    Lemma step_binary l ts m : ready m ts -> is_binop (tkind (current ts)) = true -> within (1 + Nat.max R (room (precedence (tkind (current ts)))) + m * C) (ready m) (deep_binary (S n) l ts).
    Proof.
      intros (L & U & W) K. cbn [deep_binary]. cbv zeta. destruct (live_tl _ L) as [E V]. pose proof (runs_tl ts). pose proof (run_runs (tl ts)).
      eapply within_bind; [eapply within_weak; [rewrite E; apply (b_expr _ IH); [exact V|lia]| |]|].
      - nia.
      - intros ts' (L' & U' & W'). instantiate (1 := ready m). split; auto. split; auto. lia.
      - intros r t1 G1. now apply within_ok.
    Qed.
    Lemma step_paren ts m : ready m ts -> within (Q + m * C) (ready (S m)) (deep_paren (S n) ts).
    Proof.
      intros G. cbn [deep_paren]. eapply within_bind; [apply sub_expr, G|]. intros e t1 G1. eapply within_bind; [apply (expect_close _ KRp t1 m); auto|]. intros _ t2 G2. now apply within_ok.
    Qed.
    Lemma step_index l ts m : ready m ts -> within (Q + m * C) (ready (S m)) (deep_index (S n) l ts).
    Proof.
      intros G. cbn [deep_index]. eapply within_bind; [apply sub_expr, G|]. intros e t1 G1. eapply within_bind; [apply (expect_close _ KRs t1 m); auto|]. intros _ t2 G2. now apply within_ok.
    Qed.
    Lemma step_block_loop ts m : ready m ts -> within (Q + m * C) (ready m) (deep_block_loop (S n) ts).
    Proof.
      intros G. cbn [deep_block_loop]. destruct (peek_is KRb ts); [now apply within_ok|]. eapply within_bind; [apply sub_expr, G|]. intros e t1 G1.
      eapply within_bind; [apply (b_block_loop _ IH), skip_ready, G1|]. intros es t2 G2. now apply within_ok.
    Qed.
    Lemma step_block ts m : ready m ts -> within (m * C) (ready m) (deep_block (S n) ts).
    Proof.
      intros G. cbn [deep_block]. eapply within_bind; [apply (expect_open _ KLb ts m); auto|]. intros _ t1 (j & -> & G1).
      eapply within_bind; [eapply within_weak; [apply (b_block_loop _ IH), G1|unfold Q, C; nia|intros ? X; exact X]|]. intros es t2 G2.
      eapply within_bind; [apply (expect_close _ KRb t2 j); auto|]. intros _ t3 G3. now apply within_ok.
    Qed.
    Lemma step_if ts m : ready m ts -> within (m * C) (ready m) (deep_if (S n) ts).
    Proof.
      intros G. cbn [deep_if]. eapply within_bind; [apply (expect_open _ KLp ts m); auto|]. intros _ t1 (j & -> & G1).
      eapply within_bind; [eapply within_weak; [apply sub_expr, G1|unfold Q, C; nia|intros ? X; exact X]|]. intros c t2 G2.
      eapply within_bind; [apply (expect_close _ KRp t2 j); auto|]. intros _ t3 G3. eapply within_bind; [apply (b_block _ IH), G3|]. intros cs t4 G4.
      destruct (peek_is KElse t4) eqn:E; [|now apply within_ok]. destruct G4 as (L & U & W).
      destruct (peek_is_ok KElse t4 L ltac:(discriminate) E) as (t0 & t & r & -> & K & S & V & _). cbn [next tl runs] in *.
      assert (L' : live (t :: r)) by (now exists t, r). assert (G5 : ready (Datatypes.S j) (t :: r)).
      { split; [exact L'|]. split; [cbn [runs]; lia|]. pose proof (wt_other _ L' ltac:(cbn [current]; now rewrite K)). cbn [tl] in *. lia. }
      eapply within_bind; [apply (b_block _ IH), G5|]. intros alt t6 G6. now apply within_ok.
    Qed.
    Lemma step_list_loop k ts m : ready m ts -> close_k k = true -> within (Q + m * C) (ready m) (deep_list_loop (S n) k ts).
    Proof.
      intros G K. cbn [deep_list_loop]. destruct (peek_is k ts); [now apply within_ok|]. eapply within_bind; [apply sub_expr, G|]. intros e t1 G1. destruct (peek_is k t1).
      - eapply within_bind; [apply (b_list_loop _ IH); eauto|]. intros es t2 G2. now apply within_ok.
      - eapply within_bind; [apply (expect_other _ KComma t1 m); auto; discriminate|]. intros _ t2 (G2 & _). eapply within_bind; [apply (b_list_loop _ IH); eauto|]. intros es t3 G3. now apply within_ok.
    Qed.
    Lemma step_list k ts m : ready m ts -> close_k k = true -> within (Q + m * C) (ready (S m)) (deep_list (S n) k ts).
    Proof.
      intros G K. cbn [deep_list]. eapply within_bind; [apply (b_list_loop _ IH); eauto|]. intros es t1 G1. eapply within_bind; [apply (expect_close _ k t1 m); auto|]. intros _ t2 G2. now apply within_ok.
    Qed.
    Lemma step_call f ts m : ready m ts -> within (Q + m * C) (ready (S m)) (deep_call (S n) f ts).
    Proof.
      intros G. cbn [deep_call]. eapply within_bind; [apply (b_list _ IH); eauto|]. intros es t1 G1. destruct f; try apply within_err. now apply within_ok.
    Qed.
    Lemma step_array ts m : ready m ts -> within (Q + m * C) (ready (S m)) (deep_array (S n) ts).
    Proof.
      intros G. cbn [deep_array]. eapply within_bind; [apply (b_list _ IH); eauto|]. intros es t1 G1. now apply within_ok.
    Qed.
    Lemma step_map_loop ts m : ready m ts -> within (Q + m * C) (ready m) (deep_map_loop (S n) ts).
    Proof.
      intros G. cbn [deep_map_loop]. destruct (peek_is KRb ts); [now apply within_ok|]. eapply within_bind; [apply sub_expr, G|]. intros k t1 G1.
      eapply within_bind; [apply (expect_other _ KColon t1 m); auto; discriminate|]. intros _ t2 (G2 & _). eapply within_bind; [apply sub_expr, G2|]. intros v t3 G3. destruct (peek_is KRb t3).
      - eapply within_bind; [apply (b_map_loop _ IH); eauto|]. intros es t4 G4. now apply within_ok.
      - eapply within_bind; [apply (expect_other _ KComma t3 m); auto; discriminate|]. intros _ t4 (G4 & _). eapply within_bind; [apply (b_map_loop _ IH); eauto|]. intros es t5 G5. now apply within_ok.
    Qed.
    Lemma step_map ts m : ready m ts -> within (Q + m * C) (ready (S m)) (deep_map (S n) ts).
    Proof.
      intros G. cbn [deep_map]. eapply within_bind; [apply (b_map_loop _ IH); eauto|]. intros es t1 G1. eapply within_bind; [apply (expect_close _ KRb t1 m); auto|]. intros _ t2 G2. now apply within_ok.
    Qed.
    Lemma room_binop p q : (p < q)%N -> (q <= 10)%N -> 1 + Nat.max R (room q) <= room p.
    Proof.
      intros A B. unfold room. destruct (N.ltb_spec q 10), (N.ltb_spec p 10); lia.
    Qed.
    Lemma step_loop p l ts m : ready m ts -> within (room p + m * C) (ready m) (deep_loop (S n) p l ts).
    Proof.
      intros G. cbn [deep_loop]. destruct (negb (peek_is KSemi ts) && (p <? peek_precedence ts)%N) eqn:E; [|now apply within_ok].
      apply andb_prop in E. destruct E as [_ E]. apply N.ltb_lt in E. unfold peek_precedence in E. destruct (peek ts) as [t|] eqn:T; [|now destruct (N.nlt_0_r _ E)].
      assert (exists t0 r, ts = t0 :: t :: r) as (t0 & r & ->) by (destruct ts as [|t0 [|t' r]]; try discriminate T; injection T as ->; eauto).
      destruct G as (L & U & W). cbn [next tl runs] in *. destruct L as (t0' & r0 & X & S0 & V). injection X as <- <-.
      assert (NE : tkind t <> KEof) by (intros X; rewrite X in E; cbn in E; lia).
      assert (L' : live (t :: r)) by (apply wf_live; auto). assert (U' : runs (t :: r) <= R) by (cbn [runs]; lia).
      assert (CL : close_k (tkind t) = false) by (destruct (tkind t); auto; cbn in E; lia).
      pose proof (wt_other _ L' CL) as W'. cbn [tl] in W'. assert (G' : ready m (t :: r)) by (split; [exact L'|split; [exact U'|cbn [tl]; lia]]).
      assert (G0 : ready m (t0 :: t :: r)) by (split; [exists t0, (t :: r); auto|split; [cbn [runs] in *; lia|exact W]]).
      destruct (is_binop (tkind t)) eqn:B.
      - eapply within_bind; [eapply within_weak; [apply (b_binary _ IH); [exact G'|exact B]| |intros ? Y; exact Y]|intros e t1 G1; now apply (b_loop _ IH)].
        cbn [current]. pose proof (room_binop p _ E ltac:(apply binop_range, B)). lia.
      - assert (OB : open_k (tkind t) = true -> exists j, m = S j /\ ready j (t :: r)).
        { intros O. pose proof (wt_open _ L' O) as Y. cbn [tl] in Y. exists (pred m). split; [lia|]. split; [exact L'|]. split; [exact U'|cbn [tl]; lia]. }
        destruct (tkind t) eqn:K; try now apply (b_loop _ IH).
        + eapply within_bind; [|intros e t1 G1; apply (b_loop _ IH); exact G1]. apply within_0. intros e ts' X. unfold parse_field in X.
          assert (Z : within 0 (fun ts' => ready m ts' /\ tkind (current ts') = KIdent /\ wt ts' <= m) (d0 (expect KIdent (t :: r)))) by (apply expect_other; auto; discriminate).
          destruct (expect KIdent (t :: r)) as [u t1|?|]; try discriminate X. cbn [pbind] in X. injection X as <- <-. destruct Z as [_ Z]. now apply (Z u).
        + destruct (OB eq_refl) as (j & -> & Gj). eapply within_bind; [eapply within_weak; [apply (b_call _ IH), Gj|unfold Q, C; nia|intros ? Y; exact Y]|intros e t1 G1; now apply (b_loop _ IH)].
        + destruct (OB eq_refl) as (j & -> & Gj). eapply within_bind; [eapply within_weak; [apply (b_index _ IH), Gj|unfold Q, C; nia|intros ? Y; exact Y]|intros e t1 G1; now apply (b_loop _ IH)].
    Qed.
    Lemma step_expr p ts : wf ts -> runs ts <= R -> within (1 + Nat.max (run ts) (room p) + wt ts * C) (ready (wt ts)) (deep_expr (S n) p ts).
    Proof.
      intros V U. cbn [deep_expr]. apply (within_deeper (Nat.max (run ts) (room p) + wt ts * C)).
      destruct (tkind (current ts)) eqn:K; try apply within_err; (assert (L : live ts) by (apply wf_live; auto; congruence)).
      all: assert (LP : forall q e t1, room q <= room p -> ready (wt ts) t1 -> within (Nat.max (run ts) (room p) + wt ts * C) (ready (wt ts)) (deep_loop n q e t1))
        by (intros q e t1 RQ G1; eapply within_weak; [apply (b_loop _ IH), G1|lia|auto]).
      all: assert (CUR : close_k (tkind (current ts)) = false -> ready (wt ts) ts) by (intros O; split; [exact L|split; [exact U|now apply wt_other]]).
      all: assert (OB : open_k (tkind (current ts)) = true -> exists j, wt ts = S j /\ ready j ts)
        by (intros O; exists (wt (tl ts)); split; [now apply wt_open|split; [exact L|split; [exact U|lia]]]).
      all: rewrite K in CUR, OB; cbn in CUR, OB.
      - apply LP; auto.
      - eapply within_bind; [|intros e t1 G1; apply LP; [lia|exact G1]]. apply within_0. intros e t1 X. unfold parse_integer_literal in X.
        destruct (digits_val _ _); [destruct (_ <=? _)%Z|]; try discriminate X. injection X as <- <-. auto.
      - eapply within_bind; [|intros e t1 G1; apply LP; [lia|exact G1]]. apply within_0. intros e t1 X. unfold parse_float_literal in X.
        destruct (parse_f64 _); try discriminate X. injection X as <- <-. auto.
      - eapply within_bind; [|intros e t1 G1; apply LP; [lia|exact G1]]. apply within_0. intros e t1 X. unfold parse_boolean_literal in X.
        destruct (str_eqb _ _); [|destruct (str_eqb _ _)]; try discriminate X; injection X as <- <-; auto.
      - eapply within_bind; [|intros e t1 G1; apply LP; [lia|exact G1]]. apply within_0. intros e t1 X. unfold parse_boolean_literal in X.
        destruct (str_eqb _ _); [|destruct (str_eqb _ _)]; try discriminate X; injection X as <- <-; auto.
      - apply LP; auto.
      - eapply within_bind; [eapply within_weak; [apply (b_unary _ IH); [now apply CUR|auto]|lia|intros ? Y; exact Y]|intros e t1 G1; now apply LP].
      - eapply within_bind; [eapply within_weak; [apply (b_unary _ IH); [now apply CUR|auto]|lia|intros ? Y; exact Y]|intros e t1 G1; now apply LP].
      - destruct (OB eq_refl) as (j & E & G). rewrite E in *. eapply within_bind; [eapply within_weak; [apply (b_paren _ IH), G|unfold Q, C; nia|intros ? Y; exact Y]|intros e t1 G1; now apply LP].
      - destruct (OB eq_refl) as (j & E & G). rewrite E in *. eapply within_bind; [eapply within_weak; [apply (b_map _ IH), G|unfold Q, C; nia|intros ? Y; exact Y]|intros e t1 G1; now apply LP].
      - destruct (OB eq_refl) as (j & E & G). rewrite E in *. eapply within_bind; [eapply within_weak; [apply (b_array _ IH), G|unfold Q, C; nia|intros ? Y; exact Y]|intros e t1 G1; now apply LP].
      - pose proof (wt_let ts L K) as E. rewrite E in *. assert (G : ready (wt (tl ts)) ts) by (split; [exact L|split; [exact U|lia]]).
        eapply within_bind; [eapply within_weak; [apply (b_let _ IH), G|unfold Q, C; nia|intros ? Y; exact Y]|intros e t1 (L1 & U1 & W1)]. apply LP; [change (room prec_max) with 0; lia|]. split; [exact L1|]. split; [exact U1|lia].
      - eapply within_bind; [eapply within_weak; [apply (b_if _ IH), CUR, eq_refl|lia|intros ? Y; exact Y]|intros e t1 G1; now apply LP].
    Qed.
  End Step.
  Lemma bound_all n : bound_at n.
  Proof.
    induction n as [|n IH]; [constructor; intros; apply within_fuel|].
    constructor; intros; eauto using step_expr, step_loop, step_let, step_unary, step_binary, step_paren, step_if, step_call,
      step_list, step_list_loop, step_array, step_map, step_map_loop, step_index, step_block, step_block_loop.
  Qed.
  Lemma next_ready m ts : ready m ts -> wf (next ts) /\ runs (next ts) <= R /\ wt (next ts) <= m.
  Proof. intros (L & U & W). destruct (live_tl _ L) as [-> V]. pose proof (runs_tl ts). repeat split; auto. lia. Qed.
  Lemma bound_request n ts m : ready m ts -> within (Q + m * C) (ready m) (deep_request n ts).
  Proof.
    intros G. unfold deep_request. eapply within_bind; [apply (expect_other _ KIdent ts m); auto; discriminate|]. intros _ t1 (G1 & _).
    eapply within_bind; [apply (expect_other _ KTemplate t1 m); auto; discriminate|]. intros _ t2 (G2 & _). cbv zeta.
    destruct (peek_is KLs t2) eqn:E; [|now apply within_ok]. destruct G2 as (L & U & W).
    destruct (peek_is_ok KLs t2 L ltac:(discriminate) E) as (t0 & t & r & -> & K & S & V & _). cbn [next tl runs] in *.
    assert (L' : live (t :: r)) by (now exists t, r). assert (exists j, m = Datatypes.S j /\ ready j (t :: r)) as (j & -> & Gj).
    { pose proof (wt_open _ L' ltac:(cbn [current]; now rewrite K)) as Y. cbn [tl] in Y. exists (pred m). split; [lia|]. split; [exact L'|]. split; [cbn [runs]; lia|cbn [tl]; lia]. }
    eapply within_bind; [eapply within_weak; [apply (b_list _ (bound_all n)); [exact Gj|reflexivity]|unfold Q, C; nia|intros ? Y; exact Y]|]. intros as_ t3 G3. now apply within_ok.
  Qed.
  Lemma bound_test n ts m : ready m ts -> within (Q + m * C) (ready m) (deep_test n ts).
  Proof.
    intros G. unfold deep_test. eapply within_bind; [apply (expect_other _ KIdent ts m); auto; discriminate|]. intros _ t1 (G1 & _). cbv zeta.
    eapply within_bind; [eapply within_weak; [apply (b_block _ (bound_all n)), G1|lia|intros ? Y; exact Y]|]. intros b t2 G2. now apply within_ok.
  Qed.
  Lemma bound_top n m : forall src ts, wf ts -> runs ts <= R -> wt ts <= m -> snd (deep_top n src ts) <= Q + m * C.
  Proof.
    induction n as [|n IH]; intros src ts V U W; [cbn; lia|].
    assert (L0 : tkind (current ts) <> KEof -> close_k (tkind (current ts)) = false -> ready m ts).
    { intros K O. pose proof (wf_live _ V K) as L. split; [exact L|]. split; [exact U|]. pose proof (wt_other _ L O). lia. }
    assert (SX : forall (s2 : source) t1, ready m t1 -> within (Q + m * C) (fun _ => True) (deep_top n s2 (next (skip_semi t1)))).
    { intros s2 t1 G1. destruct (next_ready m _ (skip_ready m t1 G1)) as (A & B & D). split; [now apply IH|auto]. }
    assert (EX : within (Q + m * C) (ready m) (deep_expr n prec_min ts)).
    { pose proof (run_runs ts). eapply within_weak; [apply (b_expr _ (bound_all n)); auto| |].
      - unfold prec_min. rewrite room_0. unfold Q. nia.
      - intros t1 (L1 & U1 & W1). split; auto. split; auto. lia. }
    enough (H : within (Q + m * C) (fun _ => True) (deep_top (S n) src ts)) by apply H.
    cbn [deep_top]. destruct (tkind (current ts)) eqn:K; try (eapply within_bind; [apply EX|intros e t1 G1; now apply SX]).
    - now apply within_ok.
    - eapply within_bind; [apply (bound_request n ts m), L0; [discriminate|reflexivity]|]. intros [[a b] c] t1 G1. now apply SX.
    - eapply within_bind; [apply (bound_test n ts m), L0; [discriminate|reflexivity]|]. intros [a b] t1 G1. now apply SX.
  Qed.
End Bound.

(** At most twelve calls, and one for each [!] and [-] in a row, for each bracket open at once and each [let] *)
Theorem parse_depth_brackets n text :
  snd (deep_top n (Source [] [] []) (segment text)) <= (rise (segment text) + lets (segment text) + 1) * (12 + runs (segment text)).
Proof.
  etransitivity; [apply (bound_top (runs (segment text)) n (wt (segment text))); auto using wf_segment|]. unfold Q, wt. lia.
Qed.

(** ** every nested call reads a token *)
Definition left (m : nat) (ts : toks) : Prop := live ts /\ length (tl ts) <= m.
Lemma left_expect N k ts m : k <> KEof -> left m ts -> within N (left m) (d0 (expect k ts)).
Proof.
  intros K (L & W). apply within_0. intros a ts' E. destruct (expect_ok _ _ _ _ L K E) as (t0 & t & r & -> & -> & T & S & V).
  split; [now exists t, r|]. cbn [tl length] in *. lia.
Qed.
Lemma left_next ts m : left m ts -> tkind (current (next ts)) <> KEof -> left m (next ts).
Proof.
  intros (L & W) K. destruct (live_tl _ L) as [E V]. rewrite E in *. split; [now apply wf_live|]. destruct (tl ts); cbn [tl length] in *; lia.
Qed.
Lemma left_peek k ts m : k <> KEof -> left m ts -> peek_is k ts = true -> left m (next ts).
Proof.
  intros K G E. apply left_next; auto. destruct G as [L _]. destruct (peek_is_ok k ts L K E) as (t0 & t & r & -> & T & S & V & _). cbn [next current]. now rewrite T.
Qed.
Lemma left_skip ts m : left m ts -> left m (skip_semi ts).
Proof. intros G. unfold skip_semi. destruct (peek_is KSemi ts) eqn:E; auto. apply (left_peek KSemi); auto. discriminate. Qed.
Record count_at (n : nat) : Prop := {
  n_expr : forall p ts m, wf ts -> length ts <= S m -> within (S m) (left m) (deep_expr n p ts);
  n_loop : forall p l ts m, left m ts -> within m (left m) (deep_loop n p l ts);
  n_let : forall ts m, left m ts -> within m (left m) (deep_let n ts);
  n_unary : forall ts m, left m ts -> within m (left m) (deep_unary n ts);
  n_binary : forall l ts m, left m ts -> within m (left m) (deep_binary n l ts);
  n_paren : forall ts m, left m ts -> within m (left m) (deep_paren n ts);
  n_if : forall ts m, left m ts -> within m (left m) (deep_if n ts);
  n_call : forall f ts m, left m ts -> within m (left m) (deep_call n f ts);
  n_list : forall k ts m, k <> KEof -> left m ts -> within m (left m) (deep_list n k ts);
  n_list_loop : forall k ts m, k <> KEof -> left m ts -> within m (left m) (deep_list_loop n k ts);
  n_array : forall ts m, left m ts -> within m (left m) (deep_array n ts);
  n_map : forall ts m, left m ts -> within m (left m) (deep_map n ts);
  n_map_loop : forall ts m, left m ts -> within m (left m) (deep_map_loop n ts);
  n_index : forall l ts m, left m ts -> within m (left m) (deep_index n l ts);
  n_block : forall ts m, left m ts -> within m (left m) (deep_block n ts);
  n_block_loop : forall ts m, left m ts -> within m (left m) (deep_block_loop n ts) }.
Lemma count_sub n p ts m : count_at n -> left m ts -> within m (left m) (deep_expr n p (next ts)).
Proof.
  intros IH (L & W). destruct (live_tl _ L) as [-> V]. destruct (wf_nonempty _ V) as (t & r & E). rewrite E in W. cbn [length] in W. destruct m as [|m]; [lia|].
  eapply within_weak; [apply (n_expr _ IH _ _ m); [exact V|rewrite E; cbn [length]; lia]|lia|]. intros ts' [A B]. split; auto.
Qed.
Ltac count IH := repeat (first
  [ apply within_ok | apply within_err | solve [auto using left_skip] | discriminate
  | eapply within_bind; [solve [apply left_expect; [discriminate|eauto]]|intros ? ? ?]
  | eapply within_bind; [solve [apply left_expect; eauto]|intros ? ? ?]
  | eapply within_bind; [first
      [ solve [apply (count_sub _ _ _ _ IH); eauto] | solve [apply (n_loop _ IH); auto using left_skip] | solve [apply (n_let _ IH); eauto] | solve [apply (n_unary _ IH); eauto] | solve [apply (n_binary _ IH); eauto]
      | solve [apply (n_paren _ IH); eauto] | solve [apply (n_if _ IH); eauto] | solve [apply (n_call _ IH); eauto] | solve [apply (n_list _ IH); [first [discriminate|eauto]|eauto]]
      | solve [apply (n_list_loop _ IH); eauto] | solve [apply (n_array _ IH); eauto] | solve [apply (n_map _ IH); eauto] | solve [apply (n_map_loop _ IH); auto using left_skip]
      | solve [apply (n_index _ IH); eauto] | solve [apply (n_block _ IH); first [eassumption|apply (left_peek KElse); [discriminate|eassumption|assumption]]] | solve [apply (n_block_loop _ IH); auto using left_skip] ]|intros ? ? ?]
  | match goal with |- within _ _ (if ?b then _ else _) => destruct b eqn:? | |- within _ _ (match ?x with _ => _ end) => destruct x eqn:? end ]).
Lemma count_all n : count_at n.
Proof.
  induction n as [|n IH]; [constructor; intros; apply within_fuel|]. constructor; intros.
  - cbn [deep_expr]. apply within_deeper. destruct (tkind (current ts)) eqn:K; try apply within_err; (assert (L : left m ts) by (split; [apply wf_live; auto; congruence|destruct ts; cbn [tl length] in *; lia])).
    all: assert (LP : forall q e t1, left m t1 -> within m (left m) (deep_loop n q e t1)) by (intros; now apply (n_loop _ IH)).
    all: try (now apply LP).
    all: eapply within_bind; [|intros e t1 G1; apply LP; exact G1].
    all: try (first [now apply (n_let _ IH)|now apply (n_unary _ IH)|now apply (n_paren _ IH)|now apply (n_if _ IH)|now apply (n_array _ IH)|now apply (n_map _ IH)]).
    all: apply within_0; intros e t1 X; unfold parse_integer_literal, parse_float_literal, parse_boolean_literal in X;
      repeat match type of X with context [match ?x with _ => _ end] => destruct x; try discriminate X end; injection X as <- <-; exact L.
  - cbn [deep_loop]. destruct (negb (peek_is KSemi ts) && (p <? peek_precedence ts)%N) eqn:E; [|now apply within_ok].
    apply andb_prop in E. destruct E as [_ E]. apply N.ltb_lt in E. unfold peek_precedence in E. destruct (peek ts) as [t|] eqn:T; [|now destruct (N.nlt_0_r _ E)].
    assert (G' : left m (next ts)).
    { apply left_next; auto. destruct ts as [|t0 [|t' r]]; try discriminate T. injection T as ->. cbn [next current]. intros X. rewrite X in E. cbn in E. lia. }
    destruct (is_binop (tkind t)) eqn:B; [eapply within_bind; [now apply (n_binary _ IH)|intros e t1 G1; now apply (n_loop _ IH)]|].
    destruct (tkind t); try (now apply (n_loop _ IH)).
    + eapply within_bind; [|intros e t1 G1; apply (n_loop _ IH); exact G1]. apply within_0. intros e t1 X. unfold parse_field in X.
      destruct (left_expect 0 KIdent (next ts) m ltac:(discriminate) G') as [_ Z]. cbn [d0 fst] in Z. destruct (expect KIdent (next ts)) as [u t2|?|]; try discriminate X. cbn [pbind] in X. injection X as <- <-. now apply (Z u).
    + eapply within_bind; [now apply (n_call _ IH)|intros e t1 G1; now apply (n_loop _ IH)].
    + eapply within_bind; [now apply (n_index _ IH)|intros e t1 G1; now apply (n_loop _ IH)].
  - cbn [deep_let]. count IH.
  - cbn [deep_unary]. cbv zeta. count IH.
  - cbn [deep_binary]. cbv zeta. count IH.
  - cbn [deep_paren]. count IH.
  - cbn [deep_if]. count IH.
  - cbn [deep_call]. count IH.
  - cbn [deep_list]. count IH.
  - cbn [deep_list_loop]. count IH.
  - cbn [deep_array]. count IH.
  - cbn [deep_map]. count IH.
  - cbn [deep_map_loop]. count IH.
  - cbn [deep_index]. count IH.
  - cbn [deep_block]. count IH.
  - cbn [deep_block_loop]. count IH.
Qed.
Lemma count_top n m : forall src ts, wf ts -> length ts <= S m -> snd (deep_top n src ts) <= S m.
Proof.
  induction n as [|n IH]; intros src ts V W; [cbn; lia|].
  assert (L0 : tkind (current ts) <> KEof -> left m ts) by (intros K; split; [now apply wf_live|destruct ts; cbn [tl length] in *; lia]).
  assert (SX : forall (s2 : source) t1, left m t1 -> within (S m) (fun _ => True) (deep_top n s2 (next (skip_semi t1)))).
  { intros s2 t1 G1. apply left_skip in G1. destruct G1 as [L W1]. destruct (live_tl _ L) as [-> V1]. split; [apply IH; auto|auto]. }
  enough (H : within (S m) (fun _ => True) (deep_top (S n) src ts)) by apply H. pose proof (count_all n) as A.
  cbn [deep_top]. destruct (tkind (current ts)) eqn:K; try (eapply within_bind; [apply (n_expr _ A); auto|intros e t1 G1; now apply SX]).
  - now apply within_ok.
  - eapply within_bind; [|intros [[a b] c] t1 G1; apply SX; exact G1]. pose proof (L0 ltac:(discriminate)) as G. unfold deep_request.
    eapply within_bind; [apply (left_expect _ KIdent ts m); auto; discriminate|]. intros _ t1 G1. eapply within_bind; [apply (left_expect _ KTemplate t1 m); auto; discriminate|]. intros _ t2 G2. cbv zeta.
    destruct (peek_is KLs t2) eqn:E; [|now apply within_ok].
    eapply within_bind; [eapply within_weak; [apply (n_list _ A KRs _ m); [discriminate|apply (left_peek KLs); auto; discriminate]|lia|intros ? Y; exact Y]|]. intros as_ t3 G3. now apply within_ok.
  - eapply within_bind; [|intros [a b] t1 G1; apply SX; exact G1]. pose proof (L0 ltac:(discriminate)) as G. unfold deep_test.
    eapply within_bind; [apply (left_expect _ KIdent ts m); auto; discriminate|]. intros _ t1 G1. cbv zeta.
    eapply within_bind; [eapply within_weak; [apply (n_block _ A), G1|lia|intros ? Y; exact Y]|]. intros b t2 G2. now apply within_ok.
Qed.
Theorem parse_depth_tokens n text : snd (deep_top n (Source [] [] []) (segment text)) <= length (segment text).
Proof.
  destruct (wf_nonempty _ (wf_segment text)) as (t & r & E). rewrite E at 2. cbn [length]. apply count_top; [apply wf_segment|]. rewrite E. cbn [length]. lia.
Qed.

(** ** brackets open at once need nested calls *)
Lemma dbind_ok {A B} (x : deep A) (f : A -> toks -> deep B) b ts' : fst (dbind x f) = POk b ts' ->
  exists a t1, fst x = POk a t1 /\ fst (f a t1) = POk b ts' /\ snd (dbind x f) = Nat.max (snd x) (snd (f a t1)).
Proof. unfold dbind. destruct (fst x) as [a t1|e|]; cbn [fst snd]; try discriminate. intros E. exists a, t1. auto. Qed.
(** from [m] the depth and what is left account for everything *)
Definition climb {A} (m : nat) (c g : nat -> nat) (x : deep A) : Prop :=
  forall a ts', fst x = POk a ts' -> live ts' /\ m <= Nat.max (c (snd x)) (g (rise (tl ts'))).
Definition same_ (n : nat) : nat := n.
Record low_at (n : nat) : Prop := {
  l_expr : forall p ts, wf ts -> climb (Nat.max 1 (rise ts)) same_ same_ (deep_expr n p ts);
  l_loop : forall p l ts, live ts -> climb (rise (tl ts)) S same_ (deep_loop n p l ts);
  l_let : forall ts, live ts -> climb (rise (tl ts)) same_ same_ (deep_let n ts);
  l_unary : forall ts, live ts -> climb (rise (tl ts)) same_ same_ (deep_unary n ts);
  l_binary : forall l ts, live ts -> climb (rise (tl ts)) same_ same_ (deep_binary n l ts);
  l_paren : forall ts, live ts -> climb (rise (tl ts)) same_ pred (deep_paren n ts);
  l_if : forall ts, live ts -> climb (rise (tl ts)) S same_ (deep_if n ts);
  l_call : forall f ts, live ts -> climb (rise (tl ts)) same_ pred (deep_call n f ts);
  l_list : forall k ts, live ts -> close_k k = true -> climb (rise (tl ts)) same_ pred (deep_list n k ts);
  l_list_loop : forall k ts, live ts -> close_k k = true -> climb (rise (tl ts)) same_ same_ (deep_list_loop n k ts);
  l_array : forall ts, live ts -> climb (rise (tl ts)) same_ pred (deep_array n ts);
  l_map : forall ts, live ts -> climb (rise (tl ts)) same_ pred (deep_map n ts);
  l_map_loop : forall ts, live ts -> climb (rise (tl ts)) same_ same_ (deep_map_loop n ts);
  l_index : forall l ts, live ts -> climb (rise (tl ts)) same_ pred (deep_index n l ts);
  l_block : forall ts, live ts -> climb (rise (tl ts)) S same_ (deep_block n ts);
  l_block_loop : forall ts, live ts -> climb (rise (tl ts)) same_ same_ (deep_block_loop n ts) }.
Lemma low_expect k ts a ts' : live ts -> k <> KEof -> expect k ts = POk a ts' -> live ts' /\
  rise (tl ts) = (if open_k k then S (rise (tl ts')) else if close_k k then pred (rise (tl ts')) else rise (tl ts')).
Proof.
  intros L K E. destruct (expect_ok _ _ _ _ L K E) as (t0 & t & r & -> & -> & T & S & W). split; [now exists t, r|]. cbn [tl rise]. rewrite T. now destruct k.
Qed.
Lemma low_skip ts : live ts -> live (skip_semi ts) /\ rise (tl ts) = rise (tl (skip_semi ts)).
Proof.
  intros L. unfold skip_semi. destruct (peek_is KSemi ts) eqn:E; [|auto]. destruct (peek_is_ok KSemi ts L ltac:(discriminate) E) as (t0 & t & r & -> & K & S & V & _).
  cbn [next]. split; [now exists t, r|]. cbn [tl rise]. now rewrite K.
Qed.
Lemma low_sub n p ts a ts' : low_at n -> live ts -> fst (deep_expr n p (next ts)) = POk a ts' ->
  live ts' /\ rise (tl ts) <= Nat.max (snd (deep_expr n p (next ts))) (rise (tl ts')).
Proof.
  intros IH L E. destruct (live_tl _ L) as [X V]. rewrite X in *. destruct (l_expr _ IH p _ V _ _ E) as [A B]. unfold same_ in *. split; auto. lia.
Qed.
Ltac low IH := intros; let a := fresh "a" in let t := fresh "t" in let H := fresh "H" in intros a t H; repeat (match goal with
  | H : fst (dbind _ _) = POk _ _ |- _ => let E1 := fresh "E" in let E2 := fresh "E" in let E3 := fresh "E" in apply dbind_ok in H; destruct H as (? & ? & E1 & E2 & E3); rewrite E3 in *; clear E3
  | H : fst (dok _ _) = POk _ _ |- _ => cbn [dok d0 fst] in H; injection H as <- <-
  | H : fst (derr _) = POk _ _ |- _ => discriminate H
  | H : fst (d0 (expect ?k ?ts)) = POk _ _, L : live ?ts |- _ => cbn [d0 fst] in H; apply (low_expect k ts _ _ L) in H; [|first [discriminate|now destruct k]]; destruct H as [? H]; cbn [open_k close_k] in H
  | H : fst (deep_expr _ _ (next ?ts)) = POk _ _, L : live ?ts |- _ => apply (low_sub _ _ _ _ _ IH L) in H; destruct H
  | L : live ?ts |- context [skip_semi ?ts] => lazymatch goal with _ : live (skip_semi ts) |- _ => fail | |- _ => destruct (low_skip ts L) end
  | L : live ?ts, _ : context [skip_semi ?ts] |- _ => lazymatch goal with _ : live (skip_semi ts) |- _ => fail | |- _ => destruct (low_skip ts L) end
  | H : fst (deep_list_loop _ _ ?ts) = POk _ _, L : live ?ts |- _ => apply (l_list_loop _ IH _ _ L) in H; [|assumption]; destruct H
  | H : fst (deep_list _ _ ?ts) = POk _ _, L : live ?ts |- _ => apply (l_list _ IH _ _ L) in H; [|reflexivity]; destruct H
  | H : fst (deep_map_loop _ ?ts) = POk _ _, L : live ?ts |- _ => apply (l_map_loop _ IH _ L) in H; destruct H
  | H : fst (deep_block_loop _ ?ts) = POk _ _, L : live ?ts |- _ => apply (l_block_loop _ IH _ L) in H; destruct H
  | H : fst (deep_block _ ?ts) = POk _ _, L : live ?ts |- _ => apply (l_block _ IH _ L) in H; destruct H
  | H : fst (if ?b then _ else _) = POk _ _ |- _ => destruct b eqn:?
  | H : fst (match ?x with _ => _ end) = POk _ _ |- _ => destruct x eqn:?
  end); unfold same_ in *; cbn [dok d0 fst snd] in *.
Lemma low_all n : low_at n.
Proof.
  induction n as [|n IH]; [constructor; intros; intros a t E; discriminate E|]. constructor.
  - intros p ts V a ts' E. cbn [deep_expr] in *. unfold deeper in *. cbn [fst snd] in *. unfold same_.
    destruct (tkind (current ts)) eqn:K; try discriminate E; (assert (L : live ts) by (apply wf_live; auto; congruence)).
    all: assert (RZ : rise ts = if open_k (tkind (current ts)) then S (rise (tl ts)) else rise (tl ts))
      by (destruct L as (t0 & r0 & -> & _); cbn [current tl rise] in *; rewrite K; reflexivity).
    all: rewrite K in RZ; cbn [open_k] in RZ.
    all: assert (LP : forall q e t1 t2 a, live t1 -> fst (deep_loop n q e t1) = POk a t2 -> live t2 /\ rise (tl t1) <= Nat.max (S (snd (deep_loop n q e t1))) (rise (tl t2)))
      by (intros q e t1 t2 b L1 E1; exact (l_loop _ IH q e t1 L1 b t2 E1)).
    all: try (destruct (LP _ _ _ _ _ L E); split; [assumption|lia]).
    all: apply dbind_ok in E; destruct E as (e & t1 & E1 & E2 & ->).
    all: assert (X : (t1 = ts /\ rise ts = rise (tl ts)) \/ live t1 /\ rise ts <= Nat.max (S (snd (match tkind (current ts) with KNot | KSub => deep_unary n ts | KLp => deep_paren n ts | KLb => deep_map n ts | KLs => deep_array n ts | KLet => deep_let n ts | KIf => deep_if n ts | _ => dfuel end))) (rise (tl t1))).
    all: rewrite ?K.
    all: try (left; cbn [d0 fst] in E1; unfold parse_integer_literal, parse_float_literal, parse_boolean_literal in E1;
      repeat match type of E1 with context [match ?x with _ => _ end] => destruct x; try discriminate E1 end; injection E1 as <- <-; exact (conj eq_refl RZ)).
    all: try (destruct X as [[-> X]|[L1 X]]; [destruct (LP _ _ _ _ _ L E2); split; [assumption|lia]|destruct (LP _ _ _ _ _ L1 E2); split; [assumption|rewrite K in X; cbn [dfuel d0 snd] in X; lia]]).
    all: right.
    + destruct (l_unary _ IH _ L _ _ E1) as [A B]. unfold same_ in B. split; [assumption|lia].
    + destruct (l_unary _ IH _ L _ _ E1) as [A B]. unfold same_ in B. split; [assumption|lia].
    + destruct (l_paren _ IH _ L _ _ E1) as [A B]. unfold same_ in B. split; [assumption|lia].
    + destruct (l_map _ IH _ L _ _ E1) as [A B]. unfold same_ in B. split; [assumption|lia].
    + destruct (l_array _ IH _ L _ _ E1) as [A B]. unfold same_ in B. split; [assumption|lia].
    + destruct (l_let _ IH _ L _ _ E1) as [A B]. unfold same_ in B. split; [assumption|lia].
    + destruct (l_if _ IH _ L _ _ E1) as [A B]. unfold same_ in B. split; [assumption|lia].
  - intros p l ts L a ts' E. cbn [deep_loop] in *. unfold same_.
    destruct (negb (peek_is KSemi ts) && (p <? peek_precedence ts)%N) eqn:P; [|injection E as <- <-; split; [assumption|cbn [dok d0 snd]; lia]].
    apply andb_prop in P. destruct P as [_ P]. apply N.ltb_lt in P. unfold peek_precedence in P. destruct (peek ts) as [t|] eqn:T; [|now destruct (N.nlt_0_r _ P)].
    assert (exists t0 r, ts = t0 :: t :: r) as (t0 & r & ->) by (destruct ts as [|t0 [|t' r]]; try discriminate T; injection T as ->; eauto).
    cbn [next] in *. destruct L as (t0' & r0 & X & S0 & V). injection X as <- <-.
    assert (L0 : live (t0 :: t :: r)) by (now exists t0, (t :: r)).
    assert (L' : live (t :: r)) by (apply wf_live; auto; cbn [current]; intros X; rewrite X in P; cbn in P; lia).
    assert (RZ : rise (tl (t0 :: t :: r)) = if open_k (tkind t) then S (rise (tl (t :: r))) else rise (tl (t :: r))) by (cbn [tl rise]; destruct (tkind t); try reflexivity; cbn in P; lia).
    assert (LP : forall e t1 t2 a, live t1 -> fst (deep_loop n p e t1) = POk a t2 -> live t2 /\ rise (tl t1) <= Nat.max (S (snd (deep_loop n p e t1))) (rise (tl t2)))
      by (intros e t1 t2 b L1 E1; exact (l_loop _ IH p e t1 L1 b t2 E1)).
    destruct (is_binop (tkind t)) eqn:B.
    + apply dbind_ok in E. destruct E as (e & t1 & E1 & E2 & ->). destruct (l_binary _ IH _ _ L' _ _ E1) as [A1 B1]. destruct (LP _ _ _ _ A1 E2) as [A2 B2]. unfold same_ in *.
      split; auto. destruct (tkind t); try discriminate B; cbn [open_k] in RZ; lia.
    + destruct (tkind t) eqn:K; try discriminate B; cbn [open_k] in RZ; try (destruct (LP _ _ _ _ L0 E); split; [assumption|lia]).
      * apply dbind_ok in E. destruct E as (e & t1 & E1 & E2 & ->). cbn [d0 fst] in E1. unfold parse_field in E1.
        destruct (expect KIdent (t :: r)) as [u t2|?|] eqn:E3; try discriminate E1. cbn [pbind] in E1. injection E1 as <- <-.
        destruct (low_expect KIdent _ _ _ L' ltac:(discriminate) E3) as [L3 R3]. cbn [open_k close_k] in R3. destruct (LP _ _ _ _ L3 E2). split; [assumption|lia].
      * apply dbind_ok in E. destruct E as (e & t1 & E1 & E2 & ->). destruct (l_call _ IH _ _ L' _ _ E1) as [A1 B1]. destruct (LP _ _ _ _ A1 E2) as [A2 B2]. unfold same_ in *. split; [assumption|lia].
      * apply dbind_ok in E. destruct E as (e & t1 & E1 & E2 & ->). destruct (l_index _ IH _ _ L' _ _ E1) as [A1 B1]. destruct (LP _ _ _ _ A1 E2) as [A2 B2]. unfold same_ in *. split; [assumption|lia].
  - cbn [deep_let]. low IH. split; [assumption|lia].
  - cbn [deep_unary]. cbv zeta. low IH. split; [assumption|lia].
  - cbn [deep_binary]. cbv zeta. low IH. split; [assumption|lia].
  - cbn [deep_paren]. low IH. split; [assumption|lia].
  - cbn [deep_if]. low IH.
    + match goal with H : peek_is KElse ?t = true, L : live ?t |- _ => destruct (peek_is_ok KElse t L ltac:(discriminate) H) as (t0 & t' & r & -> & K & S & V & _) end. cbn [next] in *.
      assert (L' : live (t' :: r)) by (now exists t', r). assert (RZ : rise (tl (t0 :: t' :: r)) = rise (tl (t' :: r))) by (cbn [tl rise]; now rewrite K).
      match goal with H : fst (deep_block _ _) = POk _ _ |- _ => apply (l_block _ IH _ L') in H; destruct H end. unfold same_ in *. split; [assumption|lia].
    + split; [assumption|lia].
  - cbn [deep_call]. low IH. split; [assumption|lia].
  - cbn [deep_list]. low IH. split; [assumption|]. destruct k; try discriminate; cbn [open_k close_k] in *; lia.
  - cbn [deep_list_loop]. low IH; split; try assumption; lia.
  - cbn [deep_array]. low IH. split; [assumption|lia].
  - cbn [deep_map]. low IH. split; [assumption|lia].
  - cbn [deep_map_loop]. low IH; split; try assumption; lia.
  - cbn [deep_index]. low IH. split; [assumption|lia].
  - cbn [deep_block]. low IH. split; [assumption|lia].
  - cbn [deep_block_loop]. low IH; split; try assumption; lia.
Qed.
Lemma low_item n ts : live ts -> climb (rise (tl ts)) S same_ (deep_request n ts) /\ climb (rise (tl ts)) S same_ (deep_test n ts).
Proof.
  intros L. pose proof (low_all n) as IH. split.
  - unfold deep_request. low IH.
    + match goal with H : peek_is KLs ?t = true, L : live ?t |- _ => destruct (peek_is_ok KLs t L ltac:(discriminate) H) as (t0 & t' & r & -> & K & S & V & _) end. cbn [next] in *.
      assert (L' : live (t' :: r)) by (now exists t', r). assert (RZ : rise (tl (t0 :: t' :: r)) = Datatypes.S (rise (tl (t' :: r)))) by (cbn [tl rise]; now rewrite K).
      match goal with H : fst (deep_list _ _ _) = POk _ _ |- _ => apply (l_list _ IH _ _ L') in H; [|reflexivity]; destruct H end. unfold same_ in *. split; [assumption|lia].
    + split; [assumption|lia].
  - unfold deep_test. low IH. split; [assumption|lia].
Qed.
Lemma low_top n : forall src ts a ts', wf ts -> fst (deep_top n src ts) = POk a ts' -> rise ts <= S (snd (deep_top n src ts)).
Proof.
  induction n as [|n IH]; intros src ts a ts' V E; [discriminate E|].
  assert (NX : forall t1 s2 a ts', live t1 -> fst (deep_top n s2 (next (skip_semi t1))) = POk a ts' -> rise (tl t1) <= S (snd (deep_top n s2 (next (skip_semi t1))))).
  { intros t1 s2 b t2 L1 E1. destruct (low_skip t1 L1) as [L2 ->]. destruct (live_tl _ L2) as [X W]. rewrite X in *. eapply IH; eauto. }
  assert (EX : forall (f : expr -> source), fst (dbind (deep_expr n prec_min ts) (fun e ts => deep_top n (f e) (next (skip_semi ts)))) = POk a ts' ->
    rise ts <= S (snd (dbind (deep_expr n prec_min ts) (fun e ts => deep_top n (f e) (next (skip_semi ts)))))).
  { intros f E0. apply dbind_ok in E0. destruct E0 as (e & t1 & E1 & E2 & ->). destruct (l_expr _ (low_all n) _ _ V _ _ E1) as [L1 B1]. pose proof (NX _ _ _ _ L1 E2). unfold same_ in *. lia. }
  assert (L0 : tkind (current ts) <> KEof -> open_k (tkind (current ts)) = false -> close_k (tkind (current ts)) = false -> live ts /\ rise ts = rise (tl ts)).
  { intros K O C. pose proof (wf_live _ V K) as L. split; auto. destruct L as (t & r & -> & _). cbn [current tl rise] in *. destruct (tkind t); try discriminate; reflexivity. }
  cbn [deep_top] in *. destruct (tkind (current ts)) eqn:K; try (now apply (EX (fun e => Source (s_exprs src ++ [e]) (s_requests src) (s_tests src)))).
  - destruct V as [l|t r S W]; cbn; [lia|]. cbn [current] in K. now destruct (spelled_not_eof _ S).
  - destruct L0 as [L RZ]; try discriminate; try reflexivity. apply dbind_ok in E. destruct E as ([[x y] z] & t1 & E1 & E2 & ->).
    destruct (low_item n ts L) as [X _]. destruct (X _ _ E1) as [L1 B1]. pose proof (NX _ _ _ _ L1 E2). unfold same_ in *. lia.
  - destruct L0 as [L RZ]; try discriminate; try reflexivity. apply dbind_ok in E. destruct E as ([x y] & t1 & E1 & E2 & ->).
    destruct (low_item n ts L) as [_ X]. destruct (X _ _ E1) as [L1 B1]. pose proof (NX _ _ _ _ L1 E2). unfold same_ in *. lia.
Qed.
Theorem parse_depth_needed text src : parse text = Ok src -> rise (segment text) <= S (parse_depth text).
Proof.
  unfold parse, parse_fuel, parse_depth. rewrite <- same_top. destruct (fst (deep_top (fuel_for (segment text)) (Source [] [] []) (segment text))) as [a ts'|e|] eqn:E; try discriminate.
  intros _. eapply low_top; eauto using wf_segment.
Qed.

(** ** texts that start with many brackets *)
Lemma snd_dbind {A B} (x : deep A) (f : A -> toks -> deep B) : snd x <= snd (dbind x f).
Proof. unfold dbind. destruct (fst x); cbn [snd]; lia. Qed.
Lemma nest_array n ts : snd (deep_list n KRs ts) <= snd (deep_array (S n) ts).
Proof. cbn [deep_array]. apply snd_dbind. Qed.
Lemma nest_list n k ts : snd (deep_list_loop n k ts) <= snd (deep_list (S n) k ts).
Proof. cbn [deep_list]. apply snd_dbind. Qed.
Lemma nest_loop n k ts : peek_is k ts = false -> snd (deep_expr n prec_min (next ts)) <= snd (deep_list_loop (S n) k ts).
Proof. intros E. cbn [deep_list_loop]. rewrite E. apply snd_dbind. Qed.
Lemma nest_expr n p ts : tkind (current ts) = KLs -> S (snd (deep_array n ts)) <= snd (deep_expr (S n) p ts).
Proof. intros E. cbn [deep_expr]. rewrite E. unfold deeper. cbn [snd]. apply le_n_S, snd_dbind. Qed.
Definition bracket : token := Tok KLs [91%N].
Lemma brackets_nest k : forall n p r, 4 * k < n -> k <= snd (deep_expr n p (repeat bracket k ++ r)).
Proof.
  induction k as [|k IH]; intros n p r H; [lia|]. destruct n as [|[|[|[|n]]]]; try lia. etransitivity; [|apply nest_expr; reflexivity]. apply le_n_S.
  etransitivity; [|apply nest_array]. etransitivity; [|apply nest_list]. destruct k as [|k]; [lia|].
  etransitivity; [|apply nest_loop; reflexivity]. apply (IH n prec_min r). lia.
Qed.
Lemma segment_brackets k rest : segment (repeat 91%N k ++ rest) = repeat bracket k ++ segment rest.
Proof. induction k as [|k IH]; [reflexivity|]. cbn [repeat app]. rewrite <- IH. apply segment_one; reflexivity. Qed.
Theorem brackets_depth k rest : k <= parse_depth (repeat 91%N k ++ rest).
Proof.
  unfold parse_depth. rewrite segment_brackets. destruct k as [|k]; [lia|]. set (ts := repeat bracket (S k) ++ segment rest).
  assert (F : exists n, fuel_for ts = S n /\ 4 * S k < n).
  { exists (8 * length ts + 7). unfold fuel_for. split; [lia|]. unfold ts. rewrite app_length, repeat_length. lia. }
  destruct F as (n & -> & F). change (deep_top (S n) (Source [] [] []) ts) with
    (dbind (deep_expr n prec_min ts) (fun e ts => deep_top n (Source ([] ++ [e]) [] []) (next (skip_semi ts)))).
  etransitivity; [|apply snd_dbind]. apply brackets_nest, F.
Qed.
Lemma segment_length text : length (segment text) <= S (length text).
Proof.
  destruct (segment_shape text) as (ts & -> & L). rewrite app_length. cbn [length]. enough (length ts <= length text) by lia.
  induction L as [|c s ts W L IH|w t rest ts S M L IH|k d body D N]; cbn [length]; try lia.
  rewrite app_length. destruct (spells_nonempty _ _ S) as (c & w' & ->). cbn [length]. lia.
Qed.
Theorem parse_depth_length text : parse_depth text <= S (length text).
Proof. etransitivity; [apply parse_depth_tokens|apply segment_length]. Qed.

(** ** expressions are no higher than their text is long *)
Lemma heights_app a b : heights (a ++ b) = Nat.max (heights a) (heights b).
Proof. unfold heights. rewrite map_app. apply list_max_app. Qed.
Lemma heights_cons e es : heights (e :: es) = Nat.max (height e) (heights es).
Proof. reflexivity. Qed.
Definition pair_heights (ps : list (expr * expr)) : nat := list_max (map (fun kv => Nat.max (height (fst kv)) (height (snd kv))) ps).
Lemma pair_heights_cons k v ps : pair_heights ((k, v) :: ps) = Nat.max (Nat.max (height k) (height v)) (pair_heights ps).
Proof. reflexivity. Qed.
Lemma height_arr es : height (EArr es) = S (heights es). Proof. reflexivity. Qed.
Lemma height_call n es : height (ECall n es) = S (heights es). Proof. reflexivity. Qed.
Lemma height_map ps : height (EMap ps) = S (pair_heights ps). Proof. reflexivity. Qed.
Lemma height_if c a b : height (EIf c a b) = S (Nat.max (height c) (Nat.max (heights a) (heights b))). Proof. reflexivity. Qed.
Lemma syntax_height b :
  (forall e w, syntax b e w -> height e <= length w) /\ (forall es w, syntax_list b es w -> heights es <= length w) /\
  (forall ps w, syntax_pairs b ps w -> pair_heights ps <= length w) /\ (forall es w, syntax_block b es w -> heights es <= length w).
Proof.
  apply (syntax_all b (fun e w _ => height e <= length w) (fun es w _ => heights es <= length w) (fun ps w _ => pair_heights ps <= length w) (fun es w _ => heights es <= length w)); intros;
    rewrite ?height_arr, ?height_call, ?height_map, ?height_if, ?heights_cons, ?pair_heights_cons; cbn [height length]; repeat (rewrite ?app_length; cbn [length]); try lia;
    repeat match goal with |- context [heights []] => change (heights []) with 0 | |- context [pair_heights []] => change (pair_heights []) with 0 end; lia.
Qed.
Definition item_height (i : item) : nat := match i with IExpr e => height e | IRequest _ _ es => heights es | ITest _ b => heights b end.
Lemma items_height is w : syntax_items is w -> forall i, In i is -> item_height i <= length w.
Proof.
  destruct (syntax_height false) as (X1 & X2 & X3 & X4).
  assert (IT : forall i w, syntax_item false i w -> item_height i <= length w).
  { intros i w' H. destruct H; cbn [item_height length]; try (now apply X1); rewrite ?app_length; try (apply X2 in H; lia); try (apply X4 in H; lia). cbn; lia. }
  induction 1 as [|i w is w' Hi Hs IH|i w is w' Hi Hs IH]; intros j J; [easy| |]; rewrite app_length; cbn [length]; (destruct J as [<-|J]; [apply IT in Hi|apply IH in J]; lia).
Qed.
Theorem source_height text src : parse text = Ok src ->
  heights (s_exprs src) <= length text /\
  (forall n m es, mget n (s_requests src) = Some (m, es) -> heights es <= length text) /\
  (forall n b, mget n (s_tests src) = Some b -> heights b <= length text).
Proof.
  intros P. destruct (accounted _ _ P) as (is & w & S & Si & X & Y & Z). pose proof (segment_length text) as L. rewrite S, app_length in L. cbn [length] in L.
  pose proof (items_height _ _ Si) as H. rewrite X. repeat split.
  - clear X Y Z Si S P. induction is as [|i is IH]; [cbn; lia|]. change (item_exprs (i :: is)) with ((match i with IExpr e => [e] | _ => [] end) ++ item_exprs is). rewrite heights_app.
    assert (A : heights (item_exprs is) <= length text) by (apply IH; intros j J; apply H; now right). pose proof (H i (or_introl eq_refl)) as B.
    destruct i; cbn [item_height] in B; rewrite ?heights_cons; change (heights []) with 0; lia.
  - intros n m es E. apply Y in E. destruct E as (a & b & E & _). assert (I : In (n, (m, es)) (item_requests is)) by (rewrite E; apply in_or_app; right; now left).
    apply in_flat_map in I. destruct I as (i & Ii & I). destruct i; cbn in I; try contradiction. destruct I as [I|[]]. injection I as -> -> ->. apply H in Ii. cbn [item_height] in Ii. lia.
  - intros n b E. apply Z in E. destruct E as (a & b' & E & _). assert (I : In (n, b) (item_tests is)) by (rewrite E; apply in_or_app; right; now left).
    apply in_flat_map in I. destruct I as (i & Ii & I). destruct i; cbn in I; try contradiction. destruct I as [I|[]]. injection I as -> ->. apply H in Ii. cbn [item_height] in Ii. lia.
Qed.
