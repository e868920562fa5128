(** A parse that ends needs an amount of fuel linear in the number of tokens:
    fuel only decides how long to wait *)
From Verif Require Import Parser SpecSyntax TextProofs LexerProofs ParserBase ParserSound ParserTop.
Open Scope nat_scope.

(** progress: the stream stays live, does not grow, and what follows is a part of it *)
Definition smaller (ts ts' : toks) : Prop := live ts' /\ length ts' <= length ts /\ (no_bang ts -> no_bang ts').

Lemma no_bang_app u ts : no_bang (u ++ ts) -> no_bang ts.
Proof. intros H a b (x & y & ->). apply H. exists (u ++ x), y. now rewrite app_assoc. Qed.
Lemma no_bang_cons t ts : no_bang (t :: ts) -> no_bang ts.
Proof. apply (no_bang_app [t]). Qed.
Lemma no_bang_next ts : no_bang ts -> no_bang (next ts).
Proof. destruct ts as [|t [|t' r]]; auto. apply no_bang_cons. Qed.

Lemma next_size ts : live ts -> wf (next ts) /\ length (next ts) + 1 = length ts /\ (no_bang ts -> no_bang (next ts)).
Proof.
  intros L. destruct (live_next _ L) as (W & t & X & _). split; auto. split; [|apply no_bang_next].
  rewrite X at 2. simpl. lia.
Qed.

Lemma expect_size k ts u ts' : live ts -> expect k ts = POk u ts' -> k <> KEof ->
  live ts' /\ length ts' + 1 = length ts /\ (no_bang ts -> no_bang ts').
Proof.
  intros L E N. destruct (expect_ok _ _ _ _ L N E) as (t0 & t & r & -> & -> & _ & S & W).
  split; [exists t, r; auto|]. split; [simpl; lia|apply no_bang_cons].
Qed.

Lemma peek_next_size k ts : live ts -> peek_is k ts = true -> k <> KEof ->
  live (next ts) /\ length (next ts) + 1 = length ts /\ (no_bang ts -> no_bang (next ts)).
Proof.
  intros L E N. destruct (peek_is_ok _ _ L N E) as (t0 & t & r & -> & _ & S & W & _).
  split; [exists t, r; auto|]. split; [simpl; lia|apply no_bang_next].
Qed.

Lemma skip_semi_size ts : live ts -> smaller ts (skip_semi ts).
Proof.
  intros L. unfold skip_semi. destruct (peek_is KSemi ts) eqn:P; [|split; [|split]; auto].
  destruct (peek_next_size _ _ L P ltac:(discriminate)) as (A & B & C). split; [auto|]. split; [lia|auto].
Qed.

Record size_at (n : nat) : Prop := {
  z_expr : forall p ts e ts', wf ts -> parse_expr n p ts = POk e ts' -> smaller ts ts';
  z_loop : forall p l ts e ts', live ts -> parse_loop n p l ts = POk e ts' -> smaller ts ts';
  z_let : forall ts e ts', live ts -> parse_let n ts = POk e ts' -> smaller ts ts';
  z_unary : forall ts e ts', live ts -> parse_unary n ts = POk e ts' -> smaller ts ts';
  z_binary : forall l ts e ts', live ts -> parse_binary n l ts = POk e ts' -> smaller ts ts';
  z_paren : forall ts e ts', live ts -> parse_paren n ts = POk e ts' -> smaller ts ts';
  z_if : forall ts e ts', live ts -> parse_if n ts = POk e ts' -> smaller ts ts';
  z_call : forall f ts e ts', live ts -> parse_call n f ts = POk e ts' -> smaller ts ts';
  z_list : forall stop ts es ts', live ts -> parse_list n stop ts = POk es ts' -> stop <> KEof -> smaller ts ts';
  z_list_loop : forall stop ts es ts', live ts -> parse_list_loop n stop ts = POk es ts' -> smaller ts ts';
  z_array : forall ts e ts', live ts -> parse_array n ts = POk e ts' -> smaller ts ts';
  z_map : forall ts e ts', live ts -> parse_map n ts = POk e ts' -> smaller ts ts';
  z_map_loop : forall ts ps ts', live ts -> parse_map_loop n ts = POk ps ts' -> smaller ts ts';
  z_index : forall l ts e ts', live ts -> parse_index n l ts = POk e ts' -> smaller ts ts';
  z_block : forall ts es ts', live ts -> parse_block n ts = POk es ts' -> smaller ts ts';
  z_block_loop : forall ts es ts', live ts -> parse_block_loop n ts = POk es ts' -> smaller ts ts'
}.

Ltac neof := let X := fresh in intro X; discriminate X.

(** learn what a completed sub-parse says about sizes *)
Ltac learn IH E :=
  let F := fresh "F" in
  match type of E with
  | expect _ ?t = POk _ _ =>
      match goal with L : live t |- _ => pose proof (expect_size _ _ _ _ L E ltac:(neof)) as F; destruct F as (? & ? & ?) end
  | parse_expr _ _ ?t = POk _ _ =>
      match goal with L : wf t |- _ => pose proof (z_expr _ IH _ _ _ _ L E) as F; destruct F as (? & ? & ?) end
  | parse_loop _ _ _ ?t = POk _ _ =>
      match goal with L : live t |- _ => pose proof (z_loop _ IH _ _ _ _ _ L E) as F; destruct F as (? & ? & ?) end
  | parse_let _ ?t = POk _ _ => match goal with L : live t |- _ => pose proof (z_let _ IH _ _ _ L E) as F; destruct F as (? & ? & ?) end
  | parse_unary _ ?t = POk _ _ => match goal with L : live t |- _ => pose proof (z_unary _ IH _ _ _ L E) as F; destruct F as (? & ? & ?) end
  | parse_binary _ _ ?t = POk _ _ => match goal with L : live t |- _ => pose proof (z_binary _ IH _ _ _ _ L E) as F; destruct F as (? & ? & ?) end
  | parse_paren _ ?t = POk _ _ => match goal with L : live t |- _ => pose proof (z_paren _ IH _ _ _ L E) as F; destruct F as (? & ? & ?) end
  | parse_if _ ?t = POk _ _ => match goal with L : live t |- _ => pose proof (z_if _ IH _ _ _ L E) as F; destruct F as (? & ? & ?) end
  | parse_call _ _ ?t = POk _ _ => match goal with L : live t |- _ => pose proof (z_call _ IH _ _ _ _ L E) as F; destruct F as (? & ? & ?) end
  | parse_list _ _ ?t = POk _ _ => match goal with L : live t |- _ => pose proof (z_list _ IH _ _ _ _ L E ltac:(first [assumption|neof])) as F; destruct F as (? & ? & ?) end
  | parse_list_loop _ _ ?t = POk _ _ => match goal with L : live t |- _ => pose proof (z_list_loop _ IH _ _ _ _ L E) as F; destruct F as (? & ? & ?) end
  | parse_array _ ?t = POk _ _ => match goal with L : live t |- _ => pose proof (z_array _ IH _ _ _ L E) as F; destruct F as (? & ? & ?) end
  | parse_map _ ?t = POk _ _ => match goal with L : live t |- _ => pose proof (z_map _ IH _ _ _ L E) as F; destruct F as (? & ? & ?) end
  | parse_map_loop _ ?t = POk _ _ => match goal with L : live t |- _ => pose proof (z_map_loop _ IH _ _ _ L E) as F; destruct F as (? & ? & ?) end
  | parse_index _ _ ?t = POk _ _ => match goal with L : live t |- _ => pose proof (z_index _ IH _ _ _ _ L E) as F; destruct F as (? & ? & ?) end
  | parse_block _ ?t = POk _ _ => match goal with L : live t |- _ => pose proof (z_block _ IH _ _ _ L E) as F; destruct F as (? & ? & ?) end
  | parse_block_loop _ ?t = POk _ _ => match goal with L : live t |- _ => pose proof (z_block_loop _ IH _ _ _ L E) as F; destruct F as (? & ? & ?) end
  end.
(** know everything about the tails of the live streams around *)
Ltac tails :=
  repeat match goal with
  | L : live ?t |- _ =>
      lazymatch goal with
      | _ : wf (next t) |- _ => fail
      | _ => let F := fresh "F" in pose proof (next_size _ L) as F; destruct F as (? & ? & ?)
      end
  end.
Ltac semis :=
  repeat match goal with
  | |- context [skip_semi ?t] =>
      lazymatch goal with
      | _ : live (skip_semi t) |- _ => fail
      | L : live t |- _ => let F := fresh "F" in pose proof (skip_semi_size _ L) as F; destruct F as (? & ? & ?)
      end
  | _ : context [skip_semi ?t] |- _ =>
      lazymatch goal with
      | _ : live (skip_semi t) |- _ => fail
      | L : live t |- _ => let F := fresh "F" in pose proof (skip_semi_size _ L) as F; destruct F as (? & ? & ?)
      end
  end.

Lemma loop_peek ts p : live ts -> (p < peek_precedence ts)%N -> live (next ts) /\ length (next ts) + 1 = length ts /\ (no_bang ts -> no_bang (next ts)) /\
  exists t, peek ts = Some t /\ current (next ts) = t /\ (p < precedence (tkind t))%N.
Proof.
  intros (t0 & r0 & -> & S & W) C. destruct r0 as [|t r]; unfold peek_precedence in C; simpl in C; [lia|].
  inversion W; subst; [simpl in C; lia|]. simpl. split; [exists t, r; auto|]. split; [lia|]. split; [apply no_bang_cons|]. exists t; auto.
Qed.

Ltac zstep IH H :=
  match type of H with
  | pbind ?x _ = POk _ _ =>
      let E := fresh "E" in
      destruct x as [? ?|?|] eqn:E; cbn [pbind] in H; try discriminate H; learn IH E; tails; semis; tails
  end.
Ltac zdone := solve [split; [assumption|split; [lia|auto 12]]].

Lemma size : forall n, size_at n.
Proof.
  induction n as [|n IH]; [constructor; intros; discriminate|].
  constructor.
  - intros p ts e ts' W H. cbn [parse_expr] in H.
    assert (L : live ts) by (apply wf_live; auto; intros X; rewrite X in H; discriminate).
    assert (A : forall p e0 ts1, smaller ts ts1 -> parse_loop n p e0 ts1 = POk e ts' -> smaller ts ts').
    { intros p0 e0 ts1 (L1 & S1 & B1) E. learn IH E. zdone. }
    destruct (tkind (current ts)); try discriminate H;
      try (eapply A; [split; [exact L|split; [apply le_n|auto]]|exact H]);
      try (zstep IH H; (eapply A; [|exact H]); zdone).
    + unfold parse_integer_literal in H. destruct (digits_val _ _); [|discriminate].
      destruct (_ <=? _)%Z; [|discriminate]. eapply A; [|exact H]. split; [|split]; auto.
    + unfold parse_float_literal in H. destruct (parse_f64 _); [|discriminate]. eapply A; [|exact H]. split; [|split]; auto.
    + unfold parse_boolean_literal in H. destruct (str_eqb _ _); [|destruct (str_eqb _ _); [|discriminate]];
        (eapply A; [|exact H]); (split; [|split]; auto).
    + unfold parse_boolean_literal in H. destruct (str_eqb _ _); [|destruct (str_eqb _ _); [|discriminate]];
        (eapply A; [|exact H]); (split; [|split]; auto).
  - intros p l ts e ts' L H. cbn [parse_loop] in H.
    destruct (negb (peek_is KSemi ts) && (p <? peek_precedence ts)%N) eqn:C; [|inversion H; subst; split; [|split]; auto].
    apply andb_true_iff in C. destruct C as [_ C]. apply N.ltb_lt in C.
    destruct (loop_peek _ _ L C) as (L1 & Z1 & NB1 & t & P & _). rewrite P in H.
    assert (A : forall l ts1, smaller ts ts1 -> parse_loop n p l ts1 = POk e ts' -> smaller ts ts').
    { intros e0 ts1 (L2 & S1 & B1) E. learn IH E. zdone. }
    destruct (is_binop (tkind t)).
    + zstep IH H. eapply A; [|exact H]. zdone.
    + destruct (tkind t); try (eapply A; [split; [exact L|split; [apply le_n|auto]]|exact H]); try (zstep IH H; (eapply A; [|exact H]); zdone).
      unfold parse_field in H. destruct (expect KIdent (next ts)) as [? ?|?|] eqn:E; cbn [pbind] in H; try discriminate H.
      learn IH E. eapply A; [|exact H]. zdone.
  - intros ts e ts' L H. cbn [parse_let] in H. cbv zeta in H. tails. do 3 zstep IH H. inversion H; subst. zdone.
  - intros ts e ts' L H. cbn [parse_unary] in H. cbv zeta in H. tails. zstep IH H. inversion H; subst. zdone.
  - intros l ts e ts' L H. cbn [parse_binary] in H. cbv zeta in H. tails. zstep IH H. inversion H; subst. zdone.
  - intros ts e ts' L H. cbn [parse_paren] in H. tails. do 2 zstep IH H. inversion H; subst. zdone.
  - intros ts e ts' L H. cbn [parse_if] in H. tails. do 4 zstep IH H.
    destruct (peek_is KElse _) eqn:P; [|inversion H; subst; zdone].
    match type of P with peek_is _ ?t = true => match goal with L' : live t |- _ => destruct (peek_next_size _ _ L' P ltac:(neof)) as (? & ? & ?) end end.
    zstep IH H. inversion H; subst. zdone.
  - intros f ts e ts' L H. cbn [parse_call] in H. tails. zstep IH H. destruct f; inversion H; subst. zdone.
  - intros stop ts es ts' L H NE. cbn [parse_list] in H. tails. zstep IH H.
    destruct (expect stop _) as [? ?|?|] eqn:E1; cbn [pbind] in H; try discriminate H.
    match goal with L' : live ?t, X : expect stop ?t = _ |- _ => destruct (expect_size _ _ _ _ L' X NE) as (? & ? & ?) end.
    inversion H; subst. zdone.
  - intros stop ts es ts' L H. cbn [parse_list_loop] in H. tails. destruct (peek_is stop ts); [inversion H; subst; zdone|].
    zstep IH H. destruct (peek_is stop _).
    + zstep IH H. inversion H; subst. zdone.
    + do 2 zstep IH H. inversion H; subst. zdone.
  - intros ts e ts' L H. cbn [parse_array] in H. tails. zstep IH H. inversion H; subst. zdone.
  - intros ts e ts' L H. cbn [parse_map] in H. tails. do 2 zstep IH H. inversion H; subst. zdone.
  - intros ts ps ts' L H. cbn [parse_map_loop] in H. tails. destruct (peek_is KRb ts); [inversion H; subst; zdone|].
    do 3 zstep IH H. destruct (peek_is KRb _).
    + zstep IH H. inversion H; subst. zdone.
    + do 2 zstep IH H. inversion H; subst. zdone.
  - intros l ts e ts' L H. cbn [parse_index] in H. tails. do 2 zstep IH H. inversion H; subst. zdone.
  - intros ts es ts' L H. cbn [parse_block] in H. tails. do 3 zstep IH H. inversion H; subst. zdone.
  - intros ts es ts' L H. cbn [parse_block_loop] in H. tails. destruct (peek_is KRb ts); [inversion H; subst; zdone|].
    do 2 zstep IH H. inversion H; subst. zdone.
Qed.

(** [agree n m x y]: if the run [x] with fuel [n] ends, [y] is the same *)
Definition agree {A} (x y : pres A) : Prop := x <> PFuel -> y = x.

Record bound_at (n : nat) : Prop := {
  b_expr : forall p ts m, wf ts -> 4 * length ts + 4 <= m -> agree (parse_expr n p ts) (parse_expr m p ts);
  b_loop : forall p l ts m, live ts -> 4 * length ts + 3 <= m -> agree (parse_loop n p l ts) (parse_loop m p l ts);
  b_let : forall ts m, live ts -> 4 * length ts + 3 <= m -> agree (parse_let n ts) (parse_let m ts);
  b_unary : forall ts m, live ts -> 4 * length ts + 3 <= m -> agree (parse_unary n ts) (parse_unary m ts);
  b_binary : forall l ts m, live ts -> 4 * length ts + 3 <= m -> agree (parse_binary n l ts) (parse_binary m l ts);
  b_paren : forall ts m, live ts -> 4 * length ts + 3 <= m -> agree (parse_paren n ts) (parse_paren m ts);
  b_if : forall ts m, live ts -> 4 * length ts + 3 <= m -> agree (parse_if n ts) (parse_if m ts);
  b_call : forall f ts m, live ts -> 4 * length ts + 3 <= m -> agree (parse_call n f ts) (parse_call m f ts);
  b_list : forall stop ts m, live ts -> 4 * length ts + 2 <= m -> agree (parse_list n stop ts) (parse_list m stop ts);
  b_list_loop : forall stop ts m, live ts -> 4 * length ts + 1 <= m -> agree (parse_list_loop n stop ts) (parse_list_loop m stop ts);
  b_array : forall ts m, live ts -> 4 * length ts + 3 <= m -> agree (parse_array n ts) (parse_array m ts);
  b_map : forall ts m, live ts -> 4 * length ts + 3 <= m -> agree (parse_map n ts) (parse_map m ts);
  b_map_loop : forall ts m, live ts -> 4 * length ts + 2 <= m -> agree (parse_map_loop n ts) (parse_map_loop m ts);
  b_index : forall l ts m, live ts -> 4 * length ts + 3 <= m -> agree (parse_index n l ts) (parse_index m l ts);
  b_block : forall ts m, live ts -> 4 * length ts + 3 <= m -> agree (parse_block n ts) (parse_block m ts);
  b_block_loop : forall ts m, live ts -> 4 * length ts + 1 <= m -> agree (parse_block_loop n ts) (parse_block_loop m ts)
}.

Lemma agree_bind {A B} (x y : pres A) (f g : A -> toks -> pres B) :
  agree x y -> (forall a ts, x = POk a ts -> agree (f a ts) (g a ts)) -> agree (pbind x f) (pbind y g).
Proof.
  intros X F N. destruct x as [a ts|e|]; cbn [pbind] in *.
  - rewrite X by discriminate. cbn [pbind]. apply F; auto.
  - rewrite X by discriminate. reflexivity.
  - congruence.
Qed.

Lemma agree_refl {A} (x : pres A) : agree x x.
Proof. intros _. reflexivity. Qed.

Ltac bound IH :=
  solve [assumption | lia | apply agree_refl
        | eapply (b_expr _ IH); [assumption|lia] | eapply (b_loop _ IH); [assumption|lia]
        | eapply (b_let _ IH); [assumption|lia] | eapply (b_unary _ IH); [assumption|lia]
        | eapply (b_binary _ IH); [assumption|lia] | eapply (b_paren _ IH); [assumption|lia]
        | eapply (b_if _ IH); [assumption|lia] | eapply (b_call _ IH); [assumption|lia]
        | eapply (b_list _ IH); [assumption|lia] | eapply (b_list_loop _ IH); [assumption|lia]
        | eapply (b_array _ IH); [assumption|lia] | eapply (b_map _ IH); [assumption|lia]
        | eapply (b_map_loop _ IH); [assumption|lia] | eapply (b_index _ IH); [assumption|lia]
        | eapply (b_block _ IH); [assumption|lia] | eapply (b_block_loop _ IH); [assumption|lia]].
Ltac bbind IH :=
  apply agree_bind; [bound IH|let a := fresh "a" in let t := fresh "ts" in let E := fresh "E" in
    intros a t E; match type of IH with bound_at ?n => let Z := constr:(size n) in learn Z E end; tails; semis; tails].
Ltac mS m := destruct m as [|m]; [lia|].

Lemma bound : forall n, bound_at n.
Proof.
  induction n as [|n IH]; [constructor; intros; intro; exfalso; auto|].
  constructor.
  - intros p ts m W Bm. mS m. cbn [parse_expr].
    destruct (tkind (current ts)) eqn:K; try apply agree_refl;
      (assert (L : live ts) by (apply wf_live; auto; congruence)); try bound IH; try (bbind IH; bound IH);
      (apply agree_bind; [apply agree_refl|]; intros a t E; assert (t = ts) as ->).
    + unfold parse_integer_literal in E. destruct (digits_val _ _); [|discriminate]. destruct (_ <=? _)%Z; inversion E; auto.
    + bound IH.
    + unfold parse_float_literal in E. destruct (parse_f64 _); inversion E; auto.
    + bound IH.
    + unfold parse_boolean_literal in E. destruct (str_eqb _ _); [|destruct (str_eqb _ _)]; inversion E; auto.
    + bound IH.
    + unfold parse_boolean_literal in E. destruct (str_eqb _ _); [|destruct (str_eqb _ _)]; inversion E; auto.
    + bound IH.
  - intros p l ts m L Bm. mS m. cbn [parse_loop].
    destruct (negb (peek_is KSemi ts) && (p <? peek_precedence ts)%N) eqn:C; [|apply agree_refl].
    pose proof C as C0. apply andb_true_iff in C. destruct C as [_ C]. apply N.ltb_lt in C.
    destruct (loop_peek _ _ L C) as (L1 & Z1 & NB1 & t & P & _). rewrite P.
    assert (Spin : (forall k l, parse_loop (S k) p l ts = parse_loop k p l ts) -> agree (parse_loop n p l ts) (parse_loop m p l ts)).
    { intros S. assert (X : forall k, parse_loop k p l ts = PFuel) by (induction k; [reflexivity|rewrite S; auto]).
      intros N. rewrite X in N. congruence. }
    destruct (is_binop (tkind t)) eqn:B.
    + bbind IH. bound IH.
    + destruct (tkind t) eqn:K; try discriminate B;
        try (apply Spin; intros k l0; cbn [parse_loop]; rewrite C0, P, K; simpl; reflexivity);
        try (bbind IH; bound IH).
      apply agree_bind; [apply agree_refl|]. intros a ts1 E. unfold parse_field in E.
      destruct (expect KIdent (next ts)) as [u ts2|?|] eqn:E1; cbn [pbind] in E; inversion E; subst.
      learn (size n) E1. bound IH.
  - intros ts m L Bm. mS m. cbn [parse_let]. cbv zeta. tails. do 3 bbind IH. apply agree_refl.
  - intros ts m L Bm. mS m. cbn [parse_unary]. cbv zeta. tails. bbind IH. apply agree_refl.
  - intros l ts m L Bm. mS m. cbn [parse_binary]. cbv zeta. tails. bbind IH. apply agree_refl.
  - intros ts m L Bm. mS m. cbn [parse_paren]. tails. do 2 bbind IH. apply agree_refl.
  - intros ts m L Bm. mS m. cbn [parse_if]. tails. do 4 bbind IH.
    destruct (peek_is KElse _) eqn:P; [|apply agree_refl].
    match type of P with peek_is _ ?t = true => match goal with L' : live t |- _ => destruct (peek_next_size _ _ L' P ltac:(neof)) as (? & ? & ?) end end.
    bbind IH. apply agree_refl.
  - intros f ts m L Bm. mS m. cbn [parse_call]. tails. bbind IH. apply agree_refl.
  - intros stop ts m L Bm. mS m. cbn [parse_list]. tails. bbind IH. apply agree_refl.
  - intros stop ts m L Bm. mS m. cbn [parse_list_loop]. tails. destruct (peek_is stop ts); [apply agree_refl|].
    bbind IH. destruct (peek_is stop _).
    + bbind IH. apply agree_refl.
    + do 2 bbind IH. apply agree_refl.
  - intros ts m L Bm. mS m. cbn [parse_array]. tails. bbind IH. apply agree_refl.
  - intros ts m L Bm. mS m. cbn [parse_map]. tails. do 2 bbind IH. apply agree_refl.
  - intros ts m L Bm. mS m. cbn [parse_map_loop]. tails. destruct (peek_is KRb ts); [apply agree_refl|].
    do 3 bbind IH. destruct (peek_is KRb _).
    + bbind IH. apply agree_refl.
    + do 2 bbind IH. apply agree_refl.
  - intros l ts m L Bm. mS m. cbn [parse_index]. tails. do 2 bbind IH. apply agree_refl.
  - intros ts m L Bm. mS m. cbn [parse_block]. tails. do 3 bbind IH. apply agree_refl.
  - intros ts m L Bm. mS m. cbn [parse_block_loop]. tails. destruct (peek_is KRb ts); [apply agree_refl|].
    do 2 bbind IH. apply agree_refl.
Qed.

Lemma top_bound n : forall src ts m, wf ts -> 4 * length ts + 5 <= m -> agree (parse_top n src ts) (parse_top m src ts).
Proof.
  induction n as [|n IH]; intros src ts m W Bm; [intro; exfalso; auto|]. mS m. cbn [parse_top].
  assert (Go : live ts -> forall src ts1, smaller ts ts1 -> agree (parse_top n src (next (skip_semi ts1))) (parse_top m src (next (skip_semi ts1)))).
  { intros L src0 ts1 (L1 & S1 & _). destruct (skip_semi_size _ L1) as (L2 & S2 & _). destruct (next_size _ L2) as (? & ? & _).
    apply IH; auto. lia. }
  assert (Ex : live ts -> agree
    (pbind (parse_expr n prec_min ts) (fun e ts => parse_top n (Source (s_exprs src ++ [e]) (s_requests src) (s_tests src)) (next (skip_semi ts))))
    (pbind (parse_expr m prec_min ts) (fun e ts => parse_top m (Source (s_exprs src ++ [e]) (s_requests src) (s_tests src)) (next (skip_semi ts))))).
  { intros L. apply agree_bind; [apply (b_expr _ (bound n)); auto; lia|]. intros a t E. apply Go; auto. eapply (z_expr _ (size n)); eauto. }
  destruct (tkind (current ts)) eqn:K; try (apply Ex; apply wf_live; auto; congruence); try apply agree_refl;
    (assert (L : live ts) by (apply wf_live; auto; congruence)); tails.
  - assert (R : agree (parse_request n ts) (parse_request m ts) /\ forall r t, parse_request n ts = POk r t -> smaller ts t).
    { unfold parse_request. cbv zeta. split.
      - apply agree_bind; [apply agree_refl|]. intros u t E. learn (size n) E.
        apply agree_bind; [apply agree_refl|]. intros u1 t1 E1. learn (size n) E1.
        destruct (peek_is KLs t1) eqn:P; [|apply agree_refl].
        match goal with L1 : live t1 |- _ => destruct (peek_next_size _ _ L1 P ltac:(neof)) as (? & ? & ?) end.
        apply agree_bind; [|intros; apply agree_refl]. apply (b_list _ (bound n)); auto. lia.
      - intros r t Hr. destruct (expect KIdent ts) as [u t0|?|] eqn:E; cbn [pbind] in Hr; try discriminate Hr. learn (size n) E.
        destruct (expect KTemplate t0) as [u1 t1|?|] eqn:E1; cbn [pbind] in Hr; try discriminate Hr. learn (size n) E1.
        destruct (peek_is KLs t1) eqn:P; [|inversion Hr; subst; zdone].
        match goal with L1 : live t1 |- _ => destruct (peek_next_size _ _ L1 P ltac:(neof)) as (? & ? & ?) end.
        destruct (parse_list n KRs (next t1)) as [es t2|?|] eqn:E2; cbn [pbind] in Hr; try discriminate Hr. learn (size n) E2.
        inversion Hr; subst. zdone. }
    destruct R as [R1 R2]. apply agree_bind; auto. intros [[nm ms] es] t E. apply Go; auto. eauto.
  - assert (R : agree (parse_test n ts) (parse_test m ts) /\ forall r t, parse_test n ts = POk r t -> smaller ts t).
    { unfold parse_test. cbv zeta. split.
      - apply agree_bind; [apply agree_refl|]. intros u t E. learn (size n) E.
        apply agree_bind; [|intros; apply agree_refl]. apply (b_block _ (bound n)); auto. lia.
      - intros r t Hr. destruct (expect KIdent ts) as [u t0|?|] eqn:E; cbn [pbind] in Hr; try discriminate Hr. learn (size n) E.
        destruct (parse_block n t0) as [es t2|?|] eqn:E2; cbn [pbind] in Hr; try discriminate Hr. learn (size n) E2.
        inversion Hr; subst. zdone. }
    destruct R as [R1 R2]. apply agree_bind; auto. intros [nm b] t E. apply Go; auto. eauto.
Qed.

(** The fuel chosen by [parse] is enough whenever any is *)
Lemma fuel_suffices text n : parse_fuel n (segment text) <> PFuel ->
  parse_fuel (fuel_for (segment text)) (segment text) = parse_fuel n (segment text).
Proof. intros H. apply top_bound; auto using wf_segment. unfold fuel_for. lia. Qed.

Lemma parse_diverges text : parse text = Diverge <-> forall n, parse_fuel n (segment text) = PFuel.
Proof.
  unfold parse. split.
  - intros H n. destruct (parse_fuel n (segment text)) eqn:E; auto; exfalso;
      rewrite (fuel_suffices text n) in H by congruence; rewrite E in H; discriminate.
  - intros H. now rewrite H.
Qed.
