(** The work of parsing *)
From Verif Require Import Work SpecWork SpecStack SpecSyntax SpecLex TextProofs LexOneProofs LexerProofs ParserBase ParserTop DeepProofs.
Open Scope nat_scope.

(** ** counting does not change what is parsed *)
Lemma fst_wbind {A B} (x : work A) (f : A -> toks -> work B) : fst (wbind x f) = pbind (fst x) (fun a ts => fst (f a ts)).
Proof. unfold wbind, pbind. now destruct (fst x). Qed.
Record wsame_at (n : nat) : Prop := {
  ws_expr : forall p ts, fst (work_expr n p ts) = parse_expr n p ts;
  ws_loop : forall p l ts, fst (work_loop n p l ts) = parse_loop n p l ts;
  ws_let : forall ts, fst (work_let n ts) = parse_let n ts;
  ws_unary : forall ts, fst (work_unary n ts) = parse_unary n ts;
  ws_binary : forall l ts, fst (work_binary n l ts) = parse_binary n l ts;
  ws_paren : forall ts, fst (work_paren n ts) = parse_paren n ts;
  ws_if : forall ts, fst (work_if n ts) = parse_if n ts;
  ws_call : forall f ts, fst (work_call n f ts) = parse_call n f ts;
  ws_list : forall k ts, fst (work_list n k ts) = parse_list n k ts;
  ws_list_loop : forall k ts, fst (work_list_loop n k ts) = parse_list_loop n k ts;
  ws_array : forall ts, fst (work_array n ts) = parse_array n ts;
  ws_map : forall ts, fst (work_map n ts) = parse_map n ts;
  ws_map_loop : forall ts, fst (work_map_loop n ts) = parse_map_loop n ts;
  ws_index : forall l ts, fst (work_index n l ts) = parse_index n l ts;
  ws_block : forall ts, fst (work_block n ts) = parse_block n ts;
  ws_block_loop : forall ts, fst (work_block_loop n ts) = parse_block_loop n ts }.
Ltac wsame IH := repeat (first
  [ reflexivity
  | rewrite fst_wbind; apply pbind_ext; [|intros ? ?]
  | apply (ws_expr _ IH) | apply (ws_loop _ IH) | apply (ws_let _ IH) | apply (ws_unary _ IH) | apply (ws_binary _ IH) | apply (ws_paren _ IH)
  | apply (ws_if _ IH) | apply (ws_call _ IH) | apply (ws_list _ IH) | apply (ws_list_loop _ IH) | apply (ws_array _ IH) | apply (ws_map _ IH)
  | apply (ws_map_loop _ IH) | apply (ws_index _ IH) | apply (ws_block _ IH) | apply (ws_block_loop _ IH)
  | progress (cbv zeta)
  | match goal with |- fst (if ?b then _ else _) = _ => destruct b | |- fst (match ?x with _ => _ end) = _ => destruct x end ]).
Lemma wsame_all n : wsame_at n.
Proof.
  induction n as [|n IH]; [constructor; reflexivity|]. constructor; intros; cbn [work_expr work_loop work_let work_unary work_binary work_paren work_if work_call
    work_list work_list_loop work_array work_map work_map_loop work_index work_block work_block_loop parse_expr parse_loop parse_let parse_unary parse_binary parse_paren parse_if parse_call
    parse_list parse_list_loop parse_array parse_map parse_map_loop parse_index parse_block parse_block_loop]; unfold counted; cbn [fst]; wsame IH.
Qed.
Lemma wsame_request n ts : fst (work_request n ts) = parse_request n ts.
Proof. unfold work_request, parse_request. wsame (wsame_all n). Qed.
Lemma wsame_test n ts : fst (work_test n ts) = parse_test n ts.
Proof. unfold work_test, parse_test. wsame (wsame_all n). Qed.
Lemma wsame_top n : forall src ts, fst (work_top n src ts) = parse_top n src ts.
Proof.
  induction n as [|n IH]; intros src ts; [reflexivity|]. cbn [work_top parse_top]. unfold counted. cbn [fst].
  destruct (tkind (current ts)); try reflexivity; rewrite fst_wbind; apply pbind_ext; auto using wsame_request, wsame_test, (ws_expr _ (wsame_all n)).
  - intros [[a b] c] t. apply IH.
  - intros [a b] t. apply IH.
Qed.

(** ** each call and each iteration is paid by a token *)
Open Scope Z_scope.
Notation len ts := (Z.of_nat (length ts)).
Definition costs {A} (ts : toks) (d e : Z) (x : work A) : Prop :=
  match fst x with
  | POk _ ts' => live ts' /\ Z.of_nat (snd x) + 3 * len ts' <= 3 * len ts + d
  | PErr _ => Z.of_nat (snd x) <= 3 * len ts + e
  | PFuel => True
  end.
Lemma live_len ts : live ts -> 1 <= len ts.
Proof. intros (t & r & -> & _). cbn [length]. lia. Qed.
Lemma wf_len ts : wf ts -> 1 <= len ts.
Proof. intros W. destruct (wf_nonempty _ W) as (t & r & ->). cbn [length]. lia. Qed.
Lemma next_len ts : live ts -> wf (next ts) /\ len ts = len (next ts) + 1.
Proof. intros L. destruct (live_next _ L) as (W & t & E & _). split; [exact W|]. rewrite E at 1. cbn [length]. lia. Qed.
Lemma costs_bind {A B} ts d e d' e' D E (x : work A) (f : A -> toks -> work B) :
  costs ts d e x -> (forall a ts', live ts' -> costs ts' d' e' (f a ts')) -> d + d' <= D -> e <= E -> d + e' <= E -> costs ts D E (wbind x f).
Proof.
  unfold costs, wbind. intros X F H1 H2 H3. destruct (fst x) as [a ts'|er|]; cbn [fst snd]; [|lia|exact I].
  destruct X as [L X]. specialize (F a ts' L). destruct (fst (f a ts')) as [b ts''|er|]; [|lia|exact I]. destruct F as [L' F]. split; [exact L'|lia].
Qed.
Lemma costs_next {A} ts d e (x : work A) : live ts -> costs (next ts) (d + 3) (e + 3) x -> costs ts d e x.
Proof. intros L. destruct (next_len _ L) as [_ E]. unfold costs. destruct (fst x); try lia; auto. intros [L' X]. split; [exact L'|lia]. Qed.
Lemma costs_ok {A} ts ts' d e (a : A) : live ts' -> len ts' <= len ts -> 0 <= d -> costs ts d e (wok a ts').
Proof. intros L H D. unfold costs. cbn [wok w0 fst snd]. split; [exact L|lia]. Qed.
Lemma costs_err {A} ts d e er : live ts -> -3 <= e -> costs ts d e (werr er : work A).
Proof. intros L H. unfold costs. cbn [werr w0 fst snd]. apply live_len in L. lia. Qed.
Lemma costs_fuel {A} ts d e : costs ts d e (wfuel : work A).
Proof. exact I. Qed.
Lemma costs_counted {A} ts d e (x : work A) : costs ts (d - 1) (e - 1) x -> costs ts d e (counted x).
Proof. unfold costs, counted. cbn [fst snd]. destruct (fst x); try lia; auto. intros [L X]. split; [exact L|lia]. Qed.
Lemma costs_expect k ts : k <> KEof -> live ts -> costs ts (-3) (-3) (w0 (expect k ts)).
Proof.
  intros K L. unfold costs. cbn [w0 fst snd]. pose proof (live_len _ L). destruct (expect k ts) as [u ts'|er|] eqn:E; [|lia|exact I].
  destruct (expect_ok _ _ _ _ L K E) as (t0 & t & r & -> & -> & T & S & V). split; [now exists t, r|]. cbn [length]. lia.
Qed.
Lemma costs_same {A} ts (x : pres A) : live ts -> (forall a t, x = POk a t -> t = ts) -> costs ts 0 0 (w0 x).
Proof. intros L H. unfold costs. cbn [w0 fst snd]. destruct x as [a t|er|]; [|lia|exact I]. rewrite (H a t eq_refl). split; [exact L|lia]. Qed.
Lemma peek_live k ts : k <> KEof -> live ts -> peek_is k ts = true -> live (next ts).
Proof. intros K L E. destruct (peek_is_ok k ts L K E) as (t0 & t & r & -> & T & S & V & _). cbn [next]. now exists t, r. Qed.
Lemma skip_live ts : live ts -> live (skip_semi ts) /\ len (skip_semi ts) <= len ts.
Proof.
  intros L. unfold skip_semi. destruct (peek_is KSemi ts) eqn:E; [|split; auto; lia]. split; [apply (peek_live KSemi); auto; discriminate|].
  destruct (next_len _ L). lia.
Qed.
Lemma costs_skip {A} ts d e (x : work A) : live ts -> costs (skip_semi ts) d e x -> costs ts d e x.
Proof. intros L. destruct (skip_live _ L) as [_ E]. unfold costs. destruct (fst x); try lia; auto. intros [L' X]. split; [exact L'|lia]. Qed.
(** a prefix operator in the place of an infix one: the loop goes round without end *)
Lemma loop_spins n p l ts t : (negb (peek_is KSemi ts) && (p <? peek_precedence ts)%N)%bool = true -> peek ts = Some t -> is_binop (tkind t) = false ->
  tkind t <> KLp -> tkind t <> KLs -> tkind t <> KDot -> fst (work_loop n p l ts) = PFuel.
Proof.
  intros C P B K1 K2 K3. induction n as [|n IH]; [reflexivity|]. cbn [work_loop]. rewrite C, P, B. unfold counted. cbn [fst]. destruct (tkind t); auto; congruence.
Qed.
Record paid_at (n : nat) : Prop := {
  p_expr : forall p ts, wf ts -> costs ts 2 3 (work_expr n p ts);
  p_loop : forall p l ts, live ts -> costs ts 1 2 (work_loop n p l ts);
  p_let : forall ts, live ts -> costs ts (-1) 1 (work_let n ts);
  p_unary : forall ts, live ts -> costs ts (-1) 1 (work_unary n ts);
  p_binary : forall l ts, live ts -> costs ts (-1) 1 (work_binary n l ts);
  p_paren : forall ts, live ts -> costs ts (-1) 1 (work_paren n ts);
  p_if : forall ts, live ts -> costs ts (-1) 1 (work_if n ts);
  p_call : forall f ts, live ts -> costs ts (-1) 1 (work_call n f ts);
  p_list : forall k ts, k <> KEof -> live ts -> costs ts (-1) 1 (work_list n k ts);
  p_list_loop : forall k ts, k <> KEof -> live ts -> costs ts 1 1 (work_list_loop n k ts);
  p_array : forall ts, live ts -> costs ts (-1) 1 (work_array n ts);
  p_map : forall ts, live ts -> costs ts (-1) 1 (work_map n ts);
  p_map_loop : forall ts, live ts -> costs ts 1 1 (work_map_loop n ts);
  p_index : forall l ts, live ts -> costs ts (-1) 1 (work_index n l ts);
  p_block : forall ts, live ts -> costs ts (-1) 1 (work_block n ts);
  p_block_loop : forall ts, live ts -> costs ts 1 1 (work_block_loop n ts) }.
Lemma paid_sub n p ts : paid_at n -> live ts -> costs ts (-1) 0 (work_expr n p (next ts)).
Proof. intros IH L. apply costs_next; auto. apply (p_expr _ IH). now destruct (next_len _ L). Qed.
Section Step.
  Variable n : nat.
  Hypothesis IH : paid_at n.
  Lemma pay_let ts : live ts -> costs ts (-1) 1 (work_let (S n) ts).
  Proof.
    intros L. cbn [work_let]. eapply (costs_bind _ (-3) (-3) 2 4); [apply costs_expect; auto; discriminate| |lia..]. intros _ t1 L1. cbv zeta.
    eapply (costs_bind _ (-3) (-3) 5 6); [apply costs_expect; auto; discriminate| |lia..]. intros _ t2 L2.
    eapply (costs_bind _ (-1) 0 0 0); [apply paid_sub; auto| |lia..]. intros v t3 L3. destruct (skip_live _ L3). apply costs_ok; auto; lia.
  Qed.
  Lemma pay_unary ts : live ts -> costs ts (-1) 1 (work_unary (S n) ts).
  Proof. intros L. cbn [work_unary]. cbv zeta. eapply (costs_bind _ (-1) 0 0 0); [apply paid_sub; auto| |lia..]. intros v t3 L3. apply costs_ok; auto; lia. Qed.
  Lemma pay_binary l ts : live ts -> costs ts (-1) 1 (work_binary (S n) l ts).
  Proof. intros L. cbn [work_binary]. cbv zeta. eapply (costs_bind _ (-1) 0 0 0); [apply paid_sub; auto| |lia..]. intros v t3 L3. apply costs_ok; auto; lia. Qed.
  Lemma pay_close {A} k ts (a : A) : k <> KEof -> live ts -> costs ts (-3) (-3) (wbind (w0 (expect k ts)) (fun _ ts => wok a ts)).
  Proof. intros K L. eapply (costs_bind _ (-3) (-3) 0 0); [apply costs_expect; auto| |lia..]. intros _ t1 L1. apply costs_ok; auto; lia. Qed.
  Lemma pay_paren ts : live ts -> costs ts (-1) 1 (work_paren (S n) ts).
  Proof. intros L. cbn [work_paren]. eapply (costs_bind _ (-1) 0 (-3) (-3)); [apply paid_sub; auto| |lia..]. intros v t3 L3. apply pay_close; auto. discriminate. Qed.
  Lemma pay_index l ts : live ts -> costs ts (-1) 1 (work_index (S n) l ts).
  Proof. intros L. cbn [work_index]. eapply (costs_bind _ (-1) 0 (-3) (-3)); [apply paid_sub; auto| |lia..]. intros v t3 L3. apply pay_close; auto. discriminate. Qed.
  Lemma pay_list k ts : k <> KEof -> live ts -> costs ts (-1) 1 (work_list (S n) k ts).
  Proof. intros K L. cbn [work_list]. eapply (costs_bind _ 1 1 (-3) (-3)); [apply (p_list_loop _ IH); auto| |lia..]. intros v t3 L3. apply pay_close; auto. Qed.
  Lemma pay_map ts : live ts -> costs ts (-1) 1 (work_map (S n) ts).
  Proof. intros L. cbn [work_map]. eapply (costs_bind _ 1 1 (-3) (-3)); [apply (p_map_loop _ IH); auto| |lia..]. intros v t3 L3. apply pay_close; auto. discriminate. Qed.
  Lemma pay_array ts : live ts -> costs ts (-1) 1 (work_array (S n) ts).
  Proof. intros L. cbn [work_array]. eapply (costs_bind _ (-1) 1 0 0); [apply (p_list _ IH); auto; discriminate| |lia..]. intros v t3 L3. apply costs_ok; auto; lia. Qed.
  Lemma pay_call f ts : live ts -> costs ts (-1) 1 (work_call (S n) f ts).
  Proof.
    intros L. cbn [work_call]. eapply (costs_bind _ (-1) 1 0 0); [apply (p_list _ IH); auto; discriminate| |lia..]. intros v t3 L3.
    destruct f; try (apply costs_err; auto; lia). apply costs_ok; auto; lia.
  Qed.
  Lemma pay_block ts : live ts -> costs ts (-1) 1 (work_block (S n) ts).
  Proof.
    intros L. cbn [work_block]. eapply (costs_bind _ (-3) (-3) 2 4); [apply costs_expect; auto; discriminate| |lia..]. intros _ t1 L1.
    eapply (costs_bind _ 1 1 (-3) (-3)); [apply (p_block_loop _ IH); auto| |lia..]. intros v t3 L3. apply pay_close; auto. discriminate.
  Qed.
  Lemma pay_if ts : live ts -> costs ts (-1) 1 (work_if (S n) ts).
  Proof.
    intros L. cbn [work_if]. eapply (costs_bind _ (-3) (-3) 2 4); [apply costs_expect; auto; discriminate| |lia..]. intros _ t1 L1.
    eapply (costs_bind _ (-1) 0 3 5); [apply paid_sub; auto| |lia..]. intros c t2 L2. eapply (costs_bind _ (-3) (-3) 6 8); [apply costs_expect; auto; discriminate| |lia..]. intros _ t3 L3.
    eapply (costs_bind _ (-1) 1 0 1); [apply (p_block _ IH); auto| |lia..]. intros cs t4 L4. destruct (peek_is KElse t4) eqn:E; [|apply costs_ok; auto; lia].
    apply costs_next; auto. eapply (costs_bind _ (-1) 1 0 0); [apply (p_block _ IH), (peek_live KElse); auto; discriminate| |lia..]. intros alt t5 L5. apply costs_ok; auto; lia.
  Qed.
  Lemma pay_cons {A} ts (x : work (list A)) a : costs ts 1 1 x -> costs ts 1 1 (wbind x (fun l ts => wok (a :: l) ts)).
  Proof. intros X. eapply (costs_bind _ 1 1 0 0); [exact X| |lia..]. intros l t L. apply costs_ok; auto; lia. Qed.
  Lemma pay_list_loop k ts : k <> KEof -> live ts -> costs ts 1 1 (work_list_loop (S n) k ts).
  Proof.
    intros K L. cbn [work_list_loop]. apply costs_counted. destruct (peek_is k ts); [apply costs_ok; auto; lia|].
    eapply (costs_bind _ (-1) 0 1 1); [apply paid_sub; auto| |lia..]. intros e t1 L1. destruct (peek_is k t1); [apply pay_cons, (p_list_loop _ IH); auto|].
    eapply (costs_bind _ (-3) (-3) 1 1); [apply costs_expect; auto; discriminate| |lia..]. intros _ t2 L2. apply pay_cons, (p_list_loop _ IH); auto.
  Qed.
  Lemma pay_map_loop ts : live ts -> costs ts 1 1 (work_map_loop (S n) ts).
  Proof.
    intros L. cbn [work_map_loop]. apply costs_counted. destruct (peek_is KRb ts); [apply costs_ok; auto; lia|].
    eapply (costs_bind _ (-1) 0 1 1); [apply paid_sub; auto| |lia..]. intros e t1 L1.
    eapply (costs_bind _ (-3) (-3) 4 4); [apply costs_expect; auto; discriminate| |lia..]. intros _ t2 L2.
    eapply (costs_bind _ (-1) 0 1 1); [apply paid_sub; auto| |lia..]. intros v t3 L3. destruct (peek_is KRb t3); [apply pay_cons, (p_map_loop _ IH); auto|].
    eapply (costs_bind _ (-3) (-3) 1 1); [apply costs_expect; auto; discriminate| |lia..]. intros _ t4 L4. apply pay_cons, (p_map_loop _ IH); auto.
  Qed.
  Lemma pay_block_loop ts : live ts -> costs ts 1 1 (work_block_loop (S n) ts).
  Proof.
    intros L. cbn [work_block_loop]. apply costs_counted. destruct (peek_is KRb ts); [apply costs_ok; auto; lia|].
    eapply (costs_bind _ (-1) 0 1 1); [apply paid_sub; auto| |lia..]. intros e t1 L1. destruct (skip_live _ L1) as [L2 _].
    apply costs_skip; auto. apply pay_cons, (p_block_loop _ IH); auto.
  Qed.
  Lemma pay_on {A} ts d e q (x : work A) (f : A -> expr) : costs ts d e x -> d <= 0 -> e <= 1 -> costs ts 1 2 (wbind x (fun a t => work_loop n q (f a) t)).
  Proof. intros X D E. eapply (costs_bind _ d e 1 2); [exact X| |lia..]. intros a t L. now apply (p_loop _ IH). Qed.
  Lemma pay_loop p l ts : live ts -> costs ts 1 2 (work_loop (S n) p l ts).
  Proof.
    intros L. pose proof (loop_spins (S n) p l ts) as SP. cbn [work_loop] in *. destruct (negb (peek_is KSemi ts) && (p <? peek_precedence ts)%N)%bool eqn:E.
    2: { apply costs_counted, costs_ok; auto; lia. }
    assert (E' := E). apply andb_prop in E'. destruct E' as [_ E']. apply N.ltb_lt in E'. unfold peek_precedence in E'. destruct (peek ts) as [t|] eqn:T; [|now destruct (N.nlt_0_r _ E')].
    assert (L' : live (next ts)).
    { destruct (next_len _ L) as [W _]. apply wf_live; auto. destruct ts as [|t0 [|t' r]]; try discriminate T. injection T as ->. cbn [next current]. intros X. rewrite X in E'. cbn in E'. lia. }
    assert (GO : forall x, costs (next ts) (-1) 1 x -> costs ts 1 2 (counted (wbind x (fun e ts => work_loop n p e ts)))).
    { intros x X. apply costs_counted. eapply (costs_bind _ (-4) (-2) 1 2); [apply costs_next; auto; exact X| |lia..]. intros e t1 L1. now apply (p_loop _ IH). }
    destruct (is_binop (tkind t)) eqn:B; [apply GO, (p_binary _ IH); auto|].
    specialize (SP t eq_refl eq_refl B). destruct (tkind t); try (unfold costs; rewrite SP; [exact I|discriminate..]).
    - apply GO. unfold costs. cbn [w0 fst snd]. pose proof (costs_expect KIdent (next ts) ltac:(discriminate) L') as X. unfold costs in X. cbn [w0 fst snd] in X.
      unfold parse_field. destruct (expect KIdent (next ts)) as [u t2|er|]; cbn [pbind]; [|lia|exact I]. destruct X as [X1 X2]. split; [exact X1|lia].
    - apply GO, (p_call _ IH); auto.
    - apply GO, (p_index _ IH); auto.
  Qed.
  Lemma pay_expr p ts : wf ts -> costs ts 2 3 (work_expr (S n) p ts).
  Proof.
    intros V. pose proof (wf_len _ V) as W. cbn [work_expr]. apply costs_counted. destruct (tkind (current ts)) eqn:K;
      try (unfold costs; cbn [werr w0 fst snd]; lia); (assert (L : live ts) by (apply wf_live; auto; congruence)); change (2 - 1) with 1; change (3 - 1) with 2.
    all: try (apply (p_loop _ IH); exact L).
    all: try (eapply (pay_on _ (-1) 1 _ _ (fun e => e)); [|lia..]; first [now apply (p_let _ IH)|now apply (p_unary _ IH)|now apply (p_paren _ IH)|now apply (p_if _ IH)|now apply (p_array _ IH)|now apply (p_map _ IH)]).
    all: eapply (pay_on _ 0 0 _ _ (fun e => e)); [|lia..]; apply costs_same; auto; intros e t1 X; unfold parse_integer_literal, parse_float_literal, parse_boolean_literal in X;
      repeat match type of X with context [match ?x with _ => _ end] => destruct x; try discriminate X end; now injection X as <- <-.
  Qed.
End Step.
Lemma paid_all n : paid_at n.
Proof.
  induction n as [|n IH]; [constructor; intros; apply costs_fuel|].
  constructor; intros; eauto using pay_expr, pay_loop, pay_let, pay_unary, pay_binary, pay_paren, pay_if, pay_call,
    pay_list, pay_list_loop, pay_array, pay_map, pay_map_loop, pay_index, pay_block, pay_block_loop.
Qed.
Lemma paid_top n : forall src ts, wf ts -> fst (work_top n src ts) <> PFuel -> Z.of_nat (snd (work_top n src ts)) <= 3 * len ts + 4.
Proof.
  induction n as [|n IH]; intros src ts V F; [now destruct F|]. pose proof (wf_len _ V) as W. cbn [work_top] in *. unfold counted in *. cbn [fst snd] in *.
  assert (GO : forall (A : Type) (x : work A) (f : A -> source), costs ts 2 3 x ->
    fst (wbind x (fun a t => work_top n (f a) (next (skip_semi t)))) <> PFuel -> Z.of_nat (S (snd (wbind x (fun a t => work_top n (f a) (next (skip_semi t)))))) <= 3 * len ts + 4).
  { intros A x f X N. unfold wbind, costs in *. destruct (fst x) as [a t|er|]; cbn [fst snd] in *; [|lia|now destruct N]. destruct X as [L X]. destruct (skip_live _ L) as [L1 X1].
    destruct (next_len _ L1) as [W1 X2]. specialize (IH (f a) _ W1 N). lia. }
  pose proof (paid_all n) as A.
  destruct (tkind (current ts)) eqn:K; try (apply (GO _ _ (fun e => Source (s_exprs src ++ [e]) (s_requests src) (s_tests src))); [apply (p_expr _ A); exact V|exact F]).
  - cbn [wok w0 snd]. lia.
  - assert (L : live ts) by (apply wf_live; auto; congruence).
    assert (X : costs ts 2 3 (work_request n ts)).
    { unfold work_request. eapply (costs_bind _ (-3) (-3) 5 6); [apply costs_expect; auto; discriminate| |lia..]. intros _ t1 L1. cbv zeta.
      eapply (costs_bind _ (-3) (-3) 5 6); [apply costs_expect; auto; discriminate| |lia..]. intros _ t2 L2. cbv zeta.
      destruct (peek_is KLs t2) eqn:E; [|apply costs_ok; auto; lia]. apply costs_next; auto.
      eapply (costs_bind _ (-1) 1 0 0); [apply (p_list _ A); [discriminate|apply (peek_live KLs); auto; discriminate]| |lia..]. intros as_ t3 L3. apply costs_ok; auto; lia. }
    specialize (GO _ (work_request n ts) (fun '(name, message, asserts) => Source (s_exprs src) (mset name (message, asserts) (s_requests src)) (s_tests src)) X).
    unfold wbind in *. destruct (fst (work_request n ts)) as [[[a b] c] t|er|]; apply GO, F.
  - assert (L : live ts) by (apply wf_live; auto; congruence).
    assert (X : costs ts 2 3 (work_test n ts)).
    { unfold work_test. eapply (costs_bind _ (-3) (-3) 5 6); [apply costs_expect; auto; discriminate| |lia..]. intros _ t1 L1. cbv zeta.
      eapply (costs_bind _ (-1) 1 0 0); [apply (p_block _ A); auto| |lia..]. intros b t3 L3. apply costs_ok; auto; lia. }
    specialize (GO _ (work_test n ts) (fun '(name, block) => Source (s_exprs src) (s_requests src) (mset name block (s_tests src))) X).
    unfold wbind in *. destruct (fst (work_test n ts)) as [[a b] t|er|]; apply GO, F.
Qed.
Open Scope nat_scope.
Theorem parse_work_tokens text : parse text <> Diverge -> parse_work text <= 3 * length (segment text) + 4.
Proof.
  intros P. unfold parse_work. enough (Z.of_nat (snd (work_top (fuel_for (segment text)) (Source [] [] []) (segment text))) <= 3 * len (segment text) + 4)%Z by lia.
  apply paid_top; [apply wf_segment|]. rewrite wsame_top. unfold parse, parse_fuel in P. intros E. now rewrite E in P.
Qed.
Theorem parse_work_length text : parse text <> Diverge -> parse_work text <= 3 * length text + 7.
Proof. intros P. pose proof (parse_work_tokens text P). pose proof (segment_length text). lia. Qed.

(** ** each expression is read by a call or an iteration of its own *)
Lemma sizes_cons e es : sizes (e :: es) = size e + sizes es. Proof. reflexivity. Qed.
Lemma sizes_app a b : sizes (a ++ b) = sizes a + sizes b.
Proof. unfold sizes. rewrite map_app. apply list_sum_app. Qed.
Definition pair_sizes (ps : list (expr * expr)) : nat := list_sum (map (fun kv => size (fst kv) + size (snd kv)) ps).
Lemma pair_sizes_cons k v ps : pair_sizes ((k, v) :: ps) = size k + size v + pair_sizes ps. Proof. reflexivity. Qed.
Lemma size_arr es : size (EArr es) = S (sizes es). Proof. reflexivity. Qed.
Lemma size_call n es : size (ECall n es) = S (sizes es). Proof. reflexivity. Qed.
Lemma size_map ps : size (EMap ps) = S (pair_sizes ps). Proof. reflexivity. Qed.
Lemma size_if c a b : size (EIf c a b) = S (size c + (sizes a + sizes b)). Proof. reflexivity. Qed.
Definition yields {A} (x : work A) (f : A -> nat) (k : nat) : Prop := forall a ts, fst x = POk a ts -> f a <= snd x + k.
Lemma yields_bind {A B} (x : work A) (g : A -> toks -> work B) (f : A -> nat) (f' : B -> nat) k k' : yields x f k -> (forall a ts, yields (g a ts) f' (f a + k')) -> yields (wbind x g) f' (k + k').
Proof. intros X G b ts E. unfold wbind in *. destruct (fst x) as [a t|e|] eqn:Ex; cbn [fst snd] in *; try discriminate. specialize (X a t Ex). specialize (G a t b ts E). lia. Qed.
Lemma yields_0 {A} (x : pres A) f k : (forall a ts, x = POk a ts -> f a <= k) -> yields (w0 x) f k.
Proof. intros H a ts E. cbn [w0 fst snd] in *. now apply (H a ts). Qed.
Lemma yields_ok {A} (a : A) ts f k : f a <= k -> yields (wok a ts) f k.
Proof. intros H. apply yields_0. intros b t [= <- <-]. exact H. Qed.
Lemma yields_err {A} e (f : A -> nat) k : yields (werr e) f k.
Proof. intros a ts E. discriminate E. Qed.
Lemma yields_fuel {A} (f : A -> nat) k : yields wfuel f k.
Proof. intros a ts E. discriminate E. Qed.
Lemma yields_counted {A} (x : work A) f k : yields x f (S k) -> yields (counted x) f k.
Proof. intros H a ts E. specialize (H a ts E). cbn [counted snd]. lia. Qed.
Lemma yields_weak {A} (x : work A) f k k' : yields x f k -> k <= k' -> yields x f k'.
Proof. intros H L a ts E. specialize (H a ts E). lia. Qed.
Record read_at (n : nat) : Prop := {
  r_expr : forall p ts, yields (work_expr n p ts) size 0;
  r_loop : forall p l ts, yields (work_loop n p l ts) size (size l);
  r_let : forall ts, yields (work_let n ts) size 1;
  r_unary : forall ts, yields (work_unary n ts) size 1;
  r_binary : forall l ts, yields (work_binary n l ts) size (S (size l));
  r_paren : forall ts, yields (work_paren n ts) size 1;
  r_if : forall ts, yields (work_if n ts) size 1;
  r_call : forall f ts, yields (work_call n f ts) size 1;
  r_list : forall k ts, yields (work_list n k ts) sizes 0;
  r_list_loop : forall k ts, yields (work_list_loop n k ts) sizes 0;
  r_array : forall ts, yields (work_array n ts) size 1;
  r_map : forall ts, yields (work_map n ts) size 1;
  r_map_loop : forall ts, yields (work_map_loop n ts) pair_sizes 0;
  r_index : forall l ts, yields (work_index n l ts) size (S (size l));
  r_block : forall ts, yields (work_block n ts) sizes 0;
  r_block_loop : forall ts, yields (work_block_loop n ts) sizes 0 }.
Section ReadStep.
  Variable n : nat.
  Hypothesis IH : read_at n.
  Lemma after {A B} (x : work A) (g : A -> toks -> work B) f f' k' : yields x f 0 -> (forall a ts, yields (g a ts) f' (f a + k')) -> yields (wbind x g) f' k'.
  Proof. intros X G. exact (yields_bind x g f f' 0 k' X G). Qed.
  Lemma skipped {B} (x : pres unit) (g : unit -> toks -> work B) f' k' : (forall a ts, yields (g a ts) f' k') -> yields (wbind (w0 x) g) f' k'.
  Proof. intros G. apply (after _ _ (fun _ => 0)); [|exact G]. now apply yields_0. Qed.
  Ltac fin := apply yields_ok; rewrite ?size_arr, ?size_call, ?size_map, ?size_if, ?sizes_cons, ?pair_sizes_cons; cbn [size]; try lia; change (sizes []) with 0; try lia.
  Lemma rd_list_loop k ts : yields (work_list_loop (S n) k ts) sizes 0.
  Proof.
    cbn [work_list_loop]. apply yields_counted. destruct (peek_is k ts); [fin|]. apply (after _ _ size); [apply (r_expr _ IH)|]. intros e t1. destruct (peek_is k t1); [|apply skipped; intros _ t2].
    all: apply (after _ _ sizes); [apply (r_list_loop _ IH)|]; intros es t3; fin.
  Qed.
  Lemma rd_map_loop ts : yields (work_map_loop (S n) ts) pair_sizes 0.
  Proof.
    cbn [work_map_loop]. apply yields_counted. destruct (peek_is KRb ts); [apply yields_ok; cbn; lia|]. apply (after _ _ size); [apply (r_expr _ IH)|]. intros e t1. apply skipped; intros _ t2.
    apply (after _ _ size); [apply (r_expr _ IH)|]. intros v t3. destruct (peek_is KRb t3); [|apply skipped; intros _ t4].
    all: apply (after _ _ pair_sizes); [apply (r_map_loop _ IH)|]; intros es t5; fin.
  Qed.
  Lemma rd_block_loop ts : yields (work_block_loop (S n) ts) sizes 0.
  Proof.
    cbn [work_block_loop]. apply yields_counted. destruct (peek_is KRb ts); [fin|]. apply (after _ _ size); [apply (r_expr _ IH)|]. intros e t1.
    apply (after _ _ sizes); [apply (r_block_loop _ IH)|]. intros es t3. fin.
  Qed.
  Lemma rd_if ts : yields (work_if (S n) ts) size 1.
  Proof.
    cbn [work_if]. apply skipped; intros _ t1. apply (after _ _ size); [apply (r_expr _ IH)|]. intros c t2. apply skipped; intros _ t3. apply (after _ _ sizes); [apply (r_block _ IH)|]. intros cs t4.
    destruct (peek_is KElse t4); [|fin]. apply (after _ _ sizes); [apply (r_block _ IH)|]. intros alt t5. fin.
  Qed.
  Lemma rd_on {A} q (x : work A) (g : A -> expr) k : yields x (fun a => size (g a)) k -> yields (wbind x (fun a t => work_loop n q (g a) t)) size k.
  Proof. intros X. rewrite <- (Nat.add_0_r k). apply (yields_bind _ _ (fun a => size (g a))); [exact X|]. intros a t. rewrite Nat.add_0_r. apply (r_loop _ IH). Qed.
  Lemma rd_loop p l ts : yields (work_loop (S n) p l ts) size (size l).
  Proof.
    cbn [work_loop]. apply yields_counted. destruct (negb (peek_is KSemi ts) && (p <? peek_precedence ts)%N)%bool; [|fin].
    assert (LP : forall l' t, size l' <= S (size l) -> yields (work_loop n p l' t) size (S (size l))) by (intros; eapply yields_weak; [apply (r_loop _ IH)|assumption]).
    destruct (peek ts) as [t|]; [|apply LP; lia]. destruct (is_binop (tkind t)); [apply (rd_on p _ (fun e => e)), (r_binary _ IH)|].
    destruct (tkind t); try (apply LP; lia).
    - apply (rd_on p _ (fun e => e)). apply yields_0. intros e t1 X. unfold parse_field in X. destruct (expect KIdent (next ts)); try discriminate X. cbn [pbind] in X. injection X as <- <-. cbn [size]. lia.
    - apply (rd_on p _ (fun e => e)). eapply yields_weak; [apply (r_call _ IH)|lia].
    - apply (rd_on p _ (fun e => e)), (r_index _ IH).
  Qed.
  Lemma rd_expr p ts : yields (work_expr (S n) p ts) size 0.
  Proof.
    cbn [work_expr]. apply yields_counted.
    assert (AT : forall e t1, size e = 1 -> yields (work_loop n p e t1) size 1) by (intros e t1 X; rewrite <- X; apply (r_loop _ IH)).
    destruct (tkind (current ts)); try apply yields_err; try (now apply AT).
    all: apply (rd_on _ _ (fun e => e)).
    all: first [apply (r_let _ IH)|apply (r_unary _ IH)|apply (r_paren _ IH)|apply (r_if _ IH)|apply (r_array _ IH)|apply (r_map _ IH)|idtac].
    all: apply yields_0; intros e t1 X; unfold parse_integer_literal, parse_float_literal, parse_boolean_literal in X;
      repeat match type of X with context [match ?x with _ => _ end] => destruct x; try discriminate X end; injection X as <- <-; cbn [size]; lia.
  Qed.
  Lemma rd_all : read_at (S n).
  Proof.
    constructor; intros; auto using rd_list_loop, rd_map_loop, rd_block_loop, rd_if, rd_loop, rd_expr.
    - cbn [work_let]. apply skipped; intros _ t1. cbv zeta. apply skipped; intros _ t2. apply (after _ _ size); [apply (r_expr _ IH)|]. intros v t3. fin.
    - cbn [work_unary]. cbv zeta. apply (after _ _ size); [apply (r_expr _ IH)|]. intros v t3. fin.
    - cbn [work_binary]. cbv zeta. apply (after _ _ size); [apply (r_expr _ IH)|]. intros v t3. fin.
    - cbn [work_paren]. apply (after _ _ size); [apply (r_expr _ IH)|]. intros v t3. apply skipped; intros _ t4. fin.
    - cbn [work_call]. apply (after _ _ sizes); [apply (r_list _ IH)|]. intros es t1. destruct f; try apply yields_err. fin.
    - cbn [work_list]. apply (after _ _ sizes); [apply (r_list_loop _ IH)|]. intros es t1. apply skipped; intros _ t4. fin.
    - cbn [work_array]. apply (after _ _ sizes); [apply (r_list _ IH)|]. intros es t1. fin.
    - cbn [work_map]. apply (after _ _ pair_sizes); [apply (r_map_loop _ IH)|]. intros es t1. apply skipped; intros _ t4. fin.
    - cbn [work_index]. apply (after _ _ size); [apply (r_expr _ IH)|]. intros v t3. apply skipped; intros _ t4. fin.
    - cbn [work_block]. apply skipped; intros _ t4. apply (after _ _ sizes); [apply (r_block_loop _ IH)|]. intros es t1. apply skipped; intros _ t5. fin.
  Qed.
End ReadStep.
Lemma read_all n : read_at n.
Proof. induction n as [|n IH]; [constructor; intros; apply yields_fuel|now apply rd_all]. Qed.
Lemma read_top n : forall src ts, yields (work_top n src ts) (fun s => sizes (s_exprs s)) (sizes (s_exprs src)).
Proof.
  induction n as [|n IH]; intros src ts; [apply yields_fuel|]. cbn [work_top]. apply yields_counted.
  destruct (tkind (current ts)); try (apply (after _ _ size); [apply (r_expr _ (read_all n))|]; intros e t1; eapply yields_weak; [apply IH|]; cbn [s_exprs]; rewrite sizes_app, sizes_cons; change (sizes []) with 0; lia).
  - apply yields_ok. lia.
  - apply (after _ _ (fun _ => 0)); [intros ? ? ?; lia|]. intros [[a b] c] t1. eapply yields_weak; [apply IH|cbn [s_exprs]; lia].
  - apply (after _ _ (fun _ => 0)); [intros ? ? ?; lia|]. intros [a b] t1. eapply yields_weak; [apply IH|cbn [s_exprs]; lia].
Qed.
Theorem parse_work_least text src : parse text = Ok src -> sizes (s_exprs src) <= parse_work text.
Proof.
  intros P. unfold parse, parse_fuel in P. pose proof (read_top (fuel_for (segment text)) (Source [] [] []) (segment text)) as R. unfold yields in R. rewrite wsame_top in R. unfold parse_work.
  destruct (parse_top _ _ _) as [x t|e|]; try discriminate P. injection P as <-. specialize (R x t eq_refl). cbn [s_exprs] in R. change (sizes []) with 0 in R. lia.
Qed.
