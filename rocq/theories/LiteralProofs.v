(** Sources that consist of one literal *)
From Verif Require Import Parser SpecSyntax SpecValue TextProofs LexerProofs ParserBase ParserSound ParserTop ParserComplete ParserProgram FloatLiteral FloatUnique.
Open Scope N_scope.

Lemma spelled_alone w t : spells w t -> segment w = [Tok (tkind t) (tlit t); Tok KEof []].
Proof. intros S. pose proof (spells_segment w t [] S (or_introl eq_refl)) as H. rewrite app_nil_r in H. rewrite H. destruct t; reflexivity. Qed.

(** the parser on one token that starts an expression *)
Lemma fuel_three k l : exists m, fuel_for [Tok k l; Tok KEof []] = S (S (S m)).
Proof. eexists. reflexivity. Qed.
Lemma top_end n src : parse_top (S n) src [Tok KEof []] = POk src [Tok KEof []].
Proof. reflexivity. Qed.
Lemma one_token text k l e : segment text = [Tok k l; Tok KEof []] -> starts k = true ->
  (forall n, parse_expr (S (S n)) prec_min [Tok k l; Tok KEof []] = POk e [Tok k l; Tok KEof []]) ->
  parse text = Ok (Source [e] [] []).
Proof.
  intros S K E. unfold parse. rewrite S. destruct (fuel_three k l) as [m ->]. unfold parse_fuel.
  rewrite top_expr by exact K. rewrite E. cbn [pbind skip_semi peek_is peek tkind kind_eqb next]. 
  change (next (skip_semi [Tok k l; Tok KEof []])) with [Tok KEof []]. rewrite top_end. reflexivity.
Qed.
Lemma one_token_err text k l e : segment text = [Tok k l; Tok KEof []] -> starts k = true ->
  (forall n, parse_expr (S (S n)) prec_min [Tok k l; Tok KEof []] = PErr e) -> parse text = Err e.
Proof.
  intros S K E. unfold parse. rewrite S. destruct (fuel_three k l) as [m ->]. unfold parse_fuel.
  rewrite top_expr by exact K. rewrite E. reflexivity.
Qed.

Lemma digits_segment l : l <> [] -> Forall digit l -> segment l = [Tok KInteger l; Tok KEof []].
Proof. intros N D. destruct l as [|c l]; [congruence|]. inversion D; subst. apply (spelled_alone _ (Tok KInteger (c :: l))). now constructor. Qed.

Lemma integer_literal w l : l <> [] -> Forall digit l ->
  ((Z.of_N (decimal l) < 2 ^ 63)%Z ->
     parse l = Ok (Source [EInt (Z.of_N (decimal l))] [] []) /\
     forall s, eval_expr w (EInt (Z.of_N (decimal l))) s = (Ok (VInt (Z.of_N (decimal l))), s)) /\
  ((2 ^ 63 <= Z.of_N (decimal l))%Z -> exists e, parse l = Err e /\ perr_text e = lit "parse integer error: " ++ l).
Proof.
  intros N D. pose proof (digits_segment _ N D) as S.
  assert (V : digits_val 0 l = Some (decimal l)) by (now apply digits_val_iff).
  split; intros B.
  - split; [|reflexivity]. eapply one_token; [exact S|reflexivity|]. intros n. cbn [parse_expr current tkind]. unfold parse_integer_literal. cbn [current tlit]. rewrite V.
    unfold i64_max. destruct (Z.leb_spec (Z.of_N (decimal l)) (2 ^ 63 - 1)); [reflexivity|lia].
  - exists (EBadInt l). split; [|reflexivity]. eapply one_token_err; [exact S|reflexivity|]. intros n. cbn [parse_expr current tkind]. unfold parse_integer_literal. cbn [current tlit]. rewrite V.
    unfold i64_max. destruct (Z.leb_spec (Z.of_N (decimal l)) (2 ^ 63 - 1)); [lia|reflexivity].
Qed.

Lemma number_segment l : (exists c s, l = c :: s /\ digit c) -> Forall (fun x => digit x \/ x = 46) l -> In 46 l ->
  segment l = [Tok KFloat l; Tok KEof []].
Proof.
  intros (c & s & -> & D) F I. inversion F; subst. apply (spelled_alone _ (Tok KFloat (c :: s))). apply sp_float; auto.
  destruct I; auto. subst. destruct D. lia.
Qed.

Lemma float_literal_source w a b : a <> [] -> Forall digit a -> Forall digit b -> exists f,
  (forall f', float_literal (a ++ 46 :: b) f' <-> f' = f) /\
  parse (a ++ 46 :: b) = Ok (Source [EFloat f] [] []) /\
  forall s, eval_expr w (EFloat f) s = (Ok (VFloat f), s).
Proof.
  intros N A B.
  assert (exists f, parse_f64 (a ++ 46 :: b) = Some f) as [f F].
  { unfold parse_f64.
    assert (split_once 46 (a ++ 46 :: b) = Some (a, b)) as ->.
    { apply split_once_iff. split; [reflexivity|]. intros H. rewrite Forall_forall in A. apply A in H. unfold digit in H. lia. }
    destruct (a ++ b) as [|c ds] eqn:E; [apply app_eq_nil in E; tauto|].
    assert (digits_val 0 (c :: ds) = Some (decimal (c :: ds))) as ->.
    { apply digits_val_iff. split; [rewrite <- E; apply Forall_app; auto|reflexivity]. }
    destruct (decimal (c :: ds)); [eauto|]. destruct (SpecFloat.SFdiv_core_binary _ _ _ _ _ _) as [[? ?] ?]. eauto. }
  exists f. split; [|split].
  - intros f'. rewrite <- parse_f64_iff, F. split; [now intros [= <-]|now intros ->].
  - assert (S : segment (a ++ 46 :: b) = [Tok KFloat (a ++ 46 :: b); Tok KEof []]).
    { apply number_segment.
      - destruct a as [|c a]; [congruence|]. inversion A; subst. do 2 eexists. split; [reflexivity|assumption].
      - apply Forall_app. split; [|constructor; [auto|]]; (eapply Forall_impl; [|eassumption]; cbn; auto).
      - apply in_or_app. right. now left. }
    eapply one_token; [exact S|reflexivity|]. intros n. cbn [parse_expr current tkind]. unfold parse_float_literal. cbn [current tlit]. rewrite F. reflexivity.
  - reflexivity.
Qed.

Lemma two_dots a b c : a <> [] -> Forall digit a -> Forall (fun x => digit x \/ x = 46) b -> Forall (fun x => digit x \/ x = 46) c ->
  exists e, parse (a ++ 46 :: b ++ 46 :: c) = Err e /\ perr_text e = lit "parse float error: " ++ a ++ 46 :: b ++ 46 :: c.
Proof.
  intros N A B C. exists (EBadFloat (a ++ 46 :: b ++ 46 :: c)). split; [|reflexivity].
  assert (S : segment (a ++ 46 :: b ++ 46 :: c) = [Tok KFloat (a ++ 46 :: b ++ 46 :: c); Tok KEof []]).
  { apply number_segment.
    - destruct a as [|x a]; [congruence|]. inversion A; subst. do 2 eexists. split; [reflexivity|assumption].
    - apply Forall_app. split; [eapply Forall_impl; [|exact A]; cbn; auto|]. constructor; auto. apply Forall_app. split; auto.
    - apply in_or_app. right. now left. }
  eapply one_token_err; [exact S|reflexivity|]. intros n. cbn [parse_expr current tkind]. unfold parse_float_literal. cbn [current tlit].
  destruct (parse_f64 (a ++ 46 :: b ++ 46 :: c)) as [f|] eqn:F; [|reflexivity]. exfalso.
  apply parse_f64_iff in F. destruct F as (a' & b' & E & A' & B' & _).
  assert (ND : forall l, Forall digit l -> ~ In 46 l).
  { intros l D I. rewrite Forall_forall in D. apply D in I. unfold digit in I. lia. }
  assert (P1 : split_once 46 (a ++ 46 :: b ++ 46 :: c) = Some (a, b ++ 46 :: c)) by (apply split_once_iff; auto).
  assert (P2 : split_once 46 (a ++ 46 :: b ++ 46 :: c) = Some (a', b')) by (apply split_once_iff; auto).
  rewrite P1 in P2. inversion P2; subst. apply (ND _ B'). apply in_or_app. right. now left.
Qed.

Lemma string_literal w s : ~ In 34 s ->
  parse (34 :: s ++ [34]) = Ok (Source [EStr s] [] []) /\ forall st, eval_expr w (EStr s) st = (Ok (VStr s), st).
Proof.
  intros N. split; [|reflexivity]. eapply one_token with (k := KString) (l := s); [|reflexivity|reflexivity].
  apply (spelled_alone _ (Tok KString s)). apply sp_quoted; auto. now left.
Qed.
