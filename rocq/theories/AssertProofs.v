(** What assertions say of responses *)
From Verif Require Import Utf8Proofs ValueProofs EqualityProofs ValueExamples FloatOps ValidProofs TextProofs ShowProofs JsonProofs ParserTop EvaluatorTop HistoryProofs FewText SpecValid SpecAssert.
Open Scope N_scope.

Lemma last_unique {V} k (l : list (str * V)) a b : last_def k l a -> last_def k l b -> a = b.
Proof. intros A B. apply mextend_last in A, B. congruence. Qed.
Lemma integer_text_one z t : (0 <= z)%Z -> integer_text z t -> t = show_Z z.
Proof.
  intros P H. destruct (show_Z_text z) as (ds & A & B & C & [(_ & -> & E)|(L & _)]); [|lia]. destruct H as (es & A' & B' & C' & [(_ & -> & E')|(L & _)]); [|lia].
  apply whole_unique; [now split|now split|lia].
Qed.
Lemma located_one d ps x : located d ps x -> forall y, located d ps y -> x = y.
Proof.
  induction 1 as [x|ms k y ps x L _ IH|ms k y ps x L _ IH|ys i y ps x L _ IH|ms i k y ps x T L _ IH]; intros z H; inversion H; subst; auto; apply IH.
  - assert (y = y0) by (eapply last_unique; eauto). now subst.
  - assert (y = y0) by (eapply last_unique; eauto). now subst.
  - assert (y = y0) by congruence. now subst.
  - match goal with A : integer_text _ k, B : integer_text _ ?k' |- _ => apply integer_text_one in A, B; [subst|lia..] end. assert (y = y0) by (eapply last_unique; eauto). now subst.
Qed.

Section Walk.
  Variables (w : env) (s : st).
  Lemma operand_one e u v : operand w e s u s -> operand w e s v s -> u = v.
  Proof. intros [A|[-> [er A]]] [B|[-> [er' B]]]; congruence. Qed.
  Lemma eval_access e p : eval_expr w (access e p) s =
    match eval_expr w e s with
    | (Ok v, s') => (match p with Field k => field_value v k | Key k => index_value (e_host w) v (VStr k) | Nth i => index_value (e_host w) v (VInt (Z.of_N i)) end, s')
    | (Err er, s') => (Err er, s') | (Panic, s') => (Panic, s') | (Diverge, s') => (Diverge, s')
    end.
  Proof. destruct p; cbn [access]; unfold eval_expr, eval_at; cbn [eval]; unfold bind, lift, ret; destruct (eval (e_host w) (call_at w 1) e s) as [[]]; reflexivity. Qed.
  Lemma null_step e p : operand w e s VNull s -> operand w (access e p) s VNull s.
  Proof.
    intros [E|[_ [er E]]]; right; (split; [reflexivity|]); rewrite eval_access, E; [|eauto].
    destruct p; cbn; eauto.
  Qed.
  Lemma null_walk ps : forall e, operand w e s VNull s -> operand w (fold_left access ps e) s VNull s.
  Proof. induction ps as [|p ps IH]; intros e H; cbn [fold_left]; auto. apply IH, null_step, H. Qed.

  Lemma member_denotes ms m k : denotes (JObj ms) (VMap m) ->
    (exists x v, last_def k ms x /\ mget k m = Some v /\ denotes x v) \/ ((forall x, ~ last_def k ms x) /\ mget k m = None).
  Proof.
    intros H. inversion H as [| | | | | | |? ? D K V]; subst. destruct (mget k m) as [v|] eqn:E.
    - left. destruct (V _ _ E) as (x & L & Y). eauto 6.
    - right. split; auto. intros x (a & b & -> & _). assert (I : In k (map fst m)) by (apply K; rewrite map_app; apply in_or_app; right; left; reflexivity).
      apply in_map_iff in I. destruct I as ([k' v] & <- & I). cbn [fst] in E. eapply in_mget in I; eauto. congruence.
  Qed.
  Lemma walk ps : forall e d v, operand w e s v s -> denotes d v -> valid v ->
    exists u, operand w (fold_left access ps e) s u s /\ valid u /\
      ((exists x, located d ps x /\ denotes x u) \/ ((forall x, ~ located d ps x) /\ u = VNull)).
  Proof.
    induction ps as [|p ps IH]; intros e d v O D V; [exists v; split; auto; split; auto; left; exists d; split; [constructor|auto]|].
    assert (NONE : (forall x, ~ located d (p :: ps) x) -> operand w (access e p) s VNull s ->
      exists u, operand w (fold_left access (p :: ps) e) s u s /\ valid u /\ ((exists x, located d (p :: ps) x /\ denotes x u) \/ ((forall x, ~ located d (p :: ps) x) /\ u = VNull))).
    { intros N Q. exists VNull. split; [exact (null_walk ps _ Q)|]. split; [exact I|auto]. }
    assert (SOME : forall y u, (forall x, located d (p :: ps) x <-> located y ps x) -> denotes y u -> valid u -> operand w (access e p) s u s ->
      exists u, operand w (fold_left access (p :: ps) e) s u s /\ valid u /\ ((exists x, located d (p :: ps) x /\ denotes x u) \/ ((forall x, ~ located d (p :: ps) x) /\ u = VNull))).
    { intros y u L Y U Q. destruct (IH _ _ _ Q Y U) as (u' & O' & V' & C). exists u'. split; [exact O'|]. split; auto.
      destruct C as [(x & Lx & Dx)|[N ->]]; [left; exists x; split; auto; now apply L|right; split; auto; intros x Lx; apply (N x), L, Lx]. }
    destruct O as [E|[-> [er E]]]; [|apply NONE; [|right; split; auto; exists er; now rewrite eval_access, E]].
    2: { intros x L. inversion D; subst; inversion L. }
    assert (BAD : (forall x, ~ located d (p :: ps) x) -> (exists er, match p with Field k => field_value v k | Key k => index_value (e_host w) v (VStr k) | Nth i => index_value (e_host w) v (VInt (Z.of_N i)) end = Err er) -> operand w (access e p) s VNull s).
    { intros _ [er X]. right. split; auto. exists er. now rewrite eval_access, E, X. }
    assert (GOOD : forall u, match p with Field k => field_value v k | Key k => index_value (e_host w) v (VStr k) | Nth i => index_value (e_host w) v (VInt (Z.of_N i)) end = Ok u -> operand w (access e p) s u s).
    { intros u X. left. now rewrite eval_access, E, X. }
    assert (OTHER : (forall ms, d <> JObj ms) -> (forall ys, d <> JArr ys) -> exists u, operand w (fold_left access (p :: ps) e) s u s /\ valid u /\ ((exists x, located d (p :: ps) x /\ denotes x u) \/ ((forall x, ~ located d (p :: ps) x) /\ u = VNull))).
    { intros A B. assert (N : forall x, ~ located d (p :: ps) x) by (intros x L; inversion L; subst; try (eapply A; reflexivity); eapply B; reflexivity).
      apply NONE; auto. apply BAD; auto. inversion D; subst; try (exfalso; eapply A; reflexivity); try (exfalso; eapply B; reflexivity); destruct p; cbn; eauto. }
    destruct d as [| | | | | |ys|ms]; try (apply OTHER; discriminate).
    - (* arrays *)
      inversion D as [| | | | | |? vs F|]; subst. destruct p as [k|k|i].
      + assert (N : forall x, ~ located (JArr ys) (Field k :: ps) x) by (intros x L; inversion L). apply NONE; auto. apply BAD; auto. cbn. eauto.
      + assert (N : forall x, ~ located (JArr ys) (Key k :: ps) x) by (intros x L; inversion L). apply NONE; auto. apply BAD; auto. cbn. eauto.
      + destruct (nth_error ys (N.to_nat i)) as [y|] eqn:Y.
        * assert (G : exists u, nth_error vs (N.to_nat i) = Some u /\ denotes y u).
          { clear - F Y. revert Y. generalize (N.to_nat i). induction F as [|a b ys vs X _ IH]; intros [|n] Y; try discriminate; cbn in *; [injection Y as ->; eauto|auto]. }
          destruct G as (u & G & Dy). apply (SOME y u); auto.
          -- intros x. split; [intros L; inversion L; subst; congruence|intros L; econstructor; eauto].
          -- apply valid_arr in V. rewrite Forall_forall in V. apply V. eapply nth_error_In; eauto.
          -- apply GOOD. cbn [index_value]. assert (LT : (N.to_nat i < length vs)%nat) by (apply nth_error_Some; congruence).
             replace ((0 <=? Z.of_N i)%Z && (Z.of_N i <? Z.of_nat (length vs))%Z) with true by (symmetry; apply andb_true_iff; split; [apply Z.leb_le|apply Z.ltb_lt]; lia).
             f_equal. replace (Z.to_nat (Z.of_N i)) with (N.to_nat i) by lia. now apply nth_error_nth.
        * assert (N : forall x, ~ located (JArr ys) (Nth i :: ps) x) by (intros x L; inversion L; congruence). apply NONE; auto.
          apply GOOD. cbn [index_value]. apply nth_error_None in Y. assert (LE : length ys = length vs) by (clear - F; induction F; cbn; congruence). rewrite LE in Y.
          replace ((0 <=? Z.of_N i)%Z && (Z.of_N i <? Z.of_nat (length vs))%Z) with false; auto. symmetry. apply andb_false_iff. right. apply Z.ltb_ge. lia.
    - (* objects *)
      assert (M : exists m, v = VMap m) by (inversion D; subst; eauto). destruct M as [m ->].
      set (k := match p with Field k => k | Key k => k | Nth i => show_Z (Z.of_N i) end).
      assert (LO : forall x, located (JObj ms) (p :: ps) x <-> exists y, last_def k ms y /\ located y ps x).
      { intros x. subst k. destruct p as [k|k|i]; (split; [intros L; inversion L; subst; eauto|intros (y & A & B); econstructor; eauto]).
        - match goal with T : integer_text _ _ |- _ => apply integer_text_one in T; [subst|lia] end. eauto.
        - apply show_Z_text. }
      assert (VAL : match p with Field k => field_value (VMap m) k | Key k => index_value (e_host w) (VMap m) (VStr k) | Nth i => index_value (e_host w) (VMap m) (VInt (Z.of_N i)) end = match mget k m with Some x => Ok x | None => Ok VNull end).
      { destruct p; reflexivity. }
      destruct (member_denotes ms m k D) as [(y & u & L & G & Y)|[N G]]; rewrite G in VAL.
      + apply (SOME y u); auto; [|eapply mget_valid; eauto].
        intros x. rewrite LO. split; [intros (y' & A & B); assert (y = y') by (eapply last_unique; eauto); now subst|eauto].
      + apply NONE; [|apply GOOD, VAL]. intros x L. apply LO in L. destruct L as (y & A & _). exact (N y A).
  Qed.
End Walk.

(** ** comparing with a literal *)
Lemma comparison_value w k a b c : In k comparison_kinds -> binop w k a b = Ok (VBool c) ->
  c = match k with KLt => value_lt a b | KGt => value_gt a b | KLe => value_le a b | KGe => value_ge a b | KEq => value_eqb a b | _ => negb (value_eqb a b) end.
Proof.
  intros I H. cbn [In comparison_kinds] in I.
  destruct I as [<-|[<-|[<-|[<-|[<-|[<-|[]]]]]]]; unfold binop in H; vm_compute (lit _) in H; cbn in H; congruence.
Qed.

Definition literal_value (l : expr) : value := match l with EInt z => VInt z | EFloat f => VFloat f | EBool b => VBool b | EStr s => VStr s | _ => VNull end.
Lemma literal_reads w l s : literal l -> eval_expr w l s = (Ok (literal_value l), s).
Proof. destruct 1; reflexivity. Qed.

Lemma agrees_iff x u l : denotes x u -> valid u -> literal l -> (agrees x l <-> value_eqb u (literal_value l) = true).
Proof.
  intros D V L. destruct L as [z|g G|b|t T]; cbn [literal_value]; inversion D; subst; cbn [value_eqb valid] in *;
    try (split; [intros A; inversion A|discriminate]).
  - rewrite Z.eqb_eq. split; [intros A; inversion A; auto|intros <-; constructor].
  - unfold f64_eqb, SFeqb. split.
    + intros A. inversion A as [|? ? C| |]; subst. apply compare_iff in C; auto. now rewrite C.
    + intros E. constructor. apply compare_iff; auto. destruct (SFcompare f g) as [[]|]; congruence.
  - rewrite Bool.eqb_true_iff. split; [intros A; inversion A; auto|intros <-; constructor].
  - rewrite str_eqb_eq. split; [intros A; inversion A; auto|intros <-; constructor].
Qed.
Lemma ranks_iff x u l c : denotes x u -> valid u -> literal l -> (ranks x l c <-> value_cmp u (literal_value l) = Some c).
Proof.
  intros D V L. destruct L as [z|g G|b|t T]; cbn [literal_value]; inversion D; subst; cbn [value_cmp valid] in *;
    try (split; [intros A; inversion A|discriminate]).
  - split; [intros A; inversion A; auto|intros [= <-]; constructor].
  - unfold f64_cmp. split.
    + intros A. inversion A as [| |? ? ? ? F C| | | |]; subst. apply as_float_int in F. subst. apply compare_iff in C; auto using of_int_binary64.
    + intros E. apply (rk_frac_int f z (f64_of_int z)); [now apply as_float_int|]. apply compare_iff; auto using of_int_binary64.
  - unfold f64_cmp. split.
    + intros A. inversion A as [| | |? ? ? ? F C| | |]; subst. apply as_float_int in F. subst. apply compare_iff in C; auto using of_int_binary64.
    + intros E. apply (rk_int_frac n g (f64_of_int (Z.of_N n))); [now apply as_float_int|]. apply compare_iff; auto using of_int_binary64.
  - unfold f64_cmp. split.
    + intros A. inversion A as [|? ? ? C| | | | |]; subst. apply compare_iff in C; auto.
    + intros E. constructor. apply compare_iff; auto.
  - split.
    + intros A. inversion A as [| | | |? ? C|? ? C|]; subst; f_equal.
      * rewrite utf8_order in C by auto. now apply str_cmp_lt.
      * rewrite utf8_order in C by auto. apply str_cmp_lt in C. now rewrite str_cmp_opp, C.
      * now apply str_cmp_eq.
    + intros [= E]. destruct c.
      * apply str_cmp_eq in E. subst. constructor.
      * constructor. rewrite utf8_order by auto. now apply str_cmp_lt.
      * apply rk_after. rewrite utf8_order by auto. apply str_cmp_lt. now rewrite str_cmp_opp, E.
Qed.
Lemma literal_not_null l : literal l -> value_eqb VNull (literal_value l) = false /\ value_cmp VNull (literal_value l) = None.
Proof. destruct 1; split; reflexivity. Qed.

(** ** the parts of a response *)
Lemma values_in n hs : values_of n hs <> [] <-> In n (map fst hs).
Proof.
  unfold values_of. induction hs as [|[m v] hs IH]; cbn [flat_map map fst snd In]; [split; [congruence|tauto]|].
  destruct (list_eq_dec N.eq_dec n m) as [->|D]; cbn [app]; [split; [auto|discriminate]|]. rewrite IH. split; [auto|]. intros [E|]; [congruence|auto].
Qed.
Lemma last_def_map {V} (f : str -> V) k hs : In k (map fst (hs : list (str * str))) -> last_def k (map (fun h => (fst h, f (fst h))) hs) (f k).
Proof.
  induction hs as [|[m v] hs IH] using rev_ind; [intros []|]. rewrite !map_app. cbn [map fst]. intros I.
  destruct (list_eq_dec N.eq_dec m k) as [->|D].
  - exists (map (fun h => (fst h, f (fst h))) hs), []. split; [reflexivity|intros []].
  - apply in_app_or in I. destruct I as [I|[E|[]]]; [|congruence]. destruct (IH I) as (a & b & E & N). exists a, (b ++ [(m, f m)]). rewrite E, <- app_assoc.
    split; [reflexivity|]. rewrite map_app. intros J. apply in_app_or in J. destruct J as [J|[J|[]]]; [auto|cbn in J; congruence].
Qed.
Lemma headers_denote hs hm : valid (VMap hm) -> (forall n, mget n hm = match values_of n hs with [] => None | vs => Some (VArr (map VStr vs)) end) ->
  denotes (JObj (map (fun h => (fst h, JArr (map JStr (values_of (fst h) hs)))) hs)) (VMap hm).
Proof.
  intros [D _] H.
  assert (K : map fst (map (fun h : str * str => (fst h, JArr (map JStr (values_of (fst h) hs)))) hs) = map fst hs) by (rewrite map_map; reflexivity).
  constructor; auto.
  - intros k. rewrite K, <- values_in. specialize (H k). split.
    + intros I. apply mget_in in I. destruct I as [v I]. destruct (values_of k hs); congruence.
    + intros I. destruct (in_dec (list_eq_dec N.eq_dec) k (map fst hm)) as [|N]; auto. apply mget_none in N. rewrite N in H. destruct (values_of k hs); congruence.
  - intros k v G. rewrite H in G. exists (JArr (map JStr (values_of k hs))). split.
    + apply (last_def_map (fun n => JArr (map JStr (values_of n hs)))). apply values_in. destruct (values_of k hs); congruence.
    + destruct (values_of k hs) as [|x xs] eqn:E; [discriminate|]. injection G as <-. constructor. clear. change (VStr x :: map VStr xs) with (map VStr (x :: xs)). generalize (x :: xs). induction l; constructor; auto. constructor.
Qed.
Lemma parts_denote h r m : response_text r -> to_map h r = Ok m ->
  (forall root d, part_of r root d -> exists v, mget root m = Some v /\ denotes d v /\ valid v) /\
  (forall root, (forall d, ~ part_of r root d) -> root <> lit "json" -> mget root m = None).
Proof.
  intros T M. pose proof (to_map_valid _ _ _ T M) as V. destruct (to_map_entries _ _ _ M) as (A & B & C & D & (hm & E & F) & G). split.
  - intros root d P.
    assert (X : exists v, mget root m = Some v /\ denotes d v).
    { destruct P as [| | | | |d J]; try (eexists; split; [eassumption|solve [constructor]]).
      - exists (VMap hm). split; auto. apply headers_denote; auto. eapply mget_valid; eauto.
      - destruct (json_body h r d J) as (m' & v & M' & K & Y). assert (m = m') by congruence. subst. eauto. }
    destruct X as (v & X & Y). exists v. split; auto. split; auto. eapply mget_valid; eauto.
  - intros root N J. apply G. intros I. cbn [In response_names] in I.
    destruct I as [<-|[<-|[<-|[<-|[<-|[<-|[]]]]]]]; try congruence; eapply N; constructor.
Qed.

(** ** bodies that are no documents *)
Lemma open_angle rest : exists k l ts, segment (60 :: rest) = Tok k l :: ts /\ In k [KLe; KSl; KLt].
Proof.
  unfold segment. cbn [length segment_loop]. change (is_ws 60) with false. cbv iota. assert (X : exists k l s, lex_one 60 rest = (k, l, s) /\ In k [KLe; KSl; KLt]).
  { change (lex_one 60 rest) with (op3 60 61 60 KLe KSl KLt rest). unfold op3. destruct rest as [|c rest]; [|destruct (c =? 61); [|destruct (c =? 60)]]; do 3 eexists; (split; [reflexivity|cbn; tauto]). }
  destruct X as (k & l & s & -> & I). do 3 eexists. split; [reflexivity|exact I].
Qed.
Lemma no_document h r m : (exists a, blank a /\ (rs_body r = a \/ exists rest, rs_body r = a ++ 60 :: rest)) -> to_map h r = Ok m -> mget (lit "json") m = None.
Proof.
  intros (a & B & H) M.
  assert (N : mget (lit "json") (mset (lit "body") (VStr (rs_body r)) (mset (lit "headers") (VMap (header_map (rs_headers r))) (mset (lit "reason") (VStr (rs_reason r)) (mset (lit "status") (VInt (Z.of_N (rs_status r))) (mset (lit "version") (VStr (rs_version r)) []))))) = None) by reflexivity.
  unfold to_map in M. assert (P : parse (rs_body r) = Ok (Source [] [] []) \/ exists e, parse (rs_body r) = Err e).
  { destruct H as [->|(rest & ->)].
    - left. rewrite <- (app_nil_r a). unfold parse. rewrite seg_blank by auto. reflexivity.
    - right. unfold parse. rewrite seg_blank by auto. destruct (open_angle rest) as (k & l & ts & -> & I). unfold parse_fuel, fuel_for. cbn [length]. replace (8 * S (length ts) + 8)%nat with (S (S (8 * length ts + 14))) by lia.
      cbn [In] in I. destruct I as [<-|[<-|[<-|[]]]]; eexists; reflexivity. }
  destruct P as [P|[e P]]; rewrite P in M; cbn [s_exprs] in M; injection M as <-; exact N.
Qed.

(** ** the verdicts *)
Lemma operand_fun w e s u s1 v s2 : operand w e s u s1 -> operand w e s v s2 -> u = v /\ s1 = s2.
Proof. intros [A|[-> [er A]]] [B|[-> [er' B]]]; rewrite A in B; inversion B; auto. Qed.
Section Verdict.
  Variables (w : env) (r : response) (m : amap value) (s : st).
  Hypothesis (T : response_text r) (M : to_map (e_host w) r = Ok m) (I : forall n, mget n (c_vars (s_ctx s)) = mget n m).

  Lemma place_value root ps : (root = lit "json" -> documented r) ->
    exists u, operand w (place root ps) s u s /\ valid u /\ (forall x, found r root ps x -> denotes x u) /\ ((exists x, found r root ps x) \/ u = VNull).
  Proof.
    intros J. destruct (parts_denote _ _ _ T M) as [P N].
    destruct (mget root m) as [v|] eqn:G.
    - assert (O : operand w (EIdent root) s v s) by (left; rewrite reads, I, G; reflexivity).
      assert (D : exists d, part_of r root d).
      { destruct (in_dec (list_eq_dec N.eq_dec) root response_names) as [Y|Y].
        - cbn [In response_names] in Y. destruct Y as [<-|[<-|[<-|[<-|[<-|[<-|[]]]]]]]; try (eexists; solve [constructor]). destruct (J eq_refl) as [[d Hd]|Nd]; [exists d; now constructor|]. pose proof (no_document _ _ _ Nd M). congruence.
        - destruct (to_map_entries _ _ _ M) as (_ & _ & _ & _ & _ & Z). rewrite (Z _ Y) in G. discriminate. }
      assert (W : forall d, part_of r root d -> exists u, operand w (place root ps) s u s /\ valid u /\
        ((exists x, located d ps x /\ denotes x u) \/ ((forall x, ~ located d ps x) /\ u = VNull))).
      { intros d Hd. destruct (P _ _ Hd) as (v' & G' & Dn & Vv). assert (v = v') by congruence. subst. apply (walk w s ps (EIdent root) d v'); auto. }
      destruct D as [d Hd]. destruct (W d Hd) as (u & Ou & Vu & C). exists u. split; auto. split; auto. split.
      + intros x (y & Py & L). destruct (W y Py) as (u' & Ou' & _ & C'). destruct (operand_fun _ _ _ _ _ _ _ Ou Ou') as [-> _].
        destruct C' as [(x' & L' & D')|[N' _]]; [|now apply N' in L]. now rewrite (located_one _ _ _ L _ L').
      + destruct C as [(x & L & _)|[_ ->]]; [left; exists x, d; auto|auto].
    - exists VNull. split; [apply null_walk; right; split; auto; exists (EIdentNotFound root); rewrite reads, I, G; reflexivity|].
      split; [exact Logic.I|]. split; [|auto]. intros x (y & Py & _). destruct (P _ _ Py) as (v & G' & _). congruence.
  Qed.
  Lemma says_right t l e lv s1 rv s2 b : In (tkind t) comparison_kinds -> operand w l s lv s1 -> operand w e s1 rv s2 -> binop w (tkind t) lv rv = Ok (VBool b) ->
    says r (EBin t l e) b.
  Proof.
    intros K A B C t' root ps l' Eq L J. injection Eq as <- -> <-. destruct (place_value root ps J) as (u & O & V & F & X).
    destruct (operand_fun _ _ _ _ _ _ _ A O) as [-> ->]. assert (rv = literal_value e) as -> by (destruct B as [B|[_ [er B]]]; rewrite literal_reads in B by auto; congruence).
    pose proof (comparison_value _ _ _ _ _ K C) as E. clear C. destruct (literal_not_null _ L) as [N1 N2].
    assert (Q : value_eqb u (literal_value e) = true <-> exists x, found r root ps x /\ agrees x e).
    { split.
      - intros Y. destruct X as [[x X]| -> ]; [|congruence]. exists x. split; auto. now apply (agrees_iff x u e (F x X) V L).
      - intros (x & X' & Y). now apply (agrees_iff x u e (F x X') V L). }
    assert (R : forall c, value_cmp u (literal_value e) = Some c <-> exists x, found r root ps x /\ ranks x e c).
    { intros c. split.
      - intros Y. destruct X as [[x X]| -> ]; [|congruence]. exists x. split; auto. now apply (ranks_iff x u e c (F x X) V L).
      - intros (x & X' & Y). now apply (ranks_iff x u e c (F x X') V L). }
    split; [|split].
    - intros Kt. rewrite Kt in E. subst b. exact Q.
    - intros Kt. rewrite Kt in E. subst b. rewrite negb_true_iff, <- not_true_iff_false, Q. reflexivity.
    - intros Kt.
      assert (Y : b = true <-> exists c, value_cmp u (literal_value e) = Some c /\ meets (tkind t) c).
      { subst b. cbn [In] in Kt. destruct Kt as [<-|[<-|[<-|[<-|[]]]]]; unfold value_lt, value_gt, value_le, value_ge; destruct (value_cmp u (literal_value e)) as [[]|];
          (split; [first [discriminate|intros _; eexists; split; [reflexivity|cbn; congruence]]|intros (c & Ec & Z); first [discriminate|injection Ec as <-; cbn in Z; congruence]]). }
      rewrite Y. split.
      + intros (c & Z & W). apply R in Z. destruct Z as (x & Z & Z'). eauto.
      + intros (x & c & Z & Z' & W). exists c. split; auto. apply R. eauto.
  Qed.
End Verdict.

Lemma asserted_says w r m : response_text r -> to_map (e_host w) r = Ok m -> forall es s as_ s', asserted w es s as_ s' ->
  (forall n, mget n (c_vars (s_ctx s)) = mget n m) -> (forall e, In e es -> let_names e = []) ->
  Forall2 (fun e a => says r e (a_result a)) (filter comparison_expr es) as_.
Proof.
  intros T M. induction 1 as [s|e es s as_ s' N A IH|t l e es s lv s1 rv s2 as_ s3 N A B C IH|t l e es s lv s1 rv s2 b as_ s3 K A B D C IH]; intros I L.
  - constructor.
  - assert (Q : comparison_expr e = false) by (destruct e; auto; exfalso; eapply N; reflexivity). cbn [filter]. rewrite Q. apply IH; auto. intros x Hx. apply L. now right.
  - assert (Q : comparison_expr (EBin t l e) = false) by (cbn [comparison_expr]; destruct (in_dec kind_dec (tkind t) comparison_kinds); tauto). cbn [filter]. rewrite Q.
    pose proof (L _ (or_introl eq_refl)) as Z. cbn [let_names] in Z. apply app_eq_nil in Z. destruct Z as [Z1 Z2].
    apply IH; [|intros x Hx; apply L; now right]. intros n. rewrite <- I.
    assert (F1 : mget n (c_vars (s_ctx s1)) = mget n (c_vars (s_ctx s))) by (destruct A as [A|[_ [er A]]]; apply frame in A; destruct A as [A _]; apply A; rewrite Z1; auto).
    rewrite <- F1. destruct B as [B|[_ [er B]]]; apply frame in B; destruct B as [B _]; apply B; rewrite Z2; auto.
  - assert (Q : comparison_expr (EBin t l e) = true) by (cbn [comparison_expr]; destruct (in_dec kind_dec (tkind t) comparison_kinds); tauto). cbn [filter]. rewrite Q.
    pose proof (L _ (or_introl eq_refl)) as Z. cbn [let_names] in Z. apply app_eq_nil in Z. destruct Z as [Z1 Z2].
    constructor; [cbn [a_result]; eapply says_right; eauto|].
    apply IH; [|intros x Hx; apply L; now right]. intros n. rewrite <- I.
    assert (F1 : mget n (c_vars (s_ctx s1)) = mget n (c_vars (s_ctx s))) by (destruct A as [A|[_ [er A]]]; apply frame in A; destruct A as [A _]; apply A; rewrite Z1; auto).
    rewrite <- F1. destruct B as [B|[_ [er B]]]; apply frame in B; destruct B as [B _]; apply B; rewrite Z2; auto.
Qed.
Theorem assertions_say w reqs tr r msg pr template asserts : exchange w reqs tr r msg pr -> mget (r_name r) reqs = Some (template, asserts) ->
  (forall e, In e asserts -> let_names e = []) ->
  Forall2 (fun e a => says (r_response r) e (a_result a)) (filter comparison_expr asserts) (r_asserts r).
Proof.
  intros (tp & es & vars & m & s & G & _ & S & M & A & _) G' L. assert (es = asserts) by congruence. subst es.
  eapply asserted_says; eauto. eapply send_text; eauto.
Qed.
Theorem assertions_run w es s o s' : eval_block w es s = (o, s') -> c_recs (s_ctx s) = [] ->
  forall r, In r (c_recs (s_ctx s')) -> exists template asserts, mget (r_name r) (c_reqs (s_ctx s)) = Some (template, asserts) /\
    ((forall e, In e asserts -> let_names e = []) -> Forall2 (fun e a => says (r_response r) e (a_result a)) (filter comparison_expr asserts) (r_asserts r)).
Proof.
  intros E R r I. apply block_history in E. destruct E as (_ & tr & C & _). rewrite R in C. apply chronicle_new in C. destruct C as (new & trn & E & _ & _ & F).
  rewrite E in I. rewrite Forall_forall in F. destruct (F r I) as (b & a & msg & pr & _ & X). pose proof X as (tp & as_ & _ & _ & _ & G & _). exists tp, as_. split; auto.
  intros L. eapply assertions_say; eauto.
Qed.
