(** Evaluation keeps values valid *)
From Verif Require Import SpecValid TextProofs TextMore SyntaxProofs LexerProofs ParserSound ParserTop FloatOps FloatLiteral
  ValueProofs EqualityProofs Utf8Proofs ResponseProofs EvaluatorProofs NumberProofs.
From Coq Require Import ZifyBool.
Open Scope Z_scope.

(** ** text *)
Lemma scalars_in (s : str) : scalars s <-> forall c, In c s -> is_scalar c = true.
Proof. unfold scalars. now rewrite Forall_forall. Qed.
Lemma scalars_sub (a b : str) : (forall c, In c a -> In c b) -> scalars b -> scalars a.
Proof. rewrite !scalars_in. auto. Qed.
Lemma scalars_lit x : forallb is_scalar x = true -> scalars x.
Proof. intros H. rewrite forallb_forall in H. apply scalars_in. exact H. Qed.
Ltac slit := apply scalars_lit; reflexivity.

Lemma spells_scalars w t : spells w t -> scalars w -> scalars (tlit t).
Proof.
  intros S. inversion S; subst; cbn [tlit]; auto. apply scalars_sub. intros c I. right. apply in_or_app. auto.
Qed.
Lemma laid_scalars ts s : laid_out ts s -> scalars s -> Forall (fun t => scalars (tlit t)) ts.
Proof.
  induction 1 as [gap B|gap w t ts s B S L IH|gap k d body B I N]; intros H.
  - constructor.
  - apply scalars_app in H. destruct H as [_ H]. apply scalars_app in H. destruct H as [H1 H2].
    constructor; auto. eapply spells_scalars; eauto.
  - apply scalars_app in H. destruct H as [_ H]. inversion H; subst. constructor; auto.
Qed.

(** ** expressions *)
Definition literal_ok (e : expr) : Prop :=
  match e with
  | EInt z => fits z
  | EFloat f => binary64 f
  | EStr s => scalars s
  | ELet n _ => scalars n
  | _ => True
  end.
Definition literals_ok := everywhere literal_ok.
Definition toks_ok (w : list token) : Prop := Forall (fun t => scalars (tlit t)) w.

Lemma syntax_ok strict :
  (forall e w, syntax strict e w -> toks_ok w -> literals_ok e) /\
  (forall es w, syntax_list strict es w -> toks_ok w -> Forall literals_ok es) /\
  (forall ps w, syntax_pairs strict ps w -> toks_ok w -> Forall (fun kv => literals_ok (fst kv) /\ literals_ok (snd kv)) ps) /\
  (forall es w, syntax_block strict es w -> toks_ok w -> Forall literals_ok es).
Proof.
  unfold toks_ok.
  apply (syntax_all strict
    (fun e w _ => Forall (fun t => scalars (tlit t)) w -> literals_ok e)
    (fun es w _ => Forall (fun t => scalars (tlit t)) w -> Forall literals_ok es)
    (fun ps w _ => Forall (fun t => scalars (tlit t)) w -> Forall (fun kv => literals_ok (fst kv) /\ literals_ok (snd kv)) ps)
    (fun es w _ => Forall (fun t => scalars (tlit t)) w -> Forall literals_ok es));
  intros; unfold literals_ok in *; try rewrite everywhere_eq; cbn [literal_ok fst snd];
  repeat match goal with
  | H : Forall _ (_ ++ _) |- _ => apply Forall_app in H; destruct H
  | H : Forall _ (_ :: _) |- _ => apply Forall_cons_iff in H; destruct H
  end; repeat split; auto; try (constructor; cbn [fst snd]; auto).
  - unfold fits. lia.
  - destruct f0 as (a & b & _ & _ & _ & _ & R & _). eapply rounded_binary64; eauto.
Qed.

Lemma item_ok i w : syntax_item false i w -> toks_ok w -> forall e, in_item e i -> literals_ok e.
Proof.
  destruct (syntax_ok false) as (A & B & _ & D).
  intros S T e I. inversion S; subst; cbn [in_item] in I.
  - subst. eauto.
  - destruct I.
  - do 3 (apply Forall_cons_iff in T; destruct T as [_ T]). apply Forall_cons_iff in T. destruct T as [_ T].
    apply Forall_app in T. destruct T as [T _]. specialize (B _ _ H T). rewrite Forall_forall in B. auto.
  - do 3 (apply Forall_cons_iff in T; destruct T as [_ T]). apply Forall_app in T. destruct T as [T _].
    specialize (D _ _ H T). rewrite Forall_forall in D. auto.
Qed.
Lemma items_ok is w : syntax_items is w -> toks_ok w -> forall i e, In i is -> in_item e i -> literals_ok e.
Proof.
  unfold toks_ok. induction 1 as [|i w is w' S _ IH|i w is w' S _ IH]; intros T j e I J; [destruct I| |].
  - apply Forall_app in T. destruct T as [T1 T2]. destruct I as [->|I]; eauto. eapply item_ok; eauto.
  - apply Forall_app in T. destruct T as [T1 T2]. inversion T2; subst. destruct I as [->|I]; eauto. eapply item_ok; eauto.
Qed.

Lemma text_literals e : read_from_text e -> literals_ok e.
Proof.
  intros (text & src & S & P & O). destruct (accounted _ _ P) as (is & w & E & I & X & R & T).
  assert (W : toks_ok w).
  { destruct (lossless text) as (ts & E' & _ & L). rewrite E in E'. apply app_inj_tail in E'. destruct E' as [-> _].
    eapply laid_scalars; eauto. }
  assert (K : exists i, In i is /\ in_item e i).
  { destruct O as [O|[(n & m & es & O & J)|(n & b & O & J)]].
    - rewrite X in O. unfold item_exprs in O. apply in_flat_map in O. destruct O as (i & A & B). exists i. split; auto.
      destruct i; cbn in B; try tauto. destruct B as [B|[]]. subst. reflexivity.
    - apply R in O. destruct O as (a & b & O & _). assert (Q : In (n, (m, es)) (item_requests is)) by (rewrite O; apply in_or_app; right; left; auto).
      unfold item_requests in Q. apply in_flat_map in Q. destruct Q as (i & A & B). exists i. split; auto.
      destruct i; cbn in B; try tauto. destruct B as [B|[]]. inversion B; subst. exact J.
    - apply T in O. destruct O as (a & c & O & _). assert (Q : In (n, b) (item_tests is)) by (rewrite O; apply in_or_app; right; left; auto).
      unfold item_tests in Q. apply in_flat_map in Q. destruct Q as (i & A & B). exists i. split; auto.
      destruct i; cbn in B; try tauto. destruct B as [B|[]]. inversion B; subst. exact J. }
  destruct K as (i & A & B). eapply items_ok; eauto.
Qed.

(** ** values *)
Lemma valid_arr l : valid (VArr l) <-> Forall valid l.
Proof. cbn. induction l; split; intros H; auto; [constructor; tauto|inversion H; subst; tauto]. Qed.
Lemma valid_map l : valid (VMap l) <-> NoDup (map fst l) /\ Forall (fun kv => scalars (fst kv) /\ valid (snd kv)) l.
Proof.
  cbn. apply and_iff_compat_l. induction l as [|[k v] l IH]; split; intros H; auto.
  - constructor; [split; apply H|]. apply IH. apply H.
  - inversion H; subst. cbn in *. split; [tauto|]. split; [tauto|]. now apply IH.
Qed.
Lemma valid_unique v : valid v -> unique_keys v.
Proof.
  induction v using value_ind2; cbn [unique_keys]; auto; intros V.
  - apply valid_arr in V. apply unique_arr. rewrite Forall_forall in *. auto.
  - apply valid_map in V. destruct V as [D V]. apply unique_map. split; auto. rewrite Forall_forall in *. intros x I. apply H; auto. now apply V.
Qed.
Lemma mget_valid k m v : valid (VMap m) -> mget k m = Some v -> valid v.
Proof. intros V G. apply valid_map in V. destruct V as [_ V]. apply mget_some_in in G. rewrite Forall_forall in V. apply (V _ G). Qed.
Lemma mset_valid k v m : scalars k -> valid v -> valid (VMap m) -> valid (VMap (mset k v m)).
Proof.
  intros K V M. apply valid_map in M. destruct M as [D M]. apply valid_map. split; [now apply mset_nodup|].
  rewrite Forall_forall in *. intros x I. apply mset_in in I. destruct I as [I|I]; auto. subst. auto.
Qed.
Lemma mextend_valid l : forall m, Forall (fun kv => scalars (fst kv) /\ valid (snd kv)) l -> valid (VMap m) -> valid (VMap (mextend m l)).
Proof.
  unfold mextend. induction l as [|[k v] l IH]; intros m F M; auto. inversion F; subst. cbn [fold_left]. apply IH; auto. apply mset_valid; tauto.
Qed.

(** ** display *)
Lemma show_N_fuel_scalars f : forall n acc, scalars acc -> scalars (show_N_fuel f n acc).
Proof.
  induction f as [|f IH]; intros n acc A; cbn [show_N_fuel]; auto.
  assert (B : scalars ((48 + n mod 10)%N :: acc)).
  { constructor; auto. unfold is_scalar. pose proof (N.mod_lt n 10 ltac:(lia)). lia. }
  destruct (n / 10 =? 0)%N; auto.
Qed.
Lemma show_N_scalars n : scalars (show_N n).
Proof. apply show_N_fuel_scalars. constructor. Qed.
Lemma show_Z_scalars z : scalars (show_Z z).
Proof. destruct z; cbn [show_Z]; try apply show_N_scalars. constructor; [reflexivity|apply show_N_scalars]. Qed.
Lemma show_bool_scalars b : scalars (show_bool b).
Proof. destruct b; slit. Qed.
Lemma join_scalars sep l : scalars sep -> Forall scalars l -> scalars (join sep l).
Proof.
  intros S F. induction F as [|x l X F IH]; cbn [join]; [constructor|]. destruct l; auto. rewrite !scalars_app. auto.
Qed.

Lemma number_scalars t : (forall c, In c t -> number_char c) -> scalars t.
Proof.
  intros H. apply Forall_forall. intros c I. apply H in I. unfold is_scalar. destruct I as [I|I]; [unfold digit in I; lia|].
  cbn in I. decompose [or] I; try contradiction; subst; lia.
Qed.
Lemma show_f64_scalars f : binary64 f -> scalars (show_f64 f).
Proof. intros B. eapply number_scalars, told_chars, shown_told, show_f64_shown, B. Qed.
Lemma debug_f64_scalars f : binary64 f -> scalars (debug_f64 f).
Proof. intros B. eapply number_scalars, told_chars, debugged_told, debug_f64_debugged, B. Qed.
Lemma hex_text_scalars k : forall n acc, scalars acc -> scalars (hex_text k n acc).
Proof.
  induction k as [|k IH]; intros n acc A; cbn [hex_text]; auto.
  assert (B : scalars (hex_char (n mod 16) :: acc)).
  { constructor; auto. unfold hex_char, is_scalar. pose proof (N.mod_lt n 16 ltac:(lia)). destruct (N.ltb_spec (n mod 16) 10); lia. }
  destruct (n / 16 =? 0)%N; auto.
Qed.
Lemma debug_str_scalars plain s : scalars s -> scalars (debug_str plain s).
Proof.
  intros S. unfold debug_str. rewrite !scalars_app. split; [slit|]. split; [|slit]. induction S as [|c s C S IH]; [constructor|].
  cbn [flat_map]. rewrite scalars_app. split; [|exact IH]. unfold escape_char.
  assert (E : scalars (if plain c then [c] else lit "\u{" ++ hex_text 8 c [] ++ lit "}")).
  { destruct (plain c); [now constructor|]. rewrite !scalars_app. split; [slit|]. split; [apply hex_text_scalars; constructor|slit]. }
  repeat match goal with |- scalars (match ?x with _ => _ end) => destruct x; auto end; slit.
Qed.

Section Host.
  Variable h : host.

  Lemma pairs_scalars (pairs : amap value) : Forall (fun kv => scalars (fst kv) /\ scalars (debug_value h (snd kv))) pairs ->
    forall ks, Forall scalars (map (fun k => match mget k (map (fun kv => (fst kv, debug_str (h_plain h) (fst kv) ++ lit ": " ++ debug_value h (snd kv))) pairs) with
                                  Some x => x | None => [] end) ks).
  Proof.
    intros F ks. apply Forall_forall. intros x I. apply in_map_iff in I. destruct I as (k & <- & _).
    destruct (mget k _) eqn:G; [|constructor]. apply mget_some_in in G. apply in_map_iff in G. destruct G as ((k' & v) & E & I).
    pose proof (f_equal snd E) as E2. cbn [fst snd] in E2. rewrite <- E2. clear E E2. rewrite Forall_forall in F. destruct (F _ I) as [A B]. cbn [fst snd] in *.
    rewrite !scalars_app. split; [now apply debug_str_scalars|]. split; [slit|auto].
  Qed.
  Lemma debug_scalars v : valid v -> scalars (debug_value h v).
  Proof.
    induction v as [|z|f|b|s|l IH|l IH] using value_ind2; intros V; cbn [debug_value]; rewrite ?scalars_app.
    - slit.
    - split; [slit|]. split; [apply show_Z_scalars|slit].
    - split; [slit|]. split; [now apply debug_f64_scalars|slit].
    - split; [slit|]. split; [apply show_bool_scalars|slit].
    - split; [slit|]. split; [apply debug_str_scalars; exact V|slit].
    - split; [slit|]. split; [|slit]. apply join_scalars; [slit|]. apply valid_arr in V. apply Forall_map.
      rewrite Forall_forall in *. auto.
    - split; [slit|]. split; [|slit]. apply join_scalars; [slit|]. apply pairs_scalars. apply valid_map in V.
      destruct V as [_ V]. rewrite Forall_forall in *. intros x I. destruct (V _ I). auto.
  Qed.
  Lemma show_scalars v : valid v -> scalars (show_value h v).
  Proof.
    destruct v as [|z|f|b|s|l|l]; intros V; cbn [show_value]; rewrite ?scalars_app.
    - slit.
    - apply show_Z_scalars.
    - now apply show_f64_scalars.
    - apply show_bool_scalars.
    - exact V.
    - split; [slit|]. split; [|slit]. apply join_scalars; [slit|]. apply valid_arr in V. apply Forall_map.
      rewrite Forall_forall in *. intros. apply debug_scalars. auto.
    - split; [slit|]. split; [|slit]. apply join_scalars; [slit|]. apply pairs_scalars. apply valid_map in V.
      destruct V as [_ V]. rewrite Forall_forall in *. intros x I. destruct (V _ I). split; auto. apply debug_scalars. auto.
  Qed.

  (** ** operators *)
  Definition valid_res (r : res) : Prop := forall v, r = Ok v -> valid v.
  Lemma arith_valid z : valid_res (arith h z).
  Proof.
    unfold valid_res, arith. intros v. destruct (in_i64 z) eqn:E; [intros [= <-]; cbn; now apply in_i64_fits|].
    destruct (h_checks h); [discriminate|]. intros [= <-]. cbn. apply (wrap64_wraps z).
  Qed.
  Lemma of_int_binary64 z : binary64 (f64_of_int z).
  Proof. eapply rounded_binary64. apply (proj2 (of_int_iff z (f64_of_int z)) eq_refl). Qed.
  Ltac fl k := intros w0 [= <-]; cbn [valid]; apply (op_binary64 k); [reflexivity| |]; auto using of_int_binary64.

  Lemma quot_valid a b : fits a -> valid_res (int_div a b) /\ valid_res (int_rem a b).
  Proof.
    intros F. unfold int_div, int_rem, valid_res. pose proof (bad_division_iff a b) as B. pose proof (quot_fits a b F) as Q.
    destruct (b =? 0); [split; discriminate|]. destruct ((a =? i64_min) && (b =? -1)); [split; discriminate|].
    cbn [orb] in B. assert (N : ~ bad_division a b) by (intros X; apply B in X; discriminate). destruct (Q N).
    split; intros v [= <-]; auto.
  Qed.
  Lemma bits_fits (f : bool -> bool -> bool) g a b : (forall i, 0 <= i -> Z.testbit (g a b) i = f (Z.testbit a i) (Z.testbit b i)) ->
    fits a -> fits b -> fits (g a b).
  Proof. intros G A B. rewrite fits_bits in *. intros i I. rewrite !G by lia. rewrite A, B by lia. reflexivity. Qed.

  Lemma strict_valid k f l r : strict_op h k = Some f -> valid l -> valid r -> valid_res (f l r).
  Proof.
    intros S L R. destruct k; try discriminate; cbn [strict_op] in S; inversion S; subst f; clear S;
      try (intros v [= <-]; exact I);
      destruct l as [|a|a|p|a|p|p]; destruct r as [|b|b|q|b|q|q]; try discriminate; cbn [valid] in L, R;
      try (cbn; apply arith_valid);
      try (fl KAdd); try (fl KSub); try (fl KMul); try (fl KDiv); try (fl KRem);
      try (apply quot_valid; exact L).
    - intros v [= <-]. cbn. apply scalars_app. auto.
    - intros v [= <-]. cbn [valid]. apply (bits_fits xorb Z.lxor); auto. intros. apply Z.lxor_spec.
    - intros v [= <-]. cbn [valid]. apply (bits_fits orb Z.lor); auto. intros. apply Z.lor_spec.
    - intros v [= <-]. cbn [valid]. apply (bits_fits andb Z.land); auto. intros. apply Z.land_spec.
    - cbn. unfold int_shl, valid_res. destruct ((0 <=? b) && (b <? 64)); [intros v [= <-]; apply wrap64_wraps|].
      destruct (h_checks h); [discriminate|]. intros v [= <-]. apply wrap64_wraps.
    - cbn. unfold int_shr, valid_res. destruct ((0 <=? b) && (b <? 64)) eqn:E; [intros v [= <-]; apply shiftr_fits; auto; lia|].
      destruct (h_checks h); [discriminate|]. intros v [= <-]. apply shiftr_fits; auto. apply Z.mod_pos_bound. lia.
  Qed.
  Lemma unary_valid t v : valid v -> valid_res (unary_value h t v).
  Proof.
    intros V. unfold unary_value. destruct (tkind t); destruct v as [|a|a|[]|a|p|p]; try discriminate; try (intros w [= <-]; exact I).
    all: try apply arith_valid.
    all: intros w [= <-]; cbn [valid] in *; first [unfold fits, Z.lnot in *; lia|destruct a; exact V].
  Qed.
  Lemma index_valid v i : valid v -> valid i -> valid_res (index_value h v i).
  Proof.
    intros V W. unfold index_value. destruct v as [|a|a|? |a|items|pairs]; try discriminate.
    - destruct i; try discriminate. destruct (_ && _) eqn:E; intros w [= <-]; [|exact I]. apply valid_arr in V.
      rewrite Forall_forall in V. apply V. apply nth_In. lia.
    - destruct (mget _ pairs) eqn:G; intros w [= <-]; [|exact I]. eapply mget_valid; eauto.
  Qed.
  Lemma field_valid v f : valid v -> valid_res (field_value v f).
  Proof.
    intros V. unfold field_value. destruct v as [|a|a|? |a|items|pairs]; try discriminate.
    destruct (mget _ pairs) eqn:G; intros w [= <-]; [|exact I]. eapply mget_valid; eauto.
  Qed.

  (** ** built-ins *)
  Lemma replace_scalars s r t : scalars s -> scalars t -> scalars (replace_range s r t).
  Proof.
    intros S T. unfold replace_range. rewrite !scalars_app. split; [|split; auto]; (eapply scalars_sub; [|exact S]); intros c I.
    - rewrite <- (firstn_skipn (fst r) s). apply in_or_app. auto.
    - rewrite <- (firstn_skipn (snd r) s). apply in_or_app. auto.
  Qed.
  Lemma replace_all l : forall s, scalars s -> Forall (fun rv => valid (snd rv)) l ->
    scalars (fold_left (fun s rv => replace_range s (fst rv) (show_value h (snd rv))) l s).
  Proof.
    induction l as [|[r v] l IH]; intros s S F; auto. inversion F; subst. cbn [fold_left fst snd] in *. apply IH; auto.
    apply replace_scalars; auto. now apply show_scalars.
  Qed.
  Lemma pop_valid l v rest : Forall valid l -> pop (rev l) = (Some v, rest) -> valid v /\ Forall valid rest.
  Proof.
    unfold pop. rewrite rev_involutive. destruct l as [|x l]; [discriminate|]. intros F [= <- <-]. inversion F; subst.
    split; auto. now apply Forall_rev.
  Qed.
  Lemma format_valid vs : Forall valid vs -> valid_res (native_format h vs).
  Proof.
    intros F. unfold native_format. destruct (pop (rev vs)) as [[v|] rest] eqn:P; [|discriminate].
    destruct (pop_valid _ _ _ F P) as [V R]. destruct v as [|a|a|p|s|p|p]; try discriminate.
    destruct (Nat.eqb _ _); [|discriminate]. intros w [= <-]. cbn [valid]. apply replace_all; auto.
    apply Forall_forall. intros [r v] I. apply in_combine_r in I. rewrite Forall_forall in R. apply R. exact I.
  Qed.
  Lemma length_valid vs : valid_res (native_length vs).
  Proof. unfold native_length. destruct vs as [|[] []]; try discriminate; intros w [= <-]; apply wrap64_wraps. Qed.
  Lemma append_valid vs : Forall valid vs -> valid_res (native_append vs).
  Proof.
    intros F. unfold native_append. destruct (pop (rev vs)) as [[v|] rest] eqn:P; [|discriminate].
    destruct (pop_valid _ _ _ F P) as [V R]. destruct v as [|a|a|p|s|p|p]; try discriminate.
    intros w [= <-]. apply valid_arr. apply valid_arr in V. apply Forall_rev in R. clear P. revert p V.
    induction (rev rest) as [|x l IH]; intros p V; auto. inversion R; subst. cbn [fold_left]. apply IH; auto. apply Forall_app. auto.
  Qed.

  (** ** responses *)
  Lemma expr_eval_valid e : literals_ok e -> valid (expr_eval h e).
  Proof.
    unfold literals_ok. induction e as [z|f|b|x|es IH|ps IH|e i IHe IHi|e f IHe|n|n e IHe|t e IHe|t l r IHl IHr|e IHe|c a b IHc IHa IHb|n es IH] using expr_ind2;
      intros L; apply everywhere_eq in L; destruct L as [P L]; try exact I; try exact P.
    - cbn [expr_eval]. apply valid_arr. apply Forall_map. rewrite Forall_forall in *. auto.
    - cbn [expr_eval]. apply mextend_valid; [|cbn; split; constructor]. apply Forall_map. rewrite Forall_forall in *.
      intros kv I. destruct (IH _ I) as [A B]. destruct (L _ I) as [C D]. cbn [fst snd]. split; auto. apply show_scalars; auto.
  Qed.
  Lemma header_map_valid hs : Forall (fun hd => scalars (fst hd) /\ scalars (snd hd)) hs -> valid (VMap (header_map hs)).
  Proof.
    unfold header_map. assert (G : forall m, valid (VMap m) -> Forall (fun hd : header => scalars (fst hd) /\ scalars (snd hd)) hs ->
      valid (VMap (fold_left (fun m hd => match mget (fst hd) m with
        | Some (VArr a) => mset (fst hd) (VArr (a ++ [VStr (snd hd)])) m
        | _ => mset (fst hd) (VArr [VStr (snd hd)]) m end) hs m))).
    { induction hs as [|[n v] hs IH]; intros m M F; auto. inversion F as [|? ? [A B] F']; subst. cbn [fold_left fst snd] in *. apply IH; auto.
      assert (O : valid (VArr [VStr v])) by (apply valid_arr; constructor; [exact B|constructor]).
      destruct (mget n m) as [[|z|f|b|s|a|p]|] eqn:G; try (apply mset_valid; auto; fail).
      apply mset_valid; auto. apply valid_arr. apply Forall_app. split; [|constructor; [exact B|constructor]].
      apply valid_arr. eapply mget_valid; eauto. }
    intros F. apply G; auto. cbn. split; constructor.
  Qed.
End Host.

Lemma trim_scalars s : scalars s -> scalars (trim s).
Proof.
  apply scalars_sub. intros c I. unfold trim in I. apply in_rev in I.
  destruct (drop_while_spec is_ws (rev (drop_while is_ws s))) as (a & b & E & _ & _ & D). rewrite D in I.
  assert (J : In c (rev (drop_while is_ws s))) by (rewrite E; apply in_or_app; auto). apply in_rev in J.
  destruct (drop_while_spec is_ws s) as (a' & b' & E' & _ & _ & D'). rewrite D' in J. rewrite E'. apply in_or_app. auto.
Qed.
Lemma decoded_scalars bs s : utf8_decode bs = Some s -> scalars s.
Proof. intros D. apply (decode_sound (length bs) bs s (le_n _) D). Qed.
Lemma read_line_scalars r l r' : read_line r = inl (l, r') -> scalars l.
Proof.
  unfold read_line. destruct (span _ _) as [a b]. destruct b as [|x b].
  - destruct (rd_end r); [discriminate|]. destruct (utf8_decode a) eqn:D; [|discriminate]. intros [= <- _]. eapply decoded_scalars; eauto.
  - destruct (utf8_decode _) eqn:D; [|discriminate]. intros [= <- _]. eapply decoded_scalars; eauto.
Qed.
Lemma header_lines_scalars f : forall r hs r', read_header_lines f r = inl (hs, r') ->
  Forall (fun hd => scalars (fst hd) /\ scalars (snd hd)) hs.
Proof.
  induction f as [|f IH]; intros r hs r' E; cbn [read_header_lines] in E; [discriminate|].
  destruct (read_line r) as [[line r1]|] eqn:L; [|discriminate]. apply read_line_scalars in L.
  destruct (trim line); [inversion E; subst; constructor|].
  destruct (read_header_lines f r1) as [[hs1 r2]|] eqn:R; [|discriminate]. apply IH in R.
  destruct (split_once_cases 58%N line) as [[_ S]|(a & b & X & _ & S)]; rewrite S in E; inversion E; subst; auto.
  constructor; auto. cbn [fst snd]. apply scalars_app in L. destruct L as [A B]. inversion B; subst.
  split; apply trim_scalars; auto.
Qed.
Lemma words_scalars s w n : scalars s -> nth_error (split_whitespace s) n = Some w -> scalars w.
Proof.
  intros S E. destruct (words_total s) as [l W]. pose proof (words_split _ _ W) as Q. rewrite Q in E. apply nth_error_In in E.
  destruct (words_in _ _ W _ E) as [_ F]. apply scalars_in. rewrite Forall_forall in F. intros c I. apply F in I. rewrite scalars_in in S. apply S. tauto.
Qed.
Lemma parse_text_scalars s n : scalars s -> scalars (parse_text (nth_error (split_whitespace s) n)).
Proof. intros S. destruct (nth_error _ n) eqn:E; [eapply words_scalars; eauto|constructor]. Qed.
Lemma parse_u16_bound o : (parse_u16 o <= u16_max)%N.
Proof.
  unfold parse_u16, parse_unsigned. destruct o as [t|]; [|unfold u16_max; lia].
  destruct (match t with 43%N :: (_ :: _) as r => r | _ => t end); [unfold u16_max; lia|].
  destruct (digits_val 0 _); [|unfold u16_max; lia]. destruct (n <=? u16_max)%N eqn:Q; [lia|unfold u16_max; lia].
Qed.
Definition response_text (r : response) : Prop :=
  scalars (rs_version r) /\ (rs_status r <= u16_max)%N /\ scalars (rs_reason r) /\
  Forall (fun hd => scalars (fst hd) /\ scalars (snd hd)) (rs_headers r) /\ scalars (rs_body r).
Lemma response_text_ok rd r : response_from rd = inl r -> response_text r.
Proof.
  unfold response_from. destruct (read_line rd) as [[line r1]|] eqn:L; [|discriminate]. apply read_line_scalars in L.
  destruct (read_header_lines _ r1) as [[hs r2]|] eqn:R; [|discriminate]. apply header_lines_scalars in R.
  unfold read_to_string. destruct (rd_end r2); [discriminate|]. destruct (utf8_decode _) as [b|] eqn:D; [|discriminate].
  apply decoded_scalars in D. intros [= <-]. unfold response_text. cbn [rs_version rs_status rs_reason rs_headers rs_body]. repeat split; auto.
  - apply (parse_text_scalars line 0 L).
  - apply parse_u16_bound.
  - apply (parse_text_scalars line 2 L).
Qed.
Lemma default_text : response_text response_default.
Proof. repeat split; try constructor. cbn. unfold u16_max. lia. Qed.

Lemma send_text p x msg rq rs t e : client_send p x msg = Ok (rq, rs, t, e) -> response_text rs.
Proof.
  unfold client_send. destruct (request_from p msg) as [q c]. destruct (x_connect x) as [d|]; [|intros [= <- <- <- <-]; apply default_text].
  destruct (dur_sub _ d); [|discriminate]. destruct (x_write x); [intros [= <- <- <- <-]; apply default_text|].
  destruct (response_from (x_reply x)) as [r|] eqn:R; [|intros [= <- <- <- <-]; apply default_text].
  repeat match goal with |- context [match dur_sub ?a ?b with _ => _ end] => destruct (dur_sub a b); [|discriminate] end.
  intros [= <- <- <- <-]. eapply response_text_ok; eauto.
Qed.
Lemma ok_inj {E A} (a b : A) : Ok (E := E) a = Ok b -> a = b.
Proof. now intros [= ->]. Qed.
Lemma to_map_valid h r m : response_text r -> to_map h r = Ok m -> valid (VMap m).
Proof.
  intros (A & B & C & D & E). unfold to_map.
  match goal with |- context [mset (lit "body") (VStr (rs_body r)) ?x] => assert (M : valid (VMap (mset (lit "body") (VStr (rs_body r)) x))) end.
  { apply mset_valid; [slit|exact E|]. apply mset_valid; [slit|now apply header_map_valid|]. apply mset_valid; [slit|exact C|].
    apply mset_valid; [slit| |]; [cbn [valid]; unfold fits; unfold u16_max in B; lia|]. apply mset_valid; [slit|exact A|]. cbn. split; constructor. }
  destruct (parse (rs_body r)) as [src| | |] eqn:P; try discriminate; [|intros Q; apply ok_inj in Q; rewrite <- Q; exact M].
  destruct (s_exprs src) as [|e l] eqn:X; intros Q; apply ok_inj in Q; rewrite <- Q; [exact M|]. apply mset_valid; [slit| |exact M].
  apply expr_eval_valid; auto. apply text_literals. exists (rs_body r), src. split; auto. split; auto. left. rewrite X. now left.
Qed.
