(** The step function of the lexer takes the longest spelling *)
From Verif Require Import Lexer SpecLex TextProofs.
From Coq Require Import ZifyBool.
Open Scope N_scope.

Definition maximal (w rest : str) : Prop :=
  forall w' t' rest', w ++ rest = w' ++ rest' -> spells w' t' -> (length w' <= length w)%nat.

Lemma spells_nonempty w t : spells w t -> exists c w', w = c :: w'.
Proof.
  intros H; inversion H; subst; eauto.
  - unfold operators in H0; simpl in H0; decompose [or] H0; try contradiction;
      match goal with E : (_, _) = (_, _) |- _ => inversion E; subst; eauto end.
  - unfold keywords in H0; simpl in H0; decompose [or] H0; try contradiction;
      match goal with E : (_, _) = (_, _) |- _ => inversion E; subst; eauto end.
Qed.

(** operators by their first character *)
Definition op_rest (c : char) : list (kind * str) :=
  flat_map (fun ks => match snd ks with x :: r => if x =? c then [(fst ks, r)] else [] | [] => [] end) operators.

Lemma in_op_rest k c w : In (k, c :: w) operators -> In (k, w) (op_rest c).
Proof.
  intros H. unfold op_rest. apply in_flat_map. exists (k, c :: w). split; auto.
  simpl. rewrite N.eqb_refl. now left.
Qed.

Lemma op_rest_in k c w : In (k, w) (op_rest c) -> In (k, c :: w) operators.
Proof.
  unfold op_rest. intros H. apply in_flat_map in H. destruct H as ((k' & s) & H & H').
  simpl in H'. destruct s as [|x r]; [destruct H'|]. destruct (x =? c) eqn:E; [|destruct H'].
  destruct H' as [[= -> ->]|[]]. apply N.eqb_eq in E. now subst.
Qed.

Lemma keyword_letter k c w : In (k, c :: w) keywords -> letter c /\ Forall (fun x => letter x \/ digit x) w.
Proof.
  unfold keywords; simpl; intros H; decompose [or] H; try contradiction;
    match goal with E : (_, _) = (_, _) |- _ => inversion E; subst end;
    (split; [apply is_ident_start_iff; reflexivity|repeat (apply Forall_cons; [apply is_ident_char_iff; reflexivity|]); apply Forall_nil]).
Qed.

Lemma keyword_kind k w : In (k, w) keywords -> keyword w = k.
Proof.
  unfold keywords; simpl; intros H; decompose [or] H; try contradiction;
    match goal with E : (_, _) = (_, _) |- _ => inversion E; subst; reflexivity end.
Qed.

Lemma keyword_spec w : In (keyword w, w) keywords \/ (keyword w = KIdent /\ forall k, ~ In (k, w) keywords).
Proof.
  destruct (keyword w) eqn:E; unfold keyword in E;
    repeat match goal with
    | H : (if str_eqb ?a ?b then _ else _) = _ |- _ =>
        let F := fresh "F" in destruct (str_eqb a b) eqn:F;
        [apply str_eqb_eq in F; subst; try discriminate; try (left; simpl; tauto)|]
    end; try discriminate.
  right; split; auto. intros k Hk. unfold keywords in Hk; simpl in Hk.
  decompose [or] Hk; try contradiction;
    match goal with E : (_, _) = (_, _) |- _ => inversion E; subst; simpl in *; discriminate end.
Qed.

(** how the first character determines what a spelling can be *)
Lemma spells_cases c w t : spells (c :: w) t ->
  (exists k, In (k, w) (op_rest c) /\ t = Tok k (c :: w)) \/
  (digit c /\ Forall (fun x => digit x \/ x = 46) w /\
     t = Tok (if existsb (fun x => x =? 46) w then KFloat else KInteger) (c :: w)) \/
  (letter c /\ Forall (fun x => letter x \/ digit x) w /\ t = Tok (keyword (c :: w)) (c :: w)) \/
  (exists k body, In (k, c) delimiters /\ ~ In c body /\ w = body ++ [c] /\ t = Tok k body) \/
  (~ ws c /\ ~ digit c /\ ~ letter c /\ op_rest c = [] /\ (forall k, ~ In (k, c) delimiters) /\ w = [] /\ t = Tok KIllegal [c]).
Proof.
  intros H; inversion H as [k s Hin|c' s Hc Hs|c' s Hc Hs Hd|k s Hin|c' s Hc Hs Hn|k d body Hd Hn|c' Hw Hd Hl Ho Hq]; subst.
  - left. exists k. split; auto. now apply in_op_rest.
  - right; left. split; auto. split.
    + eapply Forall_impl; [|eassumption]. simpl; tauto.
    + replace (existsb (fun x => x =? 46) w) with false; auto. symmetry.
      apply not_true_is_false. rewrite existsb_exists. intros (x & Hx & Ex). apply N.eqb_eq in Ex; subst.
      rewrite Forall_forall in Hs. specialize (Hs _ Hx). unfold digit in Hs. lia.
  - right; left. repeat split; try apply Hc; auto.
    replace (existsb (fun x => x =? 46) w) with true; auto. symmetry.
    apply existsb_exists. exists 46. split; auto.
  - right; right; left. pose proof (keyword_letter _ _ _ Hin) as [A B]. repeat split; auto.
    now rewrite (keyword_kind _ _ Hin).
  - right; right; left. repeat split; auto.
    destruct (keyword_spec (c :: w)) as [K|[K _]]; [exfalso; eapply Hn; eauto|now rewrite K].
  - do 3 right; left. exists k, body. auto.
  - do 4 right. repeat split; auto.
    destruct (op_rest c) as [|[k w] l] eqn:E; auto. exfalso.
    apply (Ho k w). apply op_rest_in. rewrite E. now left.
Qed.

Lemma app_cons_inv {A} (c : A) s w rest : c :: s = w ++ rest -> w <> [] -> exists w', w = c :: w' /\ s = w' ++ rest.
Proof. destruct w as [|x w]; simpl; [congruence|]. intros [= <- ->] _. eauto. Qed.

Lemma maximal_intro c w rest :
  (forall w' t' rest', w ++ rest = w' ++ rest' -> spells (c :: w') t' -> (length w' <= length w)%nat) ->
  maximal (c :: w) rest.
Proof.
  intros H w' t' rest' E S. destruct (spells_nonempty _ _ S) as (c' & w'' & ->).
  simpl in E. inversion E; subst. simpl. specialize (H _ _ _ H2 S). lia.
Qed.

Lemma app_len_le {A} (p : A -> Prop) w : forall rest w' rest', w ++ rest = w' ++ rest' ->
  Forall p w' -> (forall c b, rest = c :: b -> ~ p c) -> (length w' <= length w)%nat.
Proof.
  induction w as [|x w IH]; intros rest w' rest' E F Hr; simpl in *.
  - destruct w' as [|y w']; simpl; auto. subst. inversion F; subst. exfalso. eapply Hr; [reflexivity|assumption].
  - destruct w' as [|y w']; simpl; [lia|]. inversion E; subst. inversion F; subst.
    specialize (IH _ _ _ H1 H3 Hr). lia.
Qed.

Ltac first_char :=
  repeat match goal with
  | H : (_ =? _) = true |- _ => apply N.eqb_eq in H
  | H : (_ =? _) = false |- _ => apply N.eqb_neq in H
  end.

(** a concrete first character leaves only its operators *)
Ltac spelled S :=
  let D := fresh "D" in
  destruct (spells_cases _ _ _ S) as [(k' & D & ->)|[(D & _)|[(D & _)|[(k' & b' & D & _)|(_ & _ & _ & D & _)]]]];
  [unfold op_rest, operators in D; simpl in D; decompose [or] D; try contradiction;
     repeat match goal with E : (_, _) = (_, _) |- _ => inversion E; subst; clear E end
  |unfold digit in D; exfalso; lia
  |unfold letter in D; exfalso; lia
  |unfold delimiters in D; simpl in D; decompose [or] D; try contradiction;
     repeat match goal with E : (_, _) = (_, _) |- _ => inversion E end
  |unfold op_rest, operators in D; simpl in D; discriminate].

Lemma single_max c s : (forall k w, In (k, w) (op_rest c) -> w = []) -> ~ digit c -> ~ letter c ->
  (forall k, ~ In (k, c) delimiters) -> maximal [c] s.
Proof.
  intros H Hd Hl Hq. apply maximal_intro. intros w' t' rest' E S.
  destruct (spells_cases _ _ _ S) as [(k' & D & _)|[(D & _)|[(D & _)|[(k' & b' & D & _)|(_ & _ & _ & _ & _ & D & _)]]]];
    try contradiction.
  - apply H in D. subst. auto.
  - exfalso. eapply Hq; eauto.
  - subst; auto.
Qed.

Lemma double_max c d s : (forall k w, In (k, w) (op_rest c) -> (length w <= 1)%nat) -> ~ digit c -> ~ letter c ->
  (forall k, ~ In (k, c) delimiters) -> maximal [c; d] s.
Proof.
  intros H Hd Hl Hq. apply maximal_intro. intros w' t' rest' E S.
  destruct (spells_cases _ _ _ S) as [(k' & D & _)|[(D & _)|[(D & _)|[(k' & b' & D & _)|(_ & _ & _ & _ & _ & D & _)]]]];
    try contradiction.
  - apply H in D. auto.
  - exfalso. eapply Hq; eauto.
  - subst; simpl; auto.
Qed.

Lemma single_max2 c s : (forall k w, In (k, w) (op_rest c) -> w = [] \/ exists d, w = [d] /\ (forall b, s <> d :: b)) ->
  ~ digit c -> ~ letter c -> (forall k, ~ In (k, c) delimiters) -> maximal [c] s.
Proof.
  intros H Hd Hl Hq. apply maximal_intro. intros w' t' rest' E S. simpl in E.
  destruct (spells_cases _ _ _ S) as [(k' & D & _)|[(D & _)|[(D & _)|[(k' & b' & D & _)|(_ & _ & _ & _ & _ & D & _)]]]];
    try contradiction.
  - destruct (H _ _ D) as [->|(d & -> & N)]; auto. exfalso. simpl in E. eapply N; eauto.
  - exfalso. eapply Hq; eauto.
  - subst; auto.
Qed.

Ltac op_side :=
  try (unfold digit; lia); try (unfold letter; lia);
  try (let H := fresh in intros ? H; unfold delimiters in H; simpl in H; decompose [or] H; try contradiction;
       match goal with E : (_, _) = (_, _) |- _ => inversion E end).

Definition found (c : char) (s : str) (k : kind) (l r : str) : Prop :=
  (exists w, c :: s = w ++ r /\ spells w (Tok k l) /\ maximal w r) \/
  (In (k, c) delimiters /\ ~ In c s /\ l = s /\ r = []).

(** [n] starts no word, number or quotation, and its operators end in [ends] *)
Definition op_start (n : char) (ends : list str) : Prop :=
  ~ digit n /\ ~ letter n /\ (forall k, ~ In (k, n) delimiters) /\
  (forall k w, In (k, w) (op_rest n) -> In w ends).

Lemma op1_ok n k1 s k l r : op_start n [[]] -> In (k1, [n]) operators ->
  (k1, [n], s) = (k, l, r) -> found n s k l r.
Proof.
  intros (Hd & Hl & Hq & Ho) Hk [= <- <- <-]. left. exists [n]. repeat split; auto.
  - now constructor.
  - apply single_max; auto. intros k0 w Hw. destruct (Ho _ _ Hw) as [<-|[]]; auto.
Qed.

Lemma op2_ok n d k2 k1 s k l r : op_start n [[]; [d]] -> In (k1, [n]) operators -> In (k2, [n; d]) operators ->
  op2 n d k2 k1 s = (k, l, r) -> found n s k l r.
Proof.
  intros (Hd & Hl & Hq & Ho) H1 H2 H. left. unfold op2 in H. destruct s as [|x s].
  - inversion H; subst. exists [n]. repeat split; [now constructor|].
    apply single_max2; auto. intros k0 w Hw. destruct (Ho _ _ Hw) as [<-|[<-|[]]]; auto.
    right; eexists; split; eauto; discriminate.
  - destruct (x =? d) eqn:F; first_char; inversion H; subst.
    + exists [n; d]. repeat split; [now constructor|].
      apply double_max; auto. intros k0 w Hw. destruct (Ho _ _ Hw) as [<-|[<-|[]]]; simpl; auto.
    + exists [n]. repeat split; [now constructor|].
      apply single_max2; auto. intros k0 w Hw. destruct (Ho _ _ Hw) as [<-|[<-|[]]]; auto.
      right. eexists; split; eauto. congruence.
Qed.

Lemma op3_ok n d2 d3 k2 k3 k1 s k l r : op_start n [[]; [d2]; [d3]] ->
  In (k1, [n]) operators -> In (k2, [n; d2]) operators -> In (k3, [n; d3]) operators ->
  op3 n d2 d3 k2 k3 k1 s = (k, l, r) -> found n s k l r.
Proof.
  intros (Hd & Hl & Hq & Ho) H1 H2 H3 H. left. unfold op3 in H. destruct s as [|x s].
  - inversion H; subst. exists [n]. repeat split; [now constructor|].
    apply single_max2; auto. intros k0 w Hw. destruct (Ho _ _ Hw) as [<-|[<-|[<-|[]]]]; auto;
    right; eexists; split; eauto; discriminate.
  - destruct (x =? d2) eqn:F; [|destruct (x =? d3) eqn:G]; first_char; inversion H; subst.
    + exists [n; d2]. repeat split; [now constructor|].
      apply double_max; auto. intros k0 w Hw. destruct (Ho _ _ Hw) as [<-|[<-|[<-|[]]]]; simpl; auto.
    + exists [n; d3]. repeat split; [now constructor|].
      apply double_max; auto. intros k0 w Hw. destruct (Ho _ _ Hw) as [<-|[<-|[<-|[]]]]; simpl; auto.
    + exists [n]. repeat split; [now constructor|].
      apply single_max2; auto. intros k0 w Hw. destruct (Ho _ _ Hw) as [<-|[<-|[<-|[]]]]; auto;
      right; eexists; split; eauto; congruence.
Qed.

Ltac op_start_tac :=
  split; [unfold digit; lia|split; [unfold letter; lia|split;
    [let H := fresh in intros ? H; unfold delimiters in H; simpl in H; decompose [or] H; try contradiction;
       match goal with E : (_, _) = (_, _) |- _ => inversion E end
    |let D := fresh in intros ? ? D; unfold op_rest, operators in D; simpl in D; decompose [or] D; try contradiction;
       match goal with E : (_, _) = (_, _) |- _ => inversion E; subst; clear E; simpl; tauto end]]].

Ltac in_ops := unfold operators; simpl; repeat (first [left; reflexivity | right]).

Lemma lex_one_sound c s k l r : is_ws c = false -> lex_one c s = (k, l, r) -> found c s k l r.
Proof.
  intros Hw H. unfold lex_one in H.
  repeat match type of H with
  | (if ?c =? ?n then op2 _ _ _ _ _ else _) = _ =>
      destruct (N.eqb_spec c n); [subst c; eapply op2_ok; [| | |exact H]; [op_start_tac|in_ops|in_ops]|]
  | (if ?c =? ?n then op3 _ _ _ _ _ _ _ else _) = _ =>
      destruct (N.eqb_spec c n); [subst c; eapply op3_ok; [| | | |exact H]; [op_start_tac|in_ops|in_ops|in_ops]|]
  | (if ?c =? ?n then (?k0, _, _) else _) = _ =>
      destruct (N.eqb_spec c n); [subst c; eapply op1_ok; [| |exact H]; [op_start_tac|in_ops]|]
  end.
  unfold found.
  (* quotations *)
  assert (Q : forall d k0, In (k0, d) delimiters -> c = d ->
    (let (b, r) := lex_quoted d s in (k0, b, r)) = (k, l, r) ->
    (exists w, c :: s = w ++ r /\ spells w (Tok k l) /\ maximal w r) \/
    (In (k, c) delimiters /\ ~ In c s /\ l = s /\ r = [])).
  { clear H. intros d k0 Hd -> H. unfold lex_quoted in H.
    destruct (span (fun c => negb (c =? d)) s) as [body rest] eqn:F.
    destruct (span_spec _ _ _ _ F) as (-> & B & C).
    assert (Nb : ~ In d body).
    { rewrite Forall_forall in B. intros Hin. specialize (B _ Hin). rewrite N.eqb_refl in B. discriminate. }
    destruct rest as [|x rest]; inversion H; subst.
    - right. rewrite app_nil_r. auto.
    - left. specialize (C x r eq_refl). apply negb_false_iff, N.eqb_eq in C. subst x.
      exists (d :: l ++ [d]). split; [simpl; now rewrite <- app_assoc|]. split; [now constructor|].
      apply maximal_intro. intros w' t' rest' E' S.
      destruct (spells_cases _ _ _ S) as [(k' & D & _)|[(D & _)|[(D & _)|[(k' & b' & D & Nb' & -> & _)|(_ & _ & _ & _ & _ & -> & _)]]]];
        try (simpl; lia).
      + exfalso. unfold delimiters in Hd; simpl in Hd; decompose [or] Hd; try contradiction;
          match goal with E : (_, _) = (_, _) |- _ => inversion E; subst; simpl in D; contradiction end.
      + exfalso. unfold delimiters, digit in *; simpl in Hd; decompose [or] Hd; try contradiction;
          match goal with E : (_, _) = (_, _) |- _ => inversion E; subst; lia end.
      + exfalso. unfold delimiters, letter in *; simpl in Hd; decompose [or] Hd; try contradiction;
          match goal with E : (_, _) = (_, _) |- _ => inversion E; subst; lia end.
      + rewrite !app_length; simpl.
        rewrite <- !app_assoc in E'. simpl in E'.
        assert (length b' <= length l)%nat; [|lia].
        apply (app_len_le (fun x => x <> d) l (d :: r) b' (d :: rest')); auto.
        * apply Forall_forall. intros x Hx ->. contradiction.
        * intros c b [= <- _]. congruence. }
  destruct (c =? quote) eqn:E1; [first_char; eapply (Q quote KString); eauto; simpl; auto|].
  destruct (c =? backtick) eqn:E2; [first_char; eapply (Q backtick KTemplate); eauto; simpl; auto|].
  clear Q. left.
  destruct (is_digit c) eqn:Ed.
  { apply is_digit_iff in Ed. unfold lex_number in H.
    destruct (span (fun x => is_digit x || (x =? 46)) s) as [ds rest] eqn:F.
    destruct (span_spec _ _ _ _ F) as (-> & B & C). inversion H; subst.
    assert (B' : Forall (fun x => digit x \/ x = 46) ds).
    { eapply Forall_impl; [|exact B]. simpl. intros a Ha. apply orb_true_iff in Ha.
      rewrite is_digit_iff, N.eqb_eq in Ha. exact Ha. }
    exists (c :: ds). split; auto. split.
    - destruct (existsb (fun x => x =? 46) ds) eqn:X.
      + apply sp_float; auto. apply existsb_exists in X. destruct X as (x & Hx & Ex). apply N.eqb_eq in Ex. now subst.
      + apply sp_int; auto. rewrite Forall_forall in *. intros x Hx. destruct (B' _ Hx) as [? | ->]; auto.
        exfalso. assert (existsb (fun x => x =? 46) ds = true) by (apply existsb_exists; exists 46; auto). congruence.
    - apply maximal_intro. intros w' t' rest' E' S.
      assert (Fw : w' = [] \/ Forall (fun x => digit x \/ x = 46) w').
      { destruct (spells_cases _ _ _ S) as [(k' & D & _)|[(_ & D & _)|[(D & _)|[(k' & b' & D & _)|(_ & _ & _ & _ & _ & D & _)]]]]; auto.
        - exfalso. apply op_rest_in in D. unfold operators in D; simpl in D; decompose [or] D; try contradiction;
            match goal with E : (_, _) = (_, _) |- _ => inversion E; subst; unfold digit in Ed; lia end.
        - exfalso. unfold letter, digit in *; lia.
        - exfalso. unfold delimiters in D; simpl in D; decompose [or] D; try contradiction;
            match goal with E : (_, _) = (_, _) |- _ => inversion E; subst; unfold digit in Ed; lia end. }
      destruct Fw as [->|Fw]; [simpl; lia|].
      eapply app_len_le; eauto. intros x b Er Hx. specialize (C _ _ Er).
      apply orb_false_iff in C. destruct C as [C1 C2]. destruct Hx as [Hx|Hx].
      + apply is_digit_iff in Hx. congruence.
      + apply N.eqb_neq in C2. congruence. }
  destruct (is_ident_start c) eqn:Ei.
  { apply is_ident_start_iff in Ei. unfold lex_word in H.
    destruct (span is_ident_char s) as [cs rest] eqn:F.
    destruct (span_spec _ _ _ _ F) as (-> & B & C). inversion H; subst.
    assert (B' : Forall (fun x => letter x \/ digit x) cs).
    { eapply Forall_impl; [|exact B]. simpl. intros a Ha. now apply is_ident_char_iff. }
    exists (c :: cs). split; auto. split.
    - destruct (keyword_spec (c :: cs)) as [K|[K N]].
      + now apply sp_keyword.
      + rewrite K. now apply sp_ident.
    - apply maximal_intro. intros w' t' rest' E' S.
      assert (Fw : w' = [] \/ Forall (fun x => letter x \/ digit x) w').
      { destruct (spells_cases _ _ _ S) as [(k' & D & _)|[(D & _)|[(_ & D & _)|[(k' & b' & D & _)|(_ & _ & _ & _ & _ & D & _)]]]]; auto.
        - exfalso. apply op_rest_in in D. unfold operators in D; simpl in D; decompose [or] D; try contradiction;
            match goal with E : (_, _) = (_, _) |- _ => inversion E; subst; unfold letter in Ei; lia end.
        - exfalso. unfold letter, digit in *; lia.
        - exfalso. unfold delimiters in D; simpl in D; decompose [or] D; try contradiction;
            match goal with E : (_, _) = (_, _) |- _ => inversion E; subst; unfold letter in Ei; lia end. }
      destruct Fw as [->|Fw]; [simpl; lia|].
      eapply app_len_le; eauto. intros x b Er Hx. specialize (C _ _ Er).
      apply is_ident_char_iff in Hx. congruence. }
  inversion H; subst. exists [c]. split; auto.
  first_char.
  assert (Nd : ~ digit c) by (rewrite <- is_digit_iff; congruence).
  assert (Nl : ~ letter c) by (rewrite <- is_ident_start_iff; congruence).
  assert (Nq : forall k, ~ In (k, c) delimiters).
  { unfold delimiters. simpl. intros k' [[= _ ?]|[[= _ ?]|[]]]; unfold quote, backtick in *; congruence. }
  assert (No : forall k s, ~ In (k, c :: s) operators).
  { intros k' s' D. unfold operators in D; simpl in D; decompose [or] D; try contradiction;
      match goal with E : (_, _) = (_, _) |- _ => inversion E; subst; congruence end. }
  split.
  - apply sp_illegal; auto. now apply is_ws_false.
  - apply single_max; auto. intros k' w' D. apply op_rest_in in D. exfalso. eapply No; eauto.
Qed.

