(** A number with few digits is shown as it was written *)
From Coq Require Import QArith Qabs Lqa.
From Verif Require Import Display SpecNumber FloatProofs FloatUnique FloatLiteral DigitsProofs NumberProofs FewDigits Session LiteralProofs.
Open Scope Z_scope.

(** ** one text for each number *)
Lemma same_digits (a : str) : forall b : str, Forall digit a -> Forall digit b -> length a = length b -> decimal a = decimal b -> a = b.
Proof.
  induction a as [|c a IH] using rev_ind; intros b A B L E.
  - destruct b; [reflexivity|discriminate].
  - destruct b as [|d b _] using rev_ind; [rewrite app_length in L; cbn in L; lia|]. rewrite !app_length in L. cbn [length] in L. rewrite !decimal_snoc in E.
    apply Forall_app in A. apply Forall_app in B. destruct A as [A A1]. destruct B as [B B1]. inversion A1 as [|? ? [C1 C2] _]; inversion B1 as [|? ? [D1 D2] _]; subst.
    assert (decimal a = decimal b /\ c = d) as [E1 ->] by (unfold char in *; lia). f_equal. apply IH; auto. lia.
Qed.
(** a numeral without zeros in front *)
Definition plain_whole (a : str) : Prop := a <> [] /\ Forall digit a /\ (hd 0%N a = 48%N -> a = [48%N]).
Lemma whole_longer (a b : str) : plain_whole a -> plain_whole b -> decimal a = decimal b -> (length b <= length a)%nat.
Proof.
  intros (A0 & A & A1) (B0 & B & B1) E. destruct b as [|c b]; [congruence|]. destruct (N.eq_dec c 48) as [->|N].
  - rewrite (B1 eq_refl). destruct a; [congruence|cbn; lia].
  - pose proof (decimal_lower c b B N) as L. pose proof (decimal_bound a A) as U. rewrite E in U. cbn [length].
    assert (10 ^ Z.of_nat (length b) < 10 ^ Z.of_nat (length a)) by lia. apply Z.pow_lt_mono_r_iff in H; lia.
Qed.
Lemma whole_unique (a b : str) : plain_whole a -> plain_whole b -> decimal a = decimal b -> a = b.
Proof. intros A B E. pose proof (whole_longer a b A B E). pose proof (whole_longer b a B A (eq_sym E)). apply same_digits; auto; [apply A|apply B|lia]. Qed.
Lemma tidy_whole (a : str) : a <> [] -> Forall digit a -> tidy a -> plain_whole a.
Proof.
  intros N A [T _]. split; [exact N|]. split; [exact A|]. destruct a as [|c [|d r]]; [congruence|intros H; cbn in H; now subst|]. cbn. intros ->.
  specialize (T d r eq_refl). subst d. inversion A as [|? ? _ A']; inversion A' as [|? ? [? ?] _]; subst. lia.
Qed.
Lemma tidy_front (a b : str) : a <> [] -> Forall digit a -> tidy (a ++ 46%N :: b) -> plain_whole a.
Proof.
  intros N A [T _]. split; [exact N|]. split; [exact A|]. destruct a as [|c [|d r]]; [congruence|intros H; cbn in H; now subst|]. cbn. intros ->.
  specialize (T d (r ++ 46%N :: b) eq_refl). subst d. inversion A as [|? ? _ A']; inversion A' as [|? ? [? ?] _]; subst. lia.
Qed.
Lemma tail_digit n c : (48 <= c)%N -> (c <= 57)%N -> c <> 48%N -> Z.of_N (10 * n + (c - 48)) mod 10 <> 0.
Proof. intros A B D H. replace (Z.of_N (10 * n + (c - 48))) with (Z.of_N (c - 48) + Z.of_N n * 10) in H by lia. rewrite Z.mod_add in H by lia. rewrite Z.mod_small in H; lia. Qed.
Lemma last_nonzero (a b : str) : b <> [] -> Forall digit b -> last b 0%N <> 48%N -> Z.of_N (decimal (a ++ b)) mod 10 <> 0.
Proof.
  intros N B L. destruct b as [|c b _] using rev_ind; [congruence|]. rewrite last_last in L. rewrite app_assoc, decimal_snoc.
  apply Forall_app in B. destruct B as [_ B]. inversion B as [|? ? [C1 C2] _]; subst. 
  apply tail_digit; auto.
Qed.
Lemma tens_cross x y (k j : nat) : (tens x (- Z.of_nat k) == tens y (- Z.of_nat j))%Q -> (j <= k)%nat -> x = y * 10 ^ Z.of_nat (k - j).
Proof.
  intros E L. replace (- Z.of_nat j) with (- Z.of_nat k + Z.of_nat (k - j)) in E by lia. rewrite tens_shift in E by lia.
  destruct (Z.lt_trichotomy x (y * 10 ^ Z.of_nat (k - j))) as [C|[C|C]]; [|exact C|]; apply (tens_lt _ _ (- Z.of_nat k)) in C; lra.
Qed.
Lemma tens_even y n : (0 < n)%nat -> (y * 10 ^ Z.of_nat n) mod 10 = 0.
Proof. intros P. replace (Z.of_nat n) with (Z.of_nat (n - 1) + 1) by lia. rewrite Z.pow_add_r by lia. rewrite Z.mul_assoc. apply Z_mod_mult. Qed.
Lemma point_unique a b c d : Forall digit a -> Forall digit b -> Forall digit c -> Forall digit d -> b <> [] -> d <> [] ->
  last b 0%N <> 48%N -> last d 0%N <> 48%N -> plain_whole a -> plain_whole c ->
  (tens (Z.of_N (decimal (a ++ b))) (- Z.of_nat (length b)) == tens (Z.of_N (decimal (c ++ d))) (- Z.of_nat (length d)))%Q -> a = c /\ b = d.
Proof.
  intros A B C D Nb Nd Lb Ld Wa Wc E.
  assert (K : length b = length d).
  { destruct (Nat.lt_trichotomy (length b) (length d)) as [K|[K|K]]; [|exact K|].
    - symmetry in E. apply tens_cross in E; [|lia]. pose proof (last_nonzero c d Nd D Ld) as X. rewrite E, tens_even in X; [congruence|lia].
    - apply tens_cross in E; [|lia]. pose proof (last_nonzero a b Nb B Lb) as X. rewrite E, tens_even in X; [congruence|lia]. }
  apply tens_cross in E; [|lia]. rewrite K, Nat.sub_diag in E. change (10 ^ Z.of_nat 0) with 1 in E. rewrite Z.mul_1_r, !decimal_app, K in E.
  pose proof (decimal_bound b B) as Bb. pose proof (decimal_bound d D) as Bd. rewrite K in Bb. set (p := 10 ^ Z.of_nat (length d)) in *.
  assert (E1 : Z.of_N (decimal a) = Z.of_N (decimal c)) by nia. assert (E2 : Z.of_N (decimal b) = Z.of_N (decimal d)) by nia.
  split; [apply whole_unique; auto; lia|apply same_digits; auto; lia].
Qed.
Lemma whole_point a c d : c <> [] -> Forall digit c -> d <> [] -> Forall digit d -> last d 0%N <> 48%N ->
  ~ (tens (Z.of_N (decimal a)) 0 == tens (Z.of_N (decimal (c ++ d))) (- Z.of_nat (length d)))%Q.
Proof.
  intros Nc C Nd D L E. symmetry in E. change 0 with (- Z.of_nat 0) in E. apply tens_cross in E; [|lia]. pose proof (last_nonzero c d Nd D L) as X.
  rewrite Nat.sub_0_r in E. rewrite E, tens_even in X; [congruence|]. destruct d; [congruence|cbn; lia].
Qed.
Theorem text_unique t u x y : decimal_text t x -> decimal_text u y -> (x == y)%Q -> tidy t -> tidy u -> t = u.
Proof.
  intros Dt Du E Tt Tu. inversion Dt as [a Na A H1 H2|a b Na Nb A B H1 H2]; inversion Du as [c Nc C H3 H4|c d Nc Nd C D H3 H4]; subst.
  - apply whole_unique; [now apply tidy_whole..|]. change 0 with (- Z.of_nat 0) in E. apply tens_cross in E; [|lia]. change (10 ^ Z.of_nat (0 - 0)) with 1 in E. lia.
  - exfalso. apply (whole_point t c d Nc C Nd D (proj2 Tu c d eq_refl) E).
  - exfalso. symmetry in E. apply (whole_point u a b Na A Nb B (proj2 Tt a b eq_refl) E).
  - destruct (point_unique a b c d A B C D Nb Nd (proj2 Tt a b eq_refl) (proj2 Tu c d eq_refl)) as [-> ->]; auto; [apply (tidy_front a b)|apply (tidy_front c d)]; auto.
Qed.

(** ** what is typed is shown *)
Lemma rounded_finite x f : (scaled 1 (-1022) <= x)%Q -> (x < too_large)%Q -> rounded x f -> exists m e, f = S754_finite false m e.
Proof.
  intros L U (B & S1 & S2 & [[_ (r & V & N)]|[G _]]).
  - pose proof (scaled_pos 1 (-1022) ltac:(lia)) as P. specialize (S1 ltac:(lra)). destruct f as [s|s| |s m e]; try discriminate; cbn in S1; subst.
    + exfalso. cbn in V. injection V as <-. destruct (N 1 (-1022) ltac:(lia) ltac:(lia)) as [N1 _]. set (w := scaled 1 (-1022)) in *. clearbody w. clear -N1 L P. abs_cases; lra.
    + eauto.
  - exfalso. rewrite Qabs_pos in G by (pose proof (scaled_pos 1 (-1022) ltac:(lia)); lra). lra.
Qed.
Theorem kept_shown f x : rounded x f -> digits 15 x -> (scaled 1 (-1022) <= x < too_large)%Q ->
  exists y, decimal_text (show_f64 f) y /\ tidy (show_f64 f) /\ (y == x)%Q.
Proof.
  intros R D [L U]. destruct (rounded_finite x f L U R) as (m & e & ->). pose proof (show_f64_shown _ (proj1 R)) as S.
  inversion S as [| | |s m' e' t y Dt Tt Sh E1 E2]. subst. cbn [sign_text app] in *. rewrite <- E2. exists y. split; [exact Dt|]. split; [exact Tt|]. exact (fifteen_kept m e _ x y L D R Sh).
Qed.
Theorem typed_shown w l x : decimal_text l x -> tidy l -> In 46%N l -> digits 15 x -> (scaled 1 (-1022) <= x < too_large)%Q ->
  eval_main w l = (Some true, [Printed (l ++ [10%N])]).
Proof.
  intros Dl Tl P D R. inversion Dl as [a Na A H1 H2|a b Na Nb A B H1 H2]; subst.
  - exfalso. apply (no_point l A P).
  - destruct (float_literal_source w a b Na A B) as (f & F & Ps & _). destruct (proj2 (F f) eq_refl) as (a' & b' & E & A' & B' & _ & Rf & _).
    apply point_once in E; [|now apply no_point..]. destruct E as [<- <-].
    assert (X : (inject_Z (Z.of_N (decimal (a ++ b))) / 10 ^ Z.of_nat (length b) == tens (Z.of_N (decimal (a ++ b))) (- Z.of_nat (length b)))%Q).
    { unfold tens. rewrite ten_inv. reflexivity. }
    destruct (kept_shown f _ (rounded_wd _ _ _ X Rf) D R) as (y & Dy & Ty & Ey).
    unfold eval_main, command_eval. rewrite Ps. cbn [s_requests s_exprs].
    assert (Sh : show_f64 f = a ++ 46%N :: b) by (apply (text_unique _ _ y _ Dy Dl Ey Ty Tl)). cbn -[show_f64]. rewrite Sh. reflexivity.
Qed.
Theorem shown_seventeen s m e : binary64 (S754_finite s m e) -> exists t x, show_f64 (S754_finite s m e) = sign_text s ++ t /\ decimal_text t x /\ tidy t /\ digits 17 x.
Proof.
  intros B. pose proof (show_f64_shown _ B) as S. inversion S as [| | |s' m' e' t y Dt Tt Sh E1 E2]. subst. exists t, y. split; [exact (eq_sym E2)|]. split; [exact Dt|]. split; [exact Tt|].
  apply (shortest_seventeen m e (scaled (Zpos m) e)); auto.
Qed.
(** ** examples *)
Lemma point_at (a b : str) : ~ In 46%N a -> ~ In 46%N b -> forall x y : str, a ++ 46%N :: b = x ++ 46%N :: y -> b = y.
Proof.
  induction a as [|c a IH]; intros A B x y E; destruct x as [|d x]; cbn [app] in E.
  - now injection E.
  - injection E as E1 E2. exfalso. apply B. rewrite E2. apply in_or_app. right. now left.
  - injection E as E1 E2. exfalso. apply A. now left.
  - injection E as E1 E2. apply (IH (fun H => A (or_intror H)) B x y E2).
Qed.
Lemma tidy_point_text (a b : str) : plain_whole a -> Forall digit b -> last b 0%N <> 48%N -> tidy (a ++ 46%N :: b).
Proof.
  intros (N & A & H) B L. split.
  - intros c r E. destruct a as [|x [|z a]]; [congruence|injection E as _ E; congruence|]. exfalso. injection E as -> E. specialize (H eq_refl). discriminate.
  - intros x y E. apply point_at in E; [now subst|now apply no_point..].
Qed.
Lemma is_digits (a : str) : forallb (fun c => (48 <=? c)%N && (c <=? 57)%N)%bool a = true -> Forall digit a.
Proof. intros H. apply Forall_forall. intros c I. rewrite forallb_forall in H. specialize (H c I). unfold digit. lia. Qed.
(** sixteen digits need not be kept *)
Theorem sixteen_lost w : exists l x, decimal_text l x /\ tidy l /\ In 46%N l /\ digits 16 x /\ (scaled 1 (-1022) <= x < too_large)%Q /\
  eval_main w l = (Some true, [Printed (lit "8.000000000000002" ++ [10%N])]) /\ l <> lit "8.000000000000002".
Proof.
  exists (lit "8" ++ 46%N :: lit "000000000000001"). eexists. split; [apply dt_point; [discriminate|discriminate|apply is_digits; reflexivity..]|].
  split; [|split; [|split; [|split; [|split]]]].
  - apply tidy_point_text; [split; [discriminate|split; [apply is_digits; reflexivity|discriminate]]|apply is_digits; reflexivity|discriminate].
  - cbn. tauto.
  - exists 8000000000000001, (-15). split; [lia|]. reflexivity.
  - vm_compute. split; [discriminate|reflexivity].
  - unfold eval_main, command_eval. vm_compute. reflexivity.
  - discriminate.
Qed.
Lemma typed_example : let l := lit "299792.458" in exists x, decimal_text l x /\ tidy l /\ In 46%N l /\ digits 15 x /\ (scaled 1 (-1022) <= x < too_large)%Q.
Proof.
  change (lit "299792.458") with (lit "299792" ++ 46%N :: lit "458"). cbv zeta. eexists. split; [apply dt_point; [discriminate|discriminate|apply is_digits; reflexivity..]|].
  split; [|split; [|split]].
  - apply tidy_point_text; [split; [discriminate|split; [apply is_digits; reflexivity|discriminate]]|apply is_digits; reflexivity|discriminate].
  - cbn. tauto.
  - exists 299792458, (-3). split; [lia|reflexivity].
  - vm_compute. split; [discriminate|reflexivity].
Qed.
