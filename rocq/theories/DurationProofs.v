(** The text of a duration *)
From Coq Require Import Lqa Qpower QArith Qabs.
From Verif Require Import Display SpecNumber FloatProofs TextProofs DigitsProofs NumberProofs.
Open Scope Z_scope.

Lemma frac_spec k : forall fuel (frac : N), (k < fuel)%nat -> (frac < 10 ^ N.of_nat (S k))%N ->
  let ds := frac_digits fuel frac (10 ^ N.of_nat k) in
  Forall digit ds /\ (length ds <= S k)%nat /\ Z.of_N (decimal ds) * 10 ^ Z.of_nat (S k - length ds) = Z.of_N frac /\
  (ds <> [] -> last ds 0%N <> 48%N) /\ (ds = [] -> frac = 0%N).
Proof.
  induction k as [|k IH]; intros [|fuel] frac Fu L; try lia; cbn [frac_digits]; destruct (N.eqb_spec frac 0) as [->|NZ];
    try (split; [constructor|]; split; [cbn; lia|]; split; [reflexivity|]; split; [now intros []|reflexivity]).
  - change (10 ^ N.of_nat 0)%N with 1%N in *. change (10 ^ N.of_nat 1)%N with 10%N in L. rewrite N.div_1_r, N.mod_1_r.
    assert (E : frac_digits fuel 0 (1 / 10) = []) by (destruct fuel; reflexivity). rewrite E.
    split; [repeat constructor; unfold digit; lia|]. split; [cbn; lia|]. split; [|split; [intros _; cbn [last]; lia|discriminate]].
    cbn [length]. change (S 0 - 1)%nat with 0%nat. cbn [Z.of_nat Z.pow]. change (decimal [(48 + frac)%N]) with (10 * 0 + (48 + frac - 48))%N. lia.
  - assert (P : (10 ^ N.of_nat (S k) = 10 * 10 ^ N.of_nat k)%N) by (rewrite Nat2N.inj_succ, N.pow_succ_r'; reflexivity).
    assert (P2 : (10 ^ N.of_nat (S (S k)) = 10 * 10 ^ N.of_nat (S k))%N) by (rewrite (Nat2N.inj_succ (S k)), N.pow_succ_r'; reflexivity).
    set (D := (10 ^ N.of_nat (S k))%N) in *. assert (PD : (D <> 0)%N) by (apply N.pow_nonzero; lia).
    replace (D / 10)%N with (10 ^ N.of_nat k)%N by (rewrite P, N.mul_comm, N.div_mul; lia).
    pose proof (N.mod_lt frac D PD) as M. specialize (IH fuel (frac mod D)%N ltac:(lia) M). cbv zeta in IH.
    set (r := frac_digits fuel (frac mod D) (10 ^ N.of_nat k)) in *. destruct IH as (F & Le & V & La & Em).
    pose proof (N.div_mod frac D PD) as DM. assert (Q : (frac / D < 10)%N) by (apply N.div_lt_upper_bound; lia).
    set (q := (frac / D)%N) in *. split; [constructor; [unfold digit; lia|exact F]|]. split; [cbn [length]; lia|]. split; [|split; [|discriminate]].
    + change (Z.of_N (decimal ((48 + q)%N :: r))) with (Z.of_N (decimal ([(48 + q)%N] ++ r))). rewrite decimal_app. change (decimal [(48 + q)%N]) with (10 * 0 + (48 + q - 48))%N.
      replace (10 * 0 + (48 + q - 48))%N with q by lia. cbn [length]. replace (S (S k) - S (length r))%nat with (S k - length r)%nat by lia.
      rewrite Z.mul_add_distr_r, V. rewrite <- Z.mul_assoc, <- Z.pow_add_r by lia. replace (Z.of_nat (length r) + Z.of_nat (S k - length r)) with (Z.of_nat (S k)) by lia.
      replace (10 ^ Z.of_nat (S k)) with (Z.of_N D) by (subst D; rewrite N2Z.inj_pow, nat_N_Z; reflexivity). lia.
    + intros _. destruct r as [|d r0] eqn:Er.
      * cbn [last]. specialize (Em eq_refl). lia.
      * change (last ((48 + q)%N :: d :: r0) 0%N) with (last (d :: r0) 0%N). apply La. discriminate.
Qed.

Lemma fmt_decimal_ok int frac k unit : (k < 9)%nat -> (frac < 10 ^ N.of_nat (S k))%N ->
  exists a x, fmt_decimal int frac (10 ^ N.of_nat k) unit = a ++ unit /\ decimal_text a x /\ tidy a /\
    (x == inject_Z (Z.of_N int) + tens (Z.of_N frac) (- Z.of_nat (S k)))%Q.
Proof.
  intros K L. unfold fmt_decimal. destruct (frac_spec k 9 frac K L) as (F & Le & V & La & Em). set (dz := frac_digits 9 frac (10 ^ N.of_nat k)) in *.
  destruct (show_N_numeral int) as (NE & Fi & Vi). destruct dz as [|d ds] eqn:Ed.
  - rewrite (Em eq_refl). exists (show_N int). eexists. split; [reflexivity|]. split; [now apply dt_whole|]. split; [apply show_N_tidy|].
    rewrite Vi. unfold tens. change (10 ^ 0)%Q with 1%Q. cbn [Z.of_N]. change (inject_Z 0) with 0%Q. ring.
  - exists (show_N int ++ 46%N :: (d :: ds)). eexists. split; [rewrite <- !app_assoc; reflexivity|]. split; [apply dt_point; auto; discriminate|]. split.
    + split.
      * intros c r E. pose proof (show_N_tidy int) as [T _]. destruct (show_N int) as [|x [|y s]]; [now destruct NE|..]; cbn [app] in E.
        -- now injection E.
        -- exfalso. injection E as -> -> _. specialize (T c s eq_refl). apply Forall_cons_iff in Fi. destruct Fi as [_ Fi]. apply Forall_cons_iff in Fi. destruct Fi as [Fi _]. subst c. unfold digit in Fi. lia.
      * intros a b E. destruct (in_dec N.eq_dec 46%N a) as [I|I].
        -- exfalso. apply in_split in I. destruct I as (u & w & ->). rewrite <- app_assoc in E. cbn [app] in E.
           destruct (in_dec N.eq_dec 46%N u) as [J|J].
           ++ assert (Q : forall u a, ~ In 46%N a -> In 46%N u -> forall x b, ~ In 46%N b -> a ++ 46%N :: b = u ++ 46%N :: x -> False).
              { clear. induction u as [|h u IH]; intros a A U x b Bb E; [now destruct U|]; destruct U as [->|U].
                - destruct a as [|k a]; cbn [app] in E.
                  + injection E as E2. apply Bb. rewrite E2. apply in_app_iff. right. now left.
                  + injection E as E1 E2. apply A. now left.
                - destruct a as [|k a]; cbn [app] in E; injection E as E1 E2.
                  + apply Bb. rewrite E2. apply in_app_iff. right. now left.
                  + apply (IH a (fun I => A (or_intror I)) U x b Bb E2). }
              apply (Q u (show_N int) (no_point _ Fi) J _ (d :: ds) (no_point _ F) E).
           ++ apply point_once in E; [|now apply no_point|exact J]. destruct E as [_ E]. apply (no_point _ F). rewrite E. apply in_app_iff. right. now left.
        -- apply point_once in E; [|now apply no_point|exact I]. destruct E as [_ <-]. now apply La.
    + rewrite decimal_app, Vi. set (n := length (d :: ds)) in *. rewrite <- V. unfold tens. rewrite inject_Z_plus, !inject_Z_mult, <- !ten_Z by lia.
      replace (- Z.of_nat (S k)) with (- Z.of_nat n + - Z.of_nat (S k - n)) by lia. rewrite ten_add, !ten_inv.
      field. split; apply ten_nz.
Qed.

Theorem show_duration_text ns : duration_text ns (show_duration ns).
Proof.
  unfold show_duration. pose proof (N.div_mod ns 1000000000 ltac:(lia)) as D0. pose proof (N.mod_lt ns 1000000000 ltac:(lia)) as M0.
  set (secs := (ns / 1000000000)%N) in *. set (nanos := (ns mod 1000000000)%N) in *.
  assert (W : forall int frac k unit K, (k < 9)%nat -> (frac < 10 ^ N.of_nat (S k))%N -> (0 < int)%N \/ unit = lit "ns" /\ ns = 0%N ->
    In (unit, K) time_units -> (Z.of_N ns = Z.of_N int * K + Z.of_N frac /\ K = 10 ^ Z.of_nat (S k) \/ Z.of_N ns = Z.of_N int * K /\ frac = 0%N) -> (int < 1000)%N \/ unit = lit "s" ->
    duration_text ns (fmt_decimal int frac (10 ^ N.of_nat k) unit)).
  { intros int frac k unit K Hk Hf Hi HK Hn Hm. destruct (fmt_decimal_ok int frac k unit Hk Hf) as (a & x & E & Da & T & V).
    assert (Pf : (0 <= tens (Z.of_N frac) (- Z.of_nat (S k)) < 1)%Q).
    { assert (E1 : (tens (10 ^ Z.of_nat (S k)) (- Z.of_nat (S k)) == 1)%Q).
      { unfold tens. rewrite <- ten_Z by lia. rewrite <- ten_add, Z.add_opp_diag_r. reflexivity. }
      split; [unfold tens; apply Qmult_le_0_compat; [rewrite <- (Zle_Qle 0); lia|apply Qlt_le_weak, ten_pos]|].
      rewrite <- E1. apply tens_lt. apply N2Z.inj_lt in Hf. rewrite N2Z.inj_pow, nat_N_Z in Hf. exact Hf. }
    exists a, x, unit, K. split; [exact E|]. split; [exact Da|]. split; [exact T|]. split; [exact HK|]. split; [|split].
    - rewrite V. destruct Hn as [[-> ->]|[-> ->]].
      + rewrite inject_Z_plus, inject_Z_mult. unfold tens. rewrite ten_inv, ten_Z by lia. field. rewrite <- ten_Z by lia. apply ten_nz.
      + unfold tens. rewrite inject_Z_mult. cbn [Z.of_N]. change (inject_Z 0) with 0%Q. ring.
    - destruct Hi as [Hi|[-> ->]]; [left|right; auto]. rewrite V. assert (1 <= inject_Z (Z.of_N int))%Q by (rewrite <- (Zle_Qle 1); lia). lra.
    - destruct Hm as [Hm| ->]; [left|right; reflexivity]. rewrite V. assert (inject_Z (Z.of_N int) <= 999)%Q by (rewrite <- (Zle_Qle _ 999); lia). lra. }
  destruct (N.ltb_spec 0 secs) as [S0|S0].
  - change 100000000%N with (10 ^ N.of_nat 8)%N. apply (W secs nanos 8%nat (lit "s") (10 ^ 9)); [lia|exact M0|left; lia|cbn; auto|left; split; [lia|reflexivity]|now right].
  - assert (secs = 0%N) as E0 by lia. destruct (N.leb_spec 1000000 nanos) as [S1|S1]; [|destruct (N.leb_spec 1000 nanos) as [S2|S2]].
    + pose proof (N.div_mod nanos 1000000 ltac:(lia)) as D1. pose proof (N.mod_lt nanos 1000000 ltac:(lia)) as M1.
      assert (nanos / 1000000 < 1000)%N by (apply N.div_lt_upper_bound; lia). assert (1 <= nanos / 1000000)%N by (apply N.div_le_lower_bound; lia).
      change 100000%N with (10 ^ N.of_nat 5)%N. apply (W _ _ 5%nat (lit "ms") (10 ^ 6)); [lia|exact M1|left; lia|cbn; auto|left; split; [lia|reflexivity]|left; lia].
    + pose proof (N.div_mod nanos 1000 ltac:(lia)) as D1. pose proof (N.mod_lt nanos 1000 ltac:(lia)) as M1.
      assert (nanos / 1000 < 1000)%N by (apply N.div_lt_upper_bound; lia). assert (1 <= nanos / 1000)%N by (apply N.div_le_lower_bound; lia).
      change 100%N with (10 ^ N.of_nat 2)%N. apply (W _ _ 2%nat (181%N :: lit "s") (10 ^ 3)); [lia|exact M1|left; lia|cbn; auto|left; split; [lia|reflexivity]|left; lia].
    + change (fmt_decimal nanos 0 1 (lit "ns")) with (fmt_decimal nanos 0 (10 ^ N.of_nat 0) (lit "ns")). apply (W nanos 0%N 0%nat (lit "ns") 1); [lia|reflexivity| |cbn; auto|right; split; [lia|reflexivity]|left; lia].
      destruct (N.eq_dec nanos 0); [right; split; [reflexivity|lia]|left; lia].
Qed.

Theorem duration_inj a b t : duration_text a t -> duration_text b t -> a = b.
Proof.
  intros (p & x & u & k & -> & D & _ & I & V & _) (p' & x' & u' & k' & E & D' & _ & I' & V' & _).
  assert (S : forall p x u p' u', decimal_text p x -> (forall c, In c p' -> digit c \/ c = 46%N) -> (forall c r, u = c :: r -> ~ (digit c \/ c = 46%N)) -> (forall c r, u' = c :: r -> ~ (digit c \/ c = 46%N)) -> u <> [] -> u' <> [] -> p ++ u = p' ++ u' -> p = p' /\ u = u').
  { clear. intros p x u p' u' D. pose proof (proj2 (decimal_chars _ _ D)) as C. clear D. revert p'. induction p as [|c p IH]; intros [|c' p'] C' U U' NU NU' E; cbn [app] in E.
    - auto.
    - exfalso. subst u. apply (U c' (p' ++ u') eq_refl). apply C'. now left.
    - exfalso. subst u'. apply (U' c (p ++ u) eq_refl). apply C. now left.
    - injection E as -> E. destruct (IH (fun d J => C d (or_intror J)) p') as [-> ->]; auto. intros d J. apply C'. now right. }
  assert (H : forall u k, In (u, k) time_units -> u <> [] /\ forall c r, u = c :: r -> ~ (digit c \/ c = 46%N)).
  { intros v l J. cbn in J. decompose [or] J; try contradiction;
      match goal with H : (_, _) = (_, _) |- _ => pose proof (f_equal fst H) as Hv; cbn [fst] in Hv; subst v end;
      (split; [discriminate|]); intros c r Q; injection Q as <- _; unfold digit; lia. }
  destruct (H u k I) as [N1 U1], (H u' k' I') as [N2 U2].
  apply (S p x u p' u') in E; auto; [|apply (decimal_chars _ _ D')]. destruct E as [-> ->].
  assert (k = k') as ->.
  { clear -I I'. cbn in I, I'. decompose [or] I; decompose [or] I'; try contradiction;
      match goal with A : (_, _) = (u', k), B : (_, _) = (u', k') |- _ => pose proof (eq_trans (f_equal fst A) (eq_sym (f_equal fst B))) as Q; pose proof (f_equal snd A) as Q1; pose proof (f_equal snd B) as Q2 end;
      cbn [fst snd] in *; first [congruence|discriminate Q]. }
  rewrite (decimal_fun _ _ _ D D') in V. rewrite V in V'. unfold Qeq in V'. cbn in V'. lia.
Qed.
Theorem show_duration_inj a b : show_duration a = show_duration b -> a = b.
Proof. intros E. eapply duration_inj; [apply show_duration_text|rewrite E; apply show_duration_text]. Qed.
