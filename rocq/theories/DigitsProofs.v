(** Decimal numerals *)
From Verif Require Import Text SpecSyntax TextProofs.
From Coq Require Import Lia.
Open Scope N_scope.

Lemma decimal_snoc l c : decimal (l ++ [c]) = 10 * decimal l + (c - 48).
Proof. unfold decimal. now rewrite fold_left_app. Qed.

Definition numeral (ds : str) (n : N) : Prop := ds <> [] /\ Forall digit ds /\ decimal ds = n.

Lemma show_fuel f : forall n acc, n < 2 ^ N.of_nat f ->
  exists ds, show_N_fuel (S f) n acc = ds ++ acc /\ numeral ds n /\ (n <> 0 -> hd 0 ds <> 48).
Proof.
  induction f as [|f IH]; intros n acc L.
  - assert (n = 0) by (cbn in L; lia). subst. exists [48]. cbn. unfold numeral, digit, decimal. cbn. repeat split; try discriminate; try lia.
    repeat constructor; lia.
  - rewrite Nat2N.inj_succ, N.pow_succ_r' in L.
    change (show_N_fuel (S (S f)) n acc) with
      (let acc' := (48 + n mod 10) :: acc in if n / 10 =? 0 then acc' else show_N_fuel (S f) (n / 10) acc').
    cbv zeta. pose proof (N.mod_lt n 10 ltac:(lia)) as M. pose proof (N.div_mod n 10 ltac:(lia)) as D.
    assert (Dg : digit (48 + n mod 10)) by (clear -M; unfold digit; set (n mod 10) in *; lia).
    destruct (n / 10 =? 0) eqn:E.
    + apply N.eqb_eq in E. exists [48 + n mod 10]. split; [reflexivity|]. split.
      * split; [discriminate|]. split; [constructor; [exact Dg|constructor]|]. unfold decimal. cbn [fold_left]. lia.
      * cbn [hd]. lia.
    + apply N.eqb_neq in E. destruct (IH (n / 10) ((48 + n mod 10) :: acc)) as (ds & -> & (N0 & Fd & V) & H).
      * apply N.div_lt_upper_bound; lia.
      * exists (ds ++ [48 + n mod 10]). split; [now rewrite <- app_assoc|]. split.
        -- split; [destruct ds; discriminate|]. split.
           ++ apply Forall_app. split; [exact Fd|]. constructor; [exact Dg|constructor].
           ++ rewrite decimal_snoc, V. clear -D M; set (n mod 10) in *; set (n / 10) in *; lia.
        -- intros _. destruct ds; [congruence|]. cbn [hd app] in *. auto.
Qed.

Lemma size_bound n : n < 2 ^ N.of_nat (N.size_nat n).
Proof.
  destruct n as [|p]; [reflexivity|]. cbn [N.size_nat].
  induction p as [p IH|p IH|]; cbn [Pos.size_nat]; try reflexivity; rewrite Nat2N.inj_succ, N.pow_succ_r'; lia.
Qed.

Lemma show_N_numeral n : numeral (show_N n) n.
Proof.
  unfold show_N. destruct (show_fuel (N.size_nat n) n [] (size_bound n)) as (ds & -> & H & _). now rewrite app_nil_r.
Qed.

Lemma show_N_inj a b : show_N a = show_N b -> a = b.
Proof. intros E. destruct (show_N_numeral a) as (_ & _ & <-). destruct (show_N_numeral b) as (_ & _ & <-). now rewrite E. Qed.

Lemma show_Z_numeral z : (0 <= z)%Z -> numeral (show_Z z) (Z.to_N z).
Proof. intros H. destruct z; [apply show_N_numeral|apply show_N_numeral|lia]. Qed.

Lemma digits_show_N n : digits_val 0 (show_N n) = Some n.
Proof.
  destruct (show_N_numeral n) as (_ & F & E). rewrite <- E at 2. clear E. unfold decimal.
  generalize 0 at 1 2. induction F as [|c l Hc F IH]; intros a; [reflexivity|].
  cbn [digits_val fold_left]. apply is_digit_iff in Hc. rewrite Hc, IH. do 2 f_equal. lia.
Qed.
