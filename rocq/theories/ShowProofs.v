(** The texts shown for values *)
From Verif Require Import Value SpecShow TextProofs DigitsProofs EqualityProofs NumberProofs ValidProofs.
From Coq Require Import Permutation Lia.
Open Scope N_scope.

Scheme debugs_ind3 := Induction for debugs Sort Prop
with items_ind3 := Induction for debugs_items Sort Prop
with pairs_ind3 := Induction for debugs_pairs Sort Prop.
Combined Scheme debugs_all from debugs_ind3, items_ind3, pairs_ind3.

(** ** integers *)
Lemma show_N_text n : numeral (show_N n) n /\ (hd 0 (show_N n) = 48 -> show_N n = [48]).
Proof.
  split; [apply show_N_numeral|]. destruct (N.eq_dec n 0) as [->|NZ]; [reflexivity|].
  unfold show_N. destruct (show_fuel (N.size_nat n) n [] (size_bound n)) as (ds & -> & _ & H). rewrite app_nil_r. intros E. now apply H in NZ.
Qed.
Lemma show_Z_text z : integer_text z (show_Z z).
Proof.
  destruct z as [|p|p]; cbn [show_Z].
  - destruct (show_N_text 0) as ((A & B & C) & D). exists (show_N 0). split; [exact A|]. split; [exact B|]. split; [exact D|]. left. split; [lia|]. split; [reflexivity|]. rewrite C. reflexivity.
  - destruct (show_N_text (Npos p)) as ((A & B & C) & D). exists (show_N (Npos p)). split; [exact A|]. split; [exact B|]. split; [exact D|]. left. split; [lia|]. split; [reflexivity|]. rewrite C. reflexivity.
  - destruct (show_N_text (Npos p)) as ((A & B & C) & D). exists (show_N (Npos p)). split; [exact A|]. split; [exact B|]. split; [exact D|]. right. split; [lia|]. split; [reflexivity|]. rewrite C. reflexivity.
Qed.
Lemma integer_text_in z t c : integer_text z t -> In c t -> digit c \/ c = 45.
Proof.
  intros (ds & _ & D & _ & [(_ & -> & _)|(_ & -> & _)]) I; [left; rewrite Forall_forall in D; auto|].
  destruct I as [<-|I]; auto. left. rewrite Forall_forall in D; auto.
Qed.
Lemma integer_text_inj z z' t : integer_text z t -> integer_text z' t -> z = z'.
Proof.
  intros (ds & NE & D & _ & H) (ds' & NE' & D' & _ & H').
  assert (M : forall x, Forall digit (45 :: x) -> False) by (intros x F; inversion F; unfold digit in *; lia).
  destruct H as [(Z & -> & E)|(Z & -> & E)], H' as [(Z' & Q & E')|(Z' & Q & E')].
  - subst. reflexivity.
  - subst. now apply M in D.
  - subst. now apply M in D'.
  - injection Q as ->. lia.
Qed.

Lemma until (c : char) a : forall b x y, ~ In c a -> ~ In c b -> a ++ c :: x = b ++ c :: y -> a = b /\ x = y.
Proof.
  induction a as [|d a IH]; intros [|e b] x y A B E; cbn [app] in E.
  - now injection E.
  - injection E as -> _. exfalso. apply B. now left.
  - injection E as -> _. exfalso. apply A. now left.
  - injection E as -> E. destruct (IH b x y) as [-> ->]; auto; intros I; [apply A|apply B]; now right.
Qed.
(** ** quoting tells where the text ends *)
Lemma hex_fuel_shape f : forall n acc, n < 2 ^ N.of_nat f -> exists ds, hex_fuel (S f) n acc = ds ++ acc /\ ~ In 125 ds /\
  fold_left (fun a c => 16 * a + (if c <? 58 then c - 48 else c - 87)) ds 0 = n.
Proof.
  assert (Dg : forall d, d < 16 -> hex_digit d <> 125 /\ (if hex_digit d <? 58 then hex_digit d - 48 else hex_digit d - 87) = d).
  { intros d L. unfold hex_digit. destruct (N.ltb_spec d 10).
    - destruct (N.ltb_spec (48 + d) 58); lia.
    - destruct (N.ltb_spec (87 + d) 58); lia. }
  induction f as [|f IH]; intros n acc L.
  - assert (n = 0) by (cbn in L; lia). subst. exists [48]. repeat split. intros [I|[]]. discriminate.
  - rewrite Nat2N.inj_succ, N.pow_succ_r' in L. 
    change (hex_fuel (S (S f)) n acc) with (if n <? 16 then hex_digit n :: acc else hex_fuel (S f) (n / 16) (hex_digit (n mod 16) :: acc)).
    destruct (N.ltb_spec n 16) as [B16|B16].
    + destruct (Dg n B16) as [A B]. exists [hex_digit n]. repeat split; [intros [I|[]]; auto|]. cbn [fold_left]. now rewrite B.
    + destruct (IH (n / 16) (hex_digit (n mod 16) :: acc)) as (ds & E & NI & V).
      * apply N.div_lt_upper_bound; lia.
      * pose proof (N.mod_lt n 16 ltac:(lia)) as M. destruct (Dg _ M) as [A B]. exists (ds ++ [hex_digit (n mod 16)]). rewrite E. split; [now rewrite <- app_assoc|]. split.
        -- intros I. apply in_app_iff in I. destruct I as [I|[I|[]]]; auto.
        -- rewrite fold_left_app. match goal with |- fold_left _ _ ?a = _ => replace a with (n / 16) by (symmetry; exact V) end. cbn [fold_left]. rewrite B. pose proof (N.div_mod n 16 ltac:(lia)). lia.
Qed.
Lemma hex_inj a b x y : hex a ++ 125 :: x = hex b ++ 125 :: y -> a = b /\ x = y.
Proof.
  unfold hex. destruct (hex_fuel_shape (N.size_nat a) a [] (size_bound a)) as (ds & -> & A & <-).
  destruct (hex_fuel_shape (N.size_nat b) b [] (size_bound b)) as (es & -> & B & <-). rewrite !app_nil_r. intros E. apply until in E; auto. now destruct E as [-> ->].
Qed.
Lemma escaped_cases plain c : (c <> 34 /\ c <> 92 /\ escaped plain c = [c]) \/
  (exists d, In (d, c) [(48, 0); (116, 9); (114, 13); (110, 10); (34, 34); (92, 92)] /\ escaped plain c = [92; d]) \/
  escaped plain c = [92; 117; 123] ++ hex c ++ [125].
Proof.
  unfold escaped.
  repeat match goal with |- context [if c =? ?k then _ else _] => destruct (N.eqb_spec c k) as [->|] end;
    try (right; left; eexists; split; [|reflexivity]; cbn; tauto).
  destruct (plain c); auto.
Qed.
Lemma escaped_tells plain c d x y : escaped plain c ++ x = escaped plain d ++ y -> c = d /\ x = y.
Proof.
  destruct (escaped_cases plain c) as [(A1 & A2 & ->)|[(a & A & ->)| ->]], (escaped_cases plain d) as [(B1 & B2 & ->)|[(b & B & ->)| ->]]; intros E; cbn [app] in E.
  - now injection E.
  - injection E as -> _. congruence.
  - injection E as -> _. congruence.
  - injection E as <- _. congruence.
  - injection E as -> ->. cbn in A, B. split; auto. intuition congruence.
  - injection E as -> _. cbn in A. intuition congruence.
  - injection E as <- _. congruence.
  - injection E as <- _. cbn in B. intuition congruence.
  - rewrite <- !app_assoc in E. injection E as E. now apply hex_inj.
Qed.
Lemma escaped_head plain c x y : escaped plain c ++ x = 34 :: y -> False.
Proof. destruct (escaped_cases plain c) as [(A1 & A2 & ->)|[(a & A & ->)| ->]]; cbn [app]; congruence. Qed.
Theorem quoted_tells plain s t x y : quoted plain s ++ x = quoted plain t ++ y -> s = t /\ x = y.
Proof.
  unfold quoted. rewrite <- !app_assoc. intros E. apply app_inv_head in E. revert t E. induction s as [|c s IH]; intros [|d t] E; cbn [flat_map app] in E.
  - now injection E.
  - symmetry in E. rewrite <- app_assoc in E. now apply escaped_head in E.
  - rewrite <- app_assoc in E. now apply escaped_head in E.
  - rewrite <- !app_assoc in E. apply escaped_tells in E. destruct E as [-> E]. apply IH in E. destruct E as [-> ->]. auto.
Qed.
Lemma hex_text_eq k : forall n acc, n < 16 ^ N.of_nat k -> forall f, n < 2 ^ N.of_nat f -> (0 < k)%nat -> hex_text k n acc = hex_fuel (S f) n acc.
Proof.
  induction k as [|k IH]; intros n acc L f Lf P; [lia|].
  change (hex_text (S k) n acc) with (let acc' := hex_char (n mod 16) :: acc in if n / 16 =? 0 then acc' else hex_text k (n / 16) acc').
  change (hex_fuel (S f) n acc) with (if n <? 16 then hex_digit n :: acc else hex_fuel f (n / 16) (hex_digit (n mod 16) :: acc)). cbv zeta.
  change hex_char with hex_digit. pose proof (N.div_mod n 16 ltac:(lia)) as D. pose proof (N.mod_lt n 16 ltac:(lia)) as M.
  destruct (N.ltb_spec n 16) as [B|B].
  - rewrite (N.mod_small n 16 B), (N.div_small n 16 B). reflexivity.
  - destruct (N.eqb_spec (n / 16) 0) as [Z|Z]; [lia|]. rewrite Nat2N.inj_succ, N.pow_succ_r' in L. destruct f as [|f]; [cbn in Lf; lia|]. rewrite Nat2N.inj_succ, N.pow_succ_r' in Lf.
    apply IH; [apply N.div_lt_upper_bound; lia|apply N.div_lt_upper_bound; lia|]. destruct k; [|lia]. cbn in L. lia.
Qed.
Lemma escape_eq plain c : is_scalar c = true -> escape_char plain c = escaped plain c.
Proof.
  intros S. unfold is_scalar in S. assert (H : hex_text 8 c [] = hex c).
  { unfold hex. apply hex_text_eq; [cbn; lia|apply size_bound|lia]. }
  unfold escaped. repeat match goal with |- context [if c =? ?k then _ else _] => destruct (N.eqb_spec c k) as [->|] end; try reflexivity.
  rewrite <- H. unfold escape_char.
  repeat match goal with |- context [match ?x with _ => _ end] => is_var x; destruct x; try congruence end; reflexivity.
Qed.
Lemma debug_str_quoted plain s : scalars s -> debug_str plain s = quoted plain s.
Proof.
  intros S. unfold debug_str, quoted. f_equal. f_equal. induction S as [|c s C S IH]; [reflexivity|]. cbn [flat_map]. now rewrite IH, escape_eq.
Qed.

(** ** the text shown is one allowed *)
Section Texts.
Variable h : host.
Notation plain := (h_plain h).
Lemma join_items l : Forall (fun v => debugs plain v (debug_value h v)) l -> debugs_items plain l (join (lit ", ") (map (debug_value h) l)).
Proof.
  induction 1 as [|v l D F IH]; [constructor|]. destruct l as [|w l]; cbn [map join]; [now constructor|]. cbn [map join] in IH. now constructor.
Qed.
Lemma join_pairs l : Forall (fun kv => scalars (fst kv) /\ debugs plain (snd kv) (debug_value h (snd kv))) l ->
  debugs_pairs plain l (join (lit ", ") (map (fun kv => debug_str plain (fst kv) ++ lit ": " ++ debug_value h (snd kv)) l)).
Proof.
  induction 1 as [|[k v] l [K D] F IH]; [constructor|]. cbn [fst snd] in K, D. destruct l as [|w l]; [cbn [map join fst snd]; rewrite debug_str_quoted by exact K; now constructor|].
  change (map (fun kv => debug_str plain (fst kv) ++ lit ": " ++ debug_value h (snd kv)) ((k, v) :: w :: l))
    with ((debug_str plain k ++ lit ": " ++ debug_value h v) :: map (fun kv => debug_str plain (fst kv) ++ lit ": " ++ debug_value h (snd kv)) (w :: l)).
  change (join ?s (?a :: map ?f (w :: l))) with (a ++ s ++ join s (map f (w :: l))). rewrite <- !app_assoc, debug_str_quoted by exact K. now constructor.
Qed.
Lemma entries_in_order (m : amap value) ks : NoDup (map fst m) -> Permutation ks (map fst m) ->
  exists ps, Permutation ps m /\ forall g : value -> str,
    map (fun k => match mget k (map (fun kv => (fst kv, debug_str plain (fst kv) ++ lit ": " ++ g (snd kv))) m) with Some x => x | None => [] end) ks =
    map (fun kv => debug_str plain (fst kv) ++ lit ": " ++ g (snd kv)) ps.
Proof.
  intros ND P. destruct (Permutation_map_inv _ _ P) as (ps & -> & Q). exists ps. split; [now apply Permutation_sym|]. intros g. rewrite map_map.
  apply map_ext_in. intros [k v] I. cbn [fst snd]. apply (Permutation_in _ (Permutation_sym Q)) in I. clear -ND I.
  induction m as [|[k' v'] m IH]; [destruct I|]. cbn [map mget fst snd] in *. inversion ND; subst. destruct I as [[= -> ->]|I].
  - now rewrite str_eqb_refl.
  - destruct (str_eqb k k') eqn:E; [|auto]. apply str_eqb_eq in E. subst. exfalso. apply H1. change k' with (fst (k', v)). now apply in_map.
Qed.
Lemma pairs_shown (m : amap value) ps : Permutation ps m -> Forall (fun kv => scalars (fst kv) /\ valid (snd kv)) m ->
  Forall (fun kv => valid (snd kv) -> debugs plain (snd kv) (debug_value h (snd kv))) m ->
  Forall (fun kv => scalars (fst kv) /\ debugs plain (snd kv) (debug_value h (snd kv))) ps.
Proof. intros P V D. apply (Permutation_Forall (Permutation_sym P)). rewrite Forall_forall in *. intros kv I. split; [apply V, I|]. apply D; auto. apply V, I. Qed.
Lemma debug_shows v : orders h -> valid v -> debugs plain v (debug_value h v).
Proof.
  intros O. induction v as [| | | | |l IH|m IH] using value_ind2; intros U; try solve [constructor].
  - constructor. apply show_Z_text.
  - constructor. now apply debug_f64_debugged.
  - cbn [debug_value]. rewrite debug_str_quoted by exact U. constructor.
  - apply valid_arr in U. constructor. apply join_items. rewrite Forall_forall in *. auto.
  - apply valid_map in U. destruct U as [ND U]. destruct (entries_in_order m (h_order h (map fst m)) ND (O _)) as (ps & P & E).
    cbn [debug_value]. cbv zeta. rewrite (E (debug_value h)). apply db_map with ps; auto. apply join_pairs. now apply pairs_shown with m.
Qed.
Lemma value_shows v : orders h -> valid v -> shows plain v (show_value h v).
Proof.
  intros O U. destruct v as [| | | | |l|m]; try solve [constructor].
  - constructor. apply show_Z_text.
  - constructor. now apply show_f64_shown.
  - constructor. apply valid_arr in U. apply join_items. eapply Forall_impl; [|exact U]. intros; now apply debug_shows.
  - apply valid_map in U. destruct U as [ND U]. destruct (entries_in_order m (h_order h (map fst m)) ND (O _)) as (ps & P & E).
    cbn [show_value]. cbv zeta. rewrite (E (debug_value h)). apply sh_map with ps; auto. apply join_pairs. apply pairs_shown with m; auto.
    eapply Forall_impl; [|exact U]. intros kv [A B]; now apply debug_shows.
Qed.

(** ** it tells the value *)
Lemma item_head v t : debugs plain v t -> exists c u, t = c :: u /\ 65 <= c <= 90.
Proof. intros []; eexists _, _; (split; [reflexivity|vm_compute; split; discriminate]). Qed.
Lemma items_head v l t : debugs_items plain (v :: l) t -> exists c u, t = c :: u /\ 65 <= c <= 90.
Proof. intros D. inversion D as [|? ? H|? ? ? ? ? H]; subst; [now apply item_head in H|]. apply item_head in H. destruct H as (c & u' & -> & B). eexists _, _. split; [reflexivity|exact B]. Qed.
Lemma pairs_head p l t : debugs_pairs plain (p :: l) t -> exists u, t = 34 :: u.
Proof. intros D. inversion D; subst; eexists; reflexivity. Qed.
Ltac strip E := repeat (cbn [app lit] in E; match type of E with _ :: _ = _ :: _ => injection E as E end).
Lemma debug_prefix :
  (forall v t, debugs plain v t -> forall w t' x y, debugs plain w t' -> t ++ x = t' ++ y -> alike v w /\ x = y) /\
  (forall l t, debugs_items plain l t -> forall l' t' x y, debugs_items plain l' t' -> t ++ 93 :: x = t' ++ 93 :: y -> Forall2 alike l l' /\ x = y) /\
  (forall l t, debugs_pairs plain l t -> forall l' t' x y, debugs_pairs plain l' t' -> t ++ 125 :: x = t' ++ 125 :: y ->
     Forall2 (fun p q => fst p = fst q /\ alike (snd p) (snd q)) l l' /\ x = y).
Proof.
  pose proof (quoted_tells plain) as Q2. assert (Q1 : forall s, exists u, quoted plain s = 34 :: u) by (intros s; eexists; reflexivity).
  assert (Q3 : forall f t, debugged_float f t -> ~ In 41 t).
  { intros f t D I. apply (told_chars _ _ (debugged_told _ _ D)) in I. destruct I as [I|I]; [unfold digit in I; lia|cbn in I; intuition discriminate]. }
  apply debugs_all.
  - intros w t' x y D E. destruct D; try discriminate. split; [constructor|]. now injection E.
  - intros z t I w t' x y D E. destruct D; try discriminate. rewrite <- !app_assoc in E. apply app_inv_head in E.
    apply (until 41) in E; [|intros J; eapply integer_text_in in J; eauto; unfold digit in *; lia..].
    destruct E as [-> ->]. rewrite (integer_text_inj _ _ _ I H). split; auto. constructor.
  - intros f t Df w t' x y D E. destruct D; try discriminate. rewrite <- !app_assoc in E. apply app_inv_head in E.
    apply (until 41) in E; [|eauto..]. destruct E as [E ->]. subst. split; auto. rewrite (debugged_inj _ _ _ Df H). constructor.
  - intros b w t' x y D E. destruct D; try discriminate. destruct b, b0; try discriminate; injection E as ->; split; auto; constructor.
  - intros s w t' x y D E. destruct D; try discriminate. rewrite <- !app_assoc in E. apply app_inv_head in E. apply Q2 in E. destruct E as [-> E].
    injection E as ->. split; auto. constructor.
  - intros l t _ IH w t' x y D E. destruct D; try discriminate. rewrite <- !app_assoc in E. apply app_inv_head in E.
    apply (IH l0 t0 (41 :: x) (41 :: y)) in E; auto. destruct E as [E F]. injection F as ->. split; auto. now constructor.
  - intros m ps t P _ IH w t' x y D E. destruct D; try discriminate. rewrite <- !app_assoc in E. apply app_inv_head in E.
    apply (IH ps0 t0 (41 :: x) (41 :: y)) in E; auto. destruct E as [E F]. injection F as ->. split; auto. now apply al_map with ps ps0.
  - intros [|w l'] t' x y D E.
    + inversion D; subst. injection E as ->. auto.
    + apply items_head in D. destruct D as (c & u & -> & B). injection E as <- _. lia.
  - intros v t D IH l' t' x y D' E. inversion D' as [|w t2 Dw|w t2 w2 l2 u Dw Dl]; subst; cbn [app] in E.
    + apply item_head in D. destruct D as (c & u & -> & B). injection E as -> _. lia.
    + destruct (IH _ _ _ _ Dw E) as [A F]. injection F as ->. auto.
    + rewrite <- !app_assoc in E. destruct (IH _ _ _ _ Dw E) as [A F]. discriminate.
  - intros v t w l u D IH Dl IHl l' t' x y D' E. inversion D' as [|w1 t2 Dw|w1 t2 w2 l2 u2 Dw Dl2]; subst; cbn [app] in E.
    + apply item_head in D. destruct D as (c & q & -> & B). injection E as -> _. lia.
    + rewrite <- !app_assoc in E. destruct (IH _ _ _ _ Dw E) as [A F]. discriminate.
    + rewrite <- !app_assoc in E. destruct (IH _ _ _ _ Dw E) as [A F]. apply app_inv_head in F. destruct (IHl _ _ _ _ Dl2 F). auto.
  - intros [|w l'] t' x y D E.
    + inversion D; subst. injection E as ->. auto.
    + apply pairs_head in D. destruct D as (u & ->). discriminate.
  - intros k v t D IH l' t' x y D' E. inversion D' as [|k1 w t2 Dw|k1 w t2 w2 l2 u Dw Dl]; subst; cbn [app] in E.
    + destruct (Q1 k) as (u & K). rewrite K in E. discriminate.
    + rewrite <- !app_assoc in E. apply Q2 in E. destruct E as [-> E]. apply app_inv_head in E. destruct (IH _ _ _ _ Dw E) as [A F]. injection F as ->. auto.
    + rewrite <- !app_assoc in E. apply Q2 in E. destruct E as [-> E]. apply app_inv_head in E. destruct (IH _ _ _ _ Dw E) as [A F]. discriminate.
  - intros k v t q l u D IH Dl IHl l' t' x y D' E. inversion D' as [|k1 w t2 Dw|k1 w t2 w2 l2 u2 Dw Dl2]; subst; cbn [app] in E.
    + destruct (Q1 k) as (u2 & K). rewrite K in E. discriminate.
    + rewrite <- !app_assoc in E. apply Q2 in E. destruct E as [-> E]. apply app_inv_head in E. destruct (IH _ _ _ _ Dw E) as [A F]. discriminate.
    + rewrite <- !app_assoc in E. apply Q2 in E. destruct E as [-> E]. apply app_inv_head in E. destruct (IH _ _ _ _ Dw E) as [A F].
      apply app_inv_head in F. destruct (IHl _ _ _ _ Dl2 F). auto.
Qed.
End Texts.

Theorem debug_shown h v : orders h -> valid v -> debugs (h_plain h) v (debug_value h v).
Proof. apply debug_shows. Qed.
Theorem value_shown h v : orders h -> valid v -> shows (h_plain h) v (show_value h v).
Proof. apply value_shows. Qed.
Theorem debug_tells h v w x y : orders h -> valid v -> valid w ->
  debug_value h v ++ x = debug_value h w ++ y -> alike v w /\ x = y.
Proof. intros O U V. apply (debug_prefix h); now apply debug_shows. Qed.
(** arrays, maps and floats are told by what is printed for them, too *)
Theorem show_tells h v w : orders h -> valid v -> valid w ->
  match v, w with VArr _, VArr _ | VMap _, VMap _ | VFloat _, VFloat _ => show_value h v = show_value h w -> alike v w | _, _ => True end.
Proof.
  intros O U V. pose proof (value_shows h v O U) as A. pose proof (value_shows h w O V) as B. revert A B. generalize (show_value h v), (show_value h w).
  intros t t' A B. destruct v; auto; destruct w; auto.
  - inversion A as [| |? ? HA| | | |]. inversion B as [| |? ? HB| | | |]. subst. intros ->. rewrite (shown_inj _ _ _ HA HB). constructor.
  - inversion A as [| | | | |? a HA|]. inversion B as [| | | | |? b HB|]. subst. intros E. apply app_inv_head in E.
    apply (proj1 (proj2 (debug_prefix h)) _ _ HA _ _ [] [] HB) in E; auto. now constructor.
  - inversion A as [| | | | | |? p a PA HA]. inversion B as [| | | | | |? q b PB HB]. subst. intros E. apply app_inv_head in E.
    apply (proj2 (proj2 (debug_prefix h)) _ _ HA _ _ [] [] HB) in E; auto. apply al_map with p q; tauto.
Qed.
Theorem show_ambiguous h : exists v w, show_value h v = show_value h w /\ ~ alike v w.
Proof. exists (VInt 1), (VStr (lit "1")). split; [reflexivity|]. intros A. inversion A. Qed.

Definition reversing : host := Host (fun c => c <? 127) (@rev str) true.
Lemma reversing_orders : orders reversing.
Proof. intros ks. apply Permutation_sym, Permutation_rev. Qed.
Lemma show_example : match parse_f64 (lit "0.1") with
  | Some f => debug_value reversing (VArr [VMap [(lit "a""b", VInt (-5)); (lit "c", VFloat f)]; VStr [955; 10]]) =
      lit "Array([Map({""c"": Float(0.1), ""a\""b"": Integer(-5)}), String(""\u{3bb}\n"")])"
  | None => False
  end.
Proof. vm_compute. reflexivity. Qed.
