(** Displaying an expression and parsing the text gives the expression back *)
From Verif Require Import Parser SpecSyntax TextProofs LexOneProofs LexerProofs DigitsProofs SyntaxProofs
  ParserBase ParserSound ParserTop ParserFuel ParserComplete ParserProgram FloatProofs FloatLiteral SpecNumber NumberProofs.
From Coq Require Import Lqa QArith Qabs.
Open Scope N_scope.

(** ** tokens of a tree *)
Section Canon.
  Context {A : Type} (f : A -> toks).
  Fixpoint commas (l : list A) : toks :=
    match l with [] => [] | [x] => f x | x :: l' => f x ++ op KComma "," :: commas l' end.
  Fixpoint semis (l : list A) : toks :=
    match l with [] => [] | [x] => f x | x :: l' => f x ++ op KSemi ";" :: semis l' end.
End Canon.
  Fixpoint canon (e : expr) : toks :=
    match e with
    | EInt z => [Tok KInteger (show_Z z)]
    | EFloat f => [Tok KFloat (show_f64 f)]
    | EBool b => [if b then op KTrue "true" else op KFalse "false"]
    | EStr s => [Tok KString s]
    | EIdent n => [Tok KIdent n]
    | EArr es => op KLs "[" :: commas canon es ++ [op KRs "]"]
    | EMap ps => op KLb "{" :: commas (fun kv => canon (fst kv) ++ op KColon ":" :: canon (snd kv)) ps ++ [op KRb "}"]
    | EIndex l i => canon l ++ op KLs "[" :: canon i ++ [op KRs "]"]
    | EField l f => canon l ++ [op KDot "."; Tok KIdent f]
    | ELet n v => op KLet "let" :: Tok KIdent n :: op KAssign "=" :: canon v
    | EUn t r => t :: canon r
    | EBin t l r => canon l ++ t :: canon r
    | EParen v => op KLp "(" :: canon v ++ [op KRp ")"]
    | EIf c cs alt =>
        op KIf "if" :: op KLp "(" :: canon c ++ op KRp ")" :: op KLb "{" :: semis canon cs ++
        match alt with
        | [] => [op KRb "}"]
        | _ => op KRb "}" :: op KElse "else" :: op KLb "{" :: semis canon alt ++ [op KRb "}"]
        end
    | ECall n args => Tok KIdent n :: op KLp "(" :: commas canon args ++ [op KRp ")"]
    end.

(** ** numbers with a fraction are shown as literals *)
Lemma whole_rounded z m e : (0 < z)%Z -> rounded (inject_Z z) (S754_finite false m e) -> exists y, (scaled (Zpos m) e == inject_Z y)%Q.
Proof.
  intros P R. destruct (Z.lt_ge_cases z (2 ^ 53)) as [L|L].
  - assert (R' : rounded (scaled z 0) (S754_finite false m e)) by (eapply rounded_wd; [symmetry; apply int_scaled|exact R]).
    destruct (rounded_exact z 0 _ ltac:(lia) ltac:(lia) R') as (v & V & E). cbn [value_of] in V. injection V as <-. exists z. rewrite E. apply int_scaled.
  - destruct R as (B & _ & _ & [[_ (r & V & N)]|[_ (s & E)]]); [|discriminate]. cbn [value_of] in V. injection V as <-. cbn [binary64] in B.
    destruct (Z.le_gt_cases 0 e) as [G|G].
    + exists (Zpos m * 2 ^ e)%Z. unfold scaled. rewrite inject_Z_mult, two_Z by lia. reflexivity.
    + exfalso. destruct (N (2 ^ 52)%Z 1%Z ltac:(lia) ltac:(lia)) as [D _]. assert (E : (scaled (2 ^ 52) 1 == inject_Z (2 ^ 53))%Q) by reflexivity. rewrite E in D.
      assert (U : (scaled (Zpos m) e < inject_Z (2 ^ 53))%Q).
      { apply Qlt_le_trans with (scaled (2 ^ 53 * 2 ^ (- e)) e).
        - apply scaled_lt. assert (0 < 2 ^ (- e))%Z by (apply Z.pow_pos_nonneg; lia). nia.
        - apply Qle_lteq. right. rewrite <- scaled_shift by lia. rewrite Z.add_opp_diag_r. apply int_scaled. }
      assert (G2 : (inject_Z (2 ^ 53) <= inject_Z z)%Q) by (rewrite <- Zle_Qle; lia).
      rewrite !Qabs_pos in D by lra. lra.
Qed.
Lemma fraction_text f : binary64 f -> sign_of f = false -> has_fraction f ->
  exists c a b, show_f64 f = (c :: a) ++ 46 :: b /\ digit c /\ Forall digit a /\ Forall digit b /\ float_literal (show_f64 f) f.
Proof.
  intros B S (v & V & W). pose proof (show_f64_shown f B) as Sh. revert Sh. generalize (show_f64 f). intros text Sh. inversion Sh as [E|s E|s E|s m e t x D _ R E]; subst f; try discriminate V.
  - exfalso. injection V as <-. apply (W 0%Z). reflexivity.
  - cbn [sign_of] in S. subst s. injection V as <-. cbn [sign_text app] in *. destruct R as [R _]. destruct D as [a NE F|a b NE NE' F F'].
    + exfalso. assert (E0 : (tens (Z.of_N (decimal a)) 0 == inject_Z (Z.of_N (decimal a)))%Q) by (unfold tens; change (10 ^ 0)%Q with 1%Q; ring).
      apply (rounded_wd _ _ _ E0) in R. destruct (N.eq_dec (decimal a) 0) as [Z|Z].
      * rewrite Z in R. destruct (rounded_exact 0 0 _ ltac:(lia) ltac:(lia) R) as (u & U & Eu). cbn [value_of] in U. injection U as <-. apply (W 0%Z). rewrite Eu. reflexivity.
      * destruct (whole_rounded (Z.of_N (decimal a)) m e ltac:(lia) R) as (y & Y). apply (W y Y).
    + destruct a as [|c a]; [now destruct NE|]. exists c, a, b. split; [reflexivity|]. apply Forall_cons_iff in F as F0. destruct F0 as [Fc Fa]. split; [exact Fc|]. split; [exact Fa|]. split; [exact F'|].
      exists (c :: a), b. split; [reflexivity|]. split; [exact F|]. split; [exact F'|]. split; [discriminate|]. split; [|reflexivity].
      eapply rounded_wd; [|exact R]. unfold tens. rewrite ten_inv. reflexivity.
Qed.

(** ** trees whose leaves can be written *)
Definition is_number (e : expr) : Prop := match e with EInt _ | EFloat _ => True | _ => False end.
Definition lexok1 (e : expr) : Prop :=
  match e with
  | EInt z => (0 <= z < 2 ^ 63)%Z
  | EFloat f => binary64 f /\ sign_of f = false /\ has_fraction f
  | EStr s => ~ In 34 s
  | EIdent n => spelled (Tok KIdent n)
  | EField l f => spelled (Tok KIdent f) /\ ~ is_number l /\ ~ is_unary l /\ ~ is_binary l /\ ~ is_let l
  | ELet n _ => spelled (Tok KIdent n)
  | ECall n _ => spelled (Tok KIdent n)
  | EUn t _ => spelled t /\ unary (tkind t)
  | EBin t _ _ => spelled t /\ binary (tkind t)
  | _ => True
  end.
Notation lexok := (everywhere lexok1).

Lemma canon_list es : Forall (fun e => syntax true e (canon e)) es -> syntax_list true es (commas canon es).
Proof.
  induction 1 as [|e es H F IH]; [constructor|]. destruct es; [now constructor|]. cbn [commas]. now constructor.
Qed.
Lemma canon_pairs ps : Forall (fun kv => syntax true (fst kv) (canon (fst kv)) /\ syntax true (snd kv) (canon (snd kv))) ps ->
  syntax_pairs true ps (commas (fun kv => canon (fst kv) ++ op KColon ":" :: canon (snd kv)) ps).
Proof.
  induction 1 as [|[k v] ps [H1 H2] F IH]; [constructor|]. destruct ps; [now constructor|].
  cbn [commas fst snd]. rewrite <- app_assoc. now constructor.
Qed.
Lemma canon_block es : Forall (fun e => syntax true e (canon e)) es -> syntax_block true es (semis canon es).
Proof.
  induction 1 as [|e es H F IH]; [constructor|]. destruct es; [now constructor|]. cbn [semis]. now constructor.
Qed.

Lemma canon_syntax e : lexok e -> syntax true e (canon e).
Proof.
  induction e using expr_ind2; intros L; apply everywhere_eq in L; destruct L as [L1 L2]; cbn [lexok1] in L1; cbn [canon].
  - destruct (show_Z_numeral z ltac:(lia)) as (N0 & F & V).
    assert (E : z = Z.of_N (decimal (show_Z z))) by lia.
    rewrite E at 1. apply sx_int; auto. lia.
  - destruct L1 as (B & S & W). destruct (fraction_text f B S W) as (c & a & b & E & C & Fa & Fb & L). now constructor.
  - destruct b; constructor.
  - constructor.
  - apply sx_arr, canon_list. rewrite !Forall_forall in *. auto.
  - apply sx_map, canon_pairs. rewrite !Forall_forall in *. intros kv I. destruct (H _ I), (L2 _ I); auto.
  - apply sx_index; tauto.
  - apply sx_field; auto.
  - constructor.
  - apply sx_let; auto.
  - apply sx_un; tauto.
  - apply sx_bin; tauto.
  - apply sx_paren; auto.
  - destruct L2 as (Lc & La & Lb). destruct b as [|x b].
    + apply sx_if; auto. apply canon_block. rewrite !Forall_forall in *. auto.
    + apply sx_if_else; auto; apply canon_block; rewrite !Forall_forall in *; auto.
  - apply sx_call, canon_list. rewrite !Forall_forall in *. auto.
Qed.

(** ** the displayed text is the tokens *)
(** [brk rest]: no identifier or number goes on; [dot]: a [.] is allowed *)
Definition brk (dot : bool) (rest : str) : Prop :=
  forall c r, rest = c :: r -> ~ letter c /\ ~ digit c /\ (dot = false -> c <> 46).

Lemma seg_char c k rest : (forall s, lex_one c s = (k, [c], s)) -> is_ws c = false ->
  segment (c :: rest) = Tok k [c] :: segment rest.
Proof. intros H W. apply segment_one; auto. Qed.

Lemma letter_only c w t : spells (c :: w) t -> letter c -> Forall (fun x => letter x \/ digit x) w.
Proof.
  intros S L. destruct (spells_cases _ _ _ S) as [(k & D & _)|[(D & _)|[(_ & F & _)|[(k & b & D & _)|(_ & _ & D & _)]]]]; auto.
  - exfalso. apply op_rest_in in D. unfold operators in D; simpl in D; decompose [or] D; try contradiction;
      match goal with E : (_, _) = (_, _) |- _ => inversion E; subst; unfold letter in L; lia end.
  - exfalso. unfold letter, digit in *. lia.
  - exfalso. unfold delimiters in D; simpl in D. unfold letter in L. destruct D as [[= _ <-]|[[= _ <-]|[]]]; lia.
  - contradiction.
Qed.
Lemma digit_only c w t : spells (c :: w) t -> digit c -> Forall (fun x => digit x \/ x = 46) w.
Proof.
  intros S L. destruct (spells_cases _ _ _ S) as [(k & D & _)|[(_ & F & _)|[(D & _)|[(k & b & D & _)|(_ & D & _)]]]]; auto.
  - exfalso. apply op_rest_in in D. unfold operators in D; simpl in D; decompose [or] D; try contradiction;
      match goal with E : (_, _) = (_, _) |- _ => inversion E; subst; unfold digit in L; lia end.
  - exfalso. unfold letter, digit in *. lia.
  - exfalso. unfold delimiters in D; simpl in D. unfold digit in L. destruct D as [[= _ <-]|[[= _ <-]|[]]]; lia.
  - contradiction.
Qed.

Lemma seg_spells c w t rest : spells (c :: w) t -> maximal (c :: w) rest -> segment ((c :: w) ++ rest) = t :: segment rest.
Proof.
  intros S M. cbn [app]. erewrite segment_one;
    [|apply is_ws_false; eapply spells_not_ws; eauto|eapply lex_one_complete; eauto]. now destruct t.
Qed.

Lemma seg_word w t rest b : spells w t -> (exists c w', w = c :: w' /\ letter c) -> brk b rest ->
  segment (w ++ rest) = t :: segment rest.
Proof.
  intros S (c & w' & -> & L) B. apply seg_spells; auto. apply maximal_intro. intros w2 t2 rest2 E S2.
  eapply app_len_le; [exact E|exact (letter_only _ _ _ S2 L)|]. intros x r ->. destruct (B x r eq_refl) as (B1 & B2 & _). tauto.
Qed.

Lemma ident_spelling n : spelled (Tok KIdent n) -> spells n (Tok KIdent n) /\ exists c w, n = c :: w /\ letter c.
Proof.
  intros [w S].
  inversion S as [k s I|c s D F|c s D F I|k s I|c s D F I|k d body I N|c A1 A2 A3 A4 A5]; subst; try discriminate.
  - exfalso. unfold operators in I; simpl in I; decompose [or] I; try contradiction; congruence.
  - exfalso. unfold keywords in I; simpl in I; decompose [or] I; try contradiction; congruence.
  - eauto.
  - exfalso. unfold delimiters in I; simpl in I. destruct I as [[= X _]|[[= X _]|[]]].
Qed.

Lemma seg_ident n rest b : spelled (Tok KIdent n) -> brk b rest -> segment (n ++ rest) = Tok KIdent n :: segment rest.
Proof. intros S B. destruct (ident_spelling _ S) as [S' L]. eapply seg_word; eauto. Qed.

Lemma seg_number l rest : l <> [] -> Forall digit l -> brk false rest -> segment (l ++ rest) = Tok KInteger l :: segment rest.
Proof.
  intros N F B. destruct l as [|c w]; [congruence|]. inversion F; subst. apply seg_spells; [now constructor|].
  apply maximal_intro. intros w2 t2 rest2 E S2.
  eapply app_len_le; [exact E|exact (digit_only _ _ _ S2 H1)|]. intros x r ->. destruct (B x r eq_refl) as (B1 & B2 & B3).
  specialize (B3 eq_refl). tauto.
Qed.

Lemma seg_float c a b rest : digit c -> Forall digit a -> Forall digit b -> brk false rest ->
  segment (((c :: a) ++ 46 :: b) ++ rest) = Tok KFloat ((c :: a) ++ 46 :: b) :: segment rest.
Proof.
  intros C A F B. apply seg_spells.
  - cbn [app]. apply sp_float; auto; [|apply in_app_iff; right; now left]. apply Forall_app. split; [eapply Forall_impl; [|exact A]; auto|]. constructor; auto. eapply Forall_impl; [|exact F]; auto.
  - apply maximal_intro. intros w2 t2 rest2 E S2. cbn [app] in *.
    eapply app_len_le; [exact E|exact (digit_only _ _ _ S2 C)|]. intros x r ->. destruct (B x r eq_refl) as (B1 & B2 & B3). specialize (B3 eq_refl). tauto.
Qed.

Lemma seg_string s rest : ~ In 34 s -> segment (34 :: s ++ 34 :: rest) = Tok KString s :: segment rest.
Proof.
  intros N. apply segment_one; [reflexivity|]. unfold lex_one. cbn -[lex_quoted]. unfold lex_quoted.
  rewrite span_app; [reflexivity| |].
  - apply Forall_forall. intros x Hx. apply negb_true_iff, N.eqb_neq. unfold quote. intros ->; contradiction.
  - intros c b' [= <- _]. reflexivity.
Qed.

Lemma brk_weak b rest : brk false rest -> brk b rest.
Proof. intros B c r E. destruct (B c r E) as (X & Y & Z). repeat split; auto. Qed.

Lemma brk_char b c r : (~ letter c /\ ~ digit c /\ (b = false -> c <> 46)) -> brk b (c :: r).
Proof. intros H c' r' [= <- <-]. exact H. Qed.

Ltac lits := repeat match goal with |- context [lit ?s] => let x := eval vm_compute in (lit s) in change (lit s) with x end; cbn [app].
Ltac brk := lits; apply brk_char; unfold letter, digit; lia.

Definition dotok (e : expr) : bool := match e with EInt _ | EFloat _ | EUn _ _ | EBin _ _ _ | ELet _ _ => false | _ => true end.

(** the displayed text of the elements, and their tokens *)
Definition good_at (e : expr) : Prop :=
  forall rest, brk (dotok e) rest -> segment (show_expr e ++ rest) = canon e ++ segment rest.

Lemma good_any e rest : good_at e -> brk false rest -> segment (show_expr e ++ rest) = canon e ++ segment rest.
Proof. intros G B. apply G. now apply brk_weak. Qed.

Lemma seg_comma rest : segment (44 :: rest) = op KComma "," :: segment rest.
Proof. now apply segment_one. Qed.
Lemma seg_semi rest : segment (59 :: rest) = op KSemi ";" :: segment rest.
Proof. now apply segment_one. Qed.
Lemma seg_space rest : segment (32 :: rest) = segment rest.
Proof. apply segment_ws. apply is_ws_iff. reflexivity. Qed.

Lemma show_list es rest : Forall (good_at) es -> brk false rest ->
  segment (join (lit ", ") (map (show_expr) es) ++ rest) = commas canon es ++ segment rest.
Proof.
  change (lit ", ") with [44; 32].
  intros F B. induction F as [|e es G F IH]; [reflexivity|]. destruct es as [|e' es]; [cbn; now apply good_any|].
  change (join [44; 32] (map (show_expr) (e :: e' :: es))) with
    (show_expr e ++ [44; 32] ++ join [44; 32] (map (show_expr) (e' :: es))).
  change (commas canon (e :: e' :: es)) with (canon e ++ op KComma "," :: commas canon (e' :: es)).
  rewrite <- !app_assoc. rewrite good_any; auto; [|brk]. f_equal. cbn [app].
  rewrite seg_comma, seg_space. f_equal. exact IH.
Qed.
Lemma show_semis es rest : Forall (good_at) es -> brk false rest ->
  segment (join (lit ";") (map (show_expr) es) ++ rest) = semis canon es ++ segment rest.
Proof.
  change (lit ";") with [59].
  intros F B. induction F as [|e es G F IH]; [reflexivity|]. destruct es as [|e' es]; [cbn; now apply good_any|].
  change (join [59] (map (show_expr) (e :: e' :: es))) with
    (show_expr e ++ [59] ++ join [59] (map (show_expr) (e' :: es))).
  change (semis canon (e :: e' :: es)) with (canon e ++ op KSemi ";" :: semis canon (e' :: es)).
  rewrite <- !app_assoc. rewrite good_any; auto; [|brk]. f_equal. cbn [app].
  rewrite seg_semi. f_equal. exact IH.
Qed.
Definition show_pair (kv : expr * expr) : str := show_expr (fst kv) ++ lit ": " ++ show_expr (snd kv).
Definition canon_pair (kv : expr * expr) : toks := canon (fst kv) ++ op KColon ":" :: canon (snd kv).
Lemma show_one kv rest : good_at (fst kv) -> good_at (snd kv) -> brk false rest ->
  segment (show_pair kv ++ rest) = canon_pair kv ++ segment rest.
Proof.
  intros G1 G2 Br. unfold show_pair, canon_pair. change (lit ": ") with [58; 32]. rewrite <- !app_assoc.
  rewrite good_any; auto; [|brk]. f_equal. cbn [app].
  rewrite (segment_one 58 _ KColon [58] (32 :: show_expr (snd kv) ++ rest)) by reflexivity.
  rewrite seg_space, good_any; auto.
Qed.
Lemma show_pairs ps rest : Forall (fun kv => good_at (fst kv) /\ good_at (snd kv)) ps -> brk false rest ->
  segment (join (lit ", ") (map (show_pair) ps) ++ rest) = commas canon_pair ps ++ segment rest.
Proof.
  change (lit ", ") with [44; 32].
  intros F B. induction F as [|kv ps [G1 G2] F IH]; [reflexivity|]. destruct ps as [|kv' ps]; [cbn; now apply show_one|].
  change (join [44; 32] (map (show_pair) (kv :: kv' :: ps))) with
    (show_pair kv ++ [44; 32] ++ join [44; 32] (map (show_pair) (kv' :: ps))).
  change (commas canon_pair (kv :: kv' :: ps)) with (canon_pair kv ++ op KComma "," :: commas canon_pair (kv' :: ps)).
  rewrite <- !app_assoc. rewrite show_one; auto; [|brk]. f_equal. cbn [app].
  rewrite seg_comma, seg_space. f_equal. exact IH.
Qed.

Lemma show_first e : lexok e -> exists c r, show_expr e = c :: r /\ c <> 61.
Proof.
  assert (Id : forall n r, spelled (Tok KIdent n) -> exists c r', n ++ r = c :: r' /\ c <> 61).
  { intros n r S. destruct (ident_spelling _ S) as (_ & c & w & -> & L). exists c, (w ++ r). split; auto. unfold letter in L. lia. }
  assert (Ap : forall s r, (exists c r', s = c :: r' /\ c <> 61) -> exists c r', s ++ r = c :: r' /\ c <> 61).
  { intros s r (c & r' & -> & N). exists c, (r' ++ r). auto. }
  induction e using expr_ind2; intros L; apply everywhere_eq in L; destruct L as [L1 L2]; cbn [lexok1] in L1; cbn [show_expr].
  - destruct (show_Z_numeral z ltac:(lia)) as (N0 & F & _). destruct (show_Z z); [congruence|].
    eexists _, _. split; [reflexivity|]. inversion F; subst. unfold digit in *. lia.
  - destruct L1 as (B & S & W). destruct (fraction_text f B S W) as (c & a & b & -> & C & _). eexists _, _. split; [reflexivity|]. unfold digit in C. lia.
  - destruct b; eexists _, _; (split; [reflexivity|discriminate]).
  - eexists _, _; split; [reflexivity|discriminate].
  - eexists _, _; split; [reflexivity|discriminate].
  - eexists _, _; split; [reflexivity|discriminate].
  - apply Ap; tauto.
  - apply Ap; tauto.
  - rewrite <- (app_nil_r n). now apply Id.
  - eexists _, _; split; [reflexivity|discriminate].
  - destruct L1 as [S U]. assert (tlit t = [33] \/ tlit t = [45]) as [-> | ->].
    { destruct U as [U|U]; [left|right]; rewrite (spelled_op _ _ _ S U ltac:(inop)); reflexivity. }
    all: eexists _, _; split; [reflexivity|discriminate].
  - apply Ap; tauto.
  - eexists _, _; split; [reflexivity|discriminate].
  - eexists _, _; split; [reflexivity|discriminate].
  - now apply Id.
Qed.

Lemma seg_op t rest : spelled t -> binary (tkind t) ->
  segment (tlit t ++ 32 :: rest) = t :: segment rest.
Proof.
  intros S B.
  assert (X : spells (tlit t) t).
  { apply binary_iff in B. destruct t as [k l]. cbn [tkind tlit] in *.
    destruct k; try discriminate;
      match goal with |- spells _ (Tok ?k _) =>
        match eval vm_compute in (find (fun p => kind_eqb (fst p) k) operators) with
        | Some (_, ?s) => pose proof (spelled_op _ k s S eq_refl ltac:(inop)) as E
        end end; inversion E; subst; apply sp_op; simpl; tauto. }
  rewrite (spells_segment _ _ (32 :: rest) X); [now rewrite seg_space|]. right. exists 32, rest. split; auto.
  apply is_ws_iff; reflexivity.
Qed.


Lemma seg_chars c k rest : is_ws c = false -> lex_one c rest = (k, [c], rest) -> segment (c :: rest) = Tok k [c] :: segment rest.
Proof. intros. now apply segment_one. Qed.

Lemma show_good e : lexok e -> good_at e.
Proof.
  induction e using expr_ind2; intros L rest B; apply everywhere_eq in L; destruct L as [L1 L2]; cbn [lexok1] in L1; cbn [show_expr canon dotok] in *.
  - destruct (show_Z_numeral z ltac:(lia)) as (N0 & F & _). now apply seg_number.
  - destruct L1 as (Bf & S & W). destruct (fraction_text f Bf S W) as (c & a & b & -> & C & Fa & Fb & _). now apply seg_float.
  - assert (X : forall w t, spells w t -> (exists c w', w = c :: w' /\ letter c) -> segment (w ++ rest) = t :: segment rest)
      by (intros; eapply seg_word; eauto).
    destruct b; (apply X; [apply sp_keyword; simpl; tauto|]; eexists _, _; split; [reflexivity|]; right; left; split; discriminate).
  - cbn [app]. rewrite <- app_assoc. now apply seg_string.
  - change (lit "[") with [91]. change (lit "]") with [93]. cbn [app].
    rewrite (seg_chars 91 KLs) by reflexivity. cbn [app]. f_equal. rewrite <- !app_assoc.
    rewrite show_list; [|rewrite !Forall_forall in *; auto|brk]. f_equal; now apply (seg_chars 93 KRs).
  - change (fun kv : expr * expr => show_expr (fst kv) ++ lit ": " ++ show_expr (snd kv)) with (show_pair).
    change (fun kv : expr * expr => canon (fst kv) ++ op KColon ":" :: canon (snd kv)) with canon_pair.
    change (lit "{") with [123]. change (lit "}") with [125]. cbn [app].
    rewrite (seg_chars 123 KLb) by reflexivity. cbn [app]. f_equal. rewrite <- !app_assoc.
    rewrite show_pairs; [|rewrite !Forall_forall in *; intros kv I; destruct (H _ I), (L2 _ I); auto|brk]. f_equal; now apply (seg_chars 125 KRb).
  - destruct L2 as [La Lb]. lits. rewrite <- !app_assoc. rewrite (IHe1 La) by brk. f_equal. cbn [app].
    rewrite (seg_chars 91 KLs) by reflexivity. f_equal. rewrite <- !app_assoc. rewrite (good_any e2 _ (IHe2 Lb)) by brk. f_equal;
    now apply (seg_chars 93 KRs).
  - destruct L1 as (S & N1 & N2 & N3 & N4). lits. rewrite <- !app_assoc. rewrite (IHe L2).
    + f_equal. cbn [app]. rewrite (seg_chars 46 KDot) by reflexivity. f_equal; eapply seg_ident; eauto.
    + destruct e; cbn [dotok is_number is_unary is_binary is_let] in *; try tauto; brk.
  - eapply seg_ident; eauto.
  - lits. rewrite <- !app_assoc. cbn [app].
    rewrite (segment_one 108 _ KLet (lit "let") (32 :: n ++ 32 :: 61 :: 32 :: show_expr e ++ rest)) by reflexivity.
    rewrite seg_space. cbn [app]. f_equal. rewrite (seg_ident n _ false) by (auto; brk). f_equal.
    rewrite seg_space. rewrite (segment_one 61 _ KAssign [61] (32 :: show_expr e ++ rest)) by reflexivity. f_equal.
    rewrite seg_space. now apply good_any; auto.
  - destruct L1 as [S U]. rewrite <- app_assoc. cbn [app].
    assert (G : segment (show_expr e ++ rest) = canon e ++ segment rest) by (apply good_any; auto).
    rewrite <- G. destruct (show_first e L2) as (c & r & E & N).
    destruct U as [U|U]; rewrite (spelled_op _ _ _ S U ltac:(inop)); cbn [tlit].
    + lits. apply segment_one; auto. rewrite E. cbn [app]. unfold lex_one. cbn -[N.eqb]. unfold op2.
      replace (c =? 61) with false by (symmetry; now apply N.eqb_neq). reflexivity.
    + lits. now apply segment_one.
  - destruct L1 as [S U]. destruct L2 as [La Lb]. lits. rewrite <- !app_assoc. cbn [app]. rewrite good_any by (auto; brk).
    f_equal. rewrite seg_space. rewrite <- app_assoc. cbn [app]. rewrite seg_op by auto. cbn [app]. f_equal. apply good_any; auto.
  - lits. rewrite (seg_chars 40 KLp) by reflexivity. f_equal. rewrite <- !app_assoc.
    rewrite (good_any e) by (auto; brk). f_equal; now apply (seg_chars 41 KRp).
  - destruct L2 as (Lc & La & Lb).
    assert (Ga : Forall (good_at) a) by (rewrite !Forall_forall in *; auto).
    assert (Gb : Forall (good_at) b) by (rewrite !Forall_forall in *; auto).
    assert (Close : forall es rest, Forall (good_at) es ->
      segment (join (lit ";") (map (show_expr) es) ++ 32 :: 125 :: rest) = semis canon es ++ op KRb "}" :: segment rest).
    { intros es r G. rewrite show_semis by (auto; brk). f_equal; rewrite seg_space; now apply (seg_chars 125 KRb). }
    assert (Head : forall r, segment (lit "if (" ++ show_expr e ++ lit ") { " ++ r) =
      op KIf "if" :: op KLp "(" :: canon e ++ op KRp ")" :: op KLb "{" :: segment r).
    { intros r. lits. rewrite (segment_one 105 _ KIf (lit "if") (32 :: 40 :: show_expr e ++ 41 :: 32 :: 123 :: 32 :: r)) by reflexivity.
      rewrite seg_space. f_equal. rewrite (seg_chars 40 KLp) by reflexivity. f_equal. rewrite (good_any e) by (auto; brk). f_equal. }
    rewrite <- !app_assoc. rewrite Head. cbn [app]. do 2 f_equal. rewrite <- !app_assoc. f_equal. cbn [app]. do 2 f_equal.
    destruct b as [|x b].
    + cbn [app]. change (lit " }" ++ rest) with ([32; 125] ++ rest). cbn [app].
      etransitivity; [exact (Close a rest Ga)|]. now rewrite <- app_assoc.
    + rewrite <- !app_assoc. rewrite show_semis by (auto; brk). f_equal. cbn [app].
      change (lit "} else { ") with [125; 32; 101; 108; 115; 101; 32; 123; 32]. change (lit " }" ++ rest) with (32 :: 125 :: rest). cbn [app].
      rewrite (seg_chars 125 KRb) by reflexivity. f_equal. rewrite seg_space.
      rewrite (segment_one 101 _ KElse (lit "else") (32 :: 123 :: 32 :: join (lit ";") (map (show_expr) (x :: b)) ++ 32 :: 125 :: rest)) by reflexivity.
      f_equal. rewrite seg_space. rewrite (seg_chars 123 KLb) by reflexivity. f_equal. rewrite seg_space.
      etransitivity; [exact (Close (x :: b) rest Gb)|]. now rewrite <- app_assoc.
  - change (lit "(") with [40]. change (lit ")") with [41]. rewrite <- !app_assoc. cbn [app]. rewrite (seg_ident n _ false) by (auto; brk). f_equal.
    rewrite (seg_chars 40 KLp) by reflexivity. f_equal. rewrite <- !app_assoc.
    rewrite show_list; [|rewrite !Forall_forall in *; auto|brk]. f_equal; now apply (seg_chars 41 KRp).
Qed.

Lemma show_parses e : lexok e -> no_let_operand e -> prec_ok e ->
  exists src, parse (show_expr e) = Ok src /\ s_exprs src = [e] /\ s_requests src = [] /\ s_tests src = [].
Proof.
  intros L N P. exists (Source [e] [] []). split; auto.
  pose proof (show_good e L [] ltac:(intros c r; discriminate)) as S. rewrite app_nil_r in S.
  change (segment []) with [eof] in S. eapply ev_parse. rewrite S.
  apply (program_reach [IExpr e] (canon e)); [|constructor; [|constructor]].
  - apply pg_last. constructor. now apply canon_syntax.
  - intros x Hx. cbn in Hx. subst. auto.
Qed.

(** ** what the parser returns can be displayed *)
Definition leafok (e : expr) : Prop :=
  match e with
  | EInt z => (0 <= z < 2 ^ 63)%Z
  | EFloat f => binary64 f /\ sign_of f = false
  | EStr s => ~ In 34 s
  | EIdent n | ELet n _ | ECall n _ | EField _ n => spelled (Tok KIdent n)
  | EUn t _ => spelled t /\ unary (tkind t)
  | EBin t _ _ => spelled t /\ binary (tkind t)
  | _ => True
  end.

Lemma everywhere_and (P Q R : expr -> Prop) e : (forall e, P e -> Q e -> R e) -> everywhere P e -> everywhere Q e -> everywhere R e.
Proof.
  intros I. induction e using expr_ind2; intros A B; apply everywhere_eq in A, B; apply everywhere_eq;
    destruct A as [A1 A2], B as [B1 B2]; (split; [now apply I|]); try tauto.
  - rewrite Forall_forall in *. auto.
  - rewrite Forall_forall in *. intros kv K. destruct (H _ K), (A2 _ K), (B2 _ K). auto.
  - rewrite Forall_forall in *. repeat split; try tauto.
    + intros x X. apply H; tauto || (try apply A2; try apply B2; auto).
    + apply Forall_forall. destruct A2 as (_ & _ & A2), B2 as (_ & _ & B2). rewrite Forall_forall in *. auto.
  - rewrite Forall_forall in *. auto.
Qed.

Ltac spell := repeat match goal with
  | H : Forall spelled (_ ++ _) |- _ => apply Forall_app in H; destruct H
  | H : Forall spelled (_ :: _) |- _ => inversion H; clear H; subst
  end.

Lemma spelled_string s : spelled (Tok KString s) -> ~ In 34 s.
Proof.
  intros [w S]. inversion S; subst;
    repeat match goal with H : In _ operators |- _ => unfold operators in H; simpl in H; decompose [or] H; clear H; try contradiction; try congruence
                         | H : In _ keywords |- _ => unfold keywords in H; simpl in H; decompose [or] H; clear H; try contradiction; try congruence end.
  match goal with H : In _ delimiters |- _ => unfold delimiters in H; simpl in H; destruct H as [[= <-]|[[=]|[]]] end. auto.
Qed.

Lemma leaves :
  (forall e w, syntax false e w -> Forall spelled w -> everywhere leafok e) /\
  (forall es w, syntax_list false es w -> Forall spelled w -> Forall (everywhere leafok) es) /\
  (forall ps w, syntax_pairs false ps w -> Forall spelled w -> Forall (fun kv => everywhere leafok (fst kv) /\ everywhere leafok (snd kv)) ps) /\
  (forall es w, syntax_block false es w -> Forall spelled w -> Forall (everywhere leafok) es).
Proof.
  apply (syntax_all false (fun e w _ => Forall spelled w -> everywhere leafok e) (fun es w _ => Forall spelled w -> Forall (everywhere leafok) es)
           (fun ps w _ => Forall spelled w -> Forall (fun kv => everywhere leafok (fst kv) /\ everywhere leafok (snd kv)) ps)
           (fun es w _ => Forall spelled w -> Forall (everywhere leafok) es)); intros; spell;
    try (apply everywhere_eq; split; cbn [leafok]; auto; fail);
    try (constructor; cbn [fst snd]; auto; fail).
  - apply everywhere_eq. split; [cbn [leafok]; lia|exact I].
  - apply everywhere_eq. split; [|exact I]. cbn [leafok]. destruct f0 as (a & b & _ & _ & _ & _ & R & S). split; [apply R|exact S].
  - apply everywhere_eq. split; [|exact I]. cbn [leafok]. now apply spelled_string.
Qed.

Lemma items_spelled is w i e : syntax_items is w -> Forall spelled w -> In i is -> in_item e i -> everywhere leafok e.
Proof.
  destruct leaves as (L1 & L2 & _ & L4).
  assert (One : forall i w, syntax_item false i w -> Forall spelled w -> in_item e i -> everywhere leafok e).
  { intros i0 w0 S F I. destruct S; cbn [in_item] in I; spell; subst; try contradiction; eauto.
    - pose proof (L2 _ _ H ltac:(assumption)) as X. rewrite Forall_forall in X. auto.
    - pose proof (L4 _ _ H ltac:(assumption)) as X. rewrite Forall_forall in X. auto. }
  induction 1; intros F Ii Ie; [destruct Ii| |]; spell; destruct Ii as [->|Ii]; eauto.
Qed.

Lemma wf_spelled w l : wf (w ++ [Tok KEof l]) -> Forall spelled w.
Proof.
  induction w as [|t w IH]; intros W; [constructor|]. cbn [app] in W. inversion W; subst; [destruct w; discriminate|]. constructor; auto.
Qed.

Lemma display_round_trip text src e : parse text = Ok src ->
  In e (s_exprs src) \/ (exists n m es, mget n (s_requests src) = Some (m, es) /\ In e es) \/
  (exists n b, mget n (s_tests src) = Some b /\ In e b) ->
  no_let_operand e -> fractional e -> no_number_field e ->
  exists src', parse (show_expr e) = Ok src' /\ s_exprs src' = [e] /\ s_requests src' = [] /\ s_tests src' = [].
Proof.
  intros H I N Ff Nf. pose proof (precedence_respected _ _ _ H I N) as P.
  apply show_parses; auto.
  destruct (parse_shape _ _ H) as (is & w & S & Si & E & G).
  assert (X : exists i, In i is /\ in_item e i).
  { subst src. rewrite collect_exprs, collect_requests, collect_tests in I. cbn [s_exprs s_requests s_tests app] in I.
    destruct I as [I|[(n & m & es & I & J)|(n & b & I & J)]].
    - apply in_flat_map in I. destruct I as (i & Ii & I). exists i. split; auto. destruct i; simpl in *; try contradiction.
      destruct I as [->|[]]; auto.
    - apply mget_some_in in I. apply mextend_in in I. destruct I as [[]|I].
      apply in_flat_map in I. destruct I as (i & Ii & I). exists i. split; auto. destruct i; simpl in *; try contradiction.
      destruct I as [[= _ _ ->]|[]]; auto.
    - apply mget_some_in in I. apply mextend_in in I. destruct I as [[]|I].
      apply in_flat_map in I. destruct I as (i & Ii & I). exists i. split; auto. destruct i; simpl in *; try contradiction.
      destruct I as [[= _ ->]|[]]; auto. }
  destruct X as (i & Ii & Ie).
  assert (Sp : Forall spelled w) by (eapply wf_spelled; rewrite <- S; apply wf_segment).
  pose proof (items_spelled _ _ _ _ Si Sp Ii Ie) as Lf.
  assert (A : everywhere (fun e => leafok e /\ match e with EField l _ => ~ is_let l /\ ~ is_unary l /\ ~ is_binary l | _ => True end) e).
  { refine (everywhere_and _ _ _ e _ Lf P). intros x Hx Hp. split; auto. destruct x; auto. }
  assert (B : everywhere (fun e => (forall f, e = EFloat f -> has_fraction f) /\ (forall z n, e <> EField (EInt z) n) /\ forall f n, e <> EField (EFloat f) n) e).
  { refine (everywhere_and _ _ _ e _ Ff Nf). auto. }
  refine (everywhere_and _ _ _ e _ A B). clear. intros e [A1 A2] (B1 & B2 & B3). destruct e; cbn [leafok lexok1] in *; auto.
  - destruct A1. auto.
  - repeat split; try tauto. destruct e; cbn; auto; [destruct (B2 z field)|destruct (B3 f field)]; auto.
Qed.
