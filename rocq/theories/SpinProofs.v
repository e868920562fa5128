(** What makes parsing never end: the tokens up to one [!], whatever follows *)
From Verif Require Import Parser SpecSyntax TextProofs LexerProofs ParserBase ParserSound ParserTop ParserFuel RejectProofs.
Open Scope nat_scope.

(** more fuel changes nothing *)
Record mono_at (n : nat) : Prop := {
  m_expr : forall m p ts, n <= m -> agree (parse_expr n p ts) (parse_expr m p ts);
  m_loop : forall m p l ts, n <= m -> agree (parse_loop n p l ts) (parse_loop m p l ts);
  m_let : forall m ts, n <= m -> agree (parse_let n ts) (parse_let m ts);
  m_unary : forall m ts, n <= m -> agree (parse_unary n ts) (parse_unary m ts);
  m_binary : forall m l ts, n <= m -> agree (parse_binary n l ts) (parse_binary m l ts);
  m_paren : forall m ts, n <= m -> agree (parse_paren n ts) (parse_paren m ts);
  m_if : forall m ts, n <= m -> agree (parse_if n ts) (parse_if m ts);
  m_call : forall m f ts, n <= m -> agree (parse_call n f ts) (parse_call m f ts);
  m_list : forall m stop ts, n <= m -> agree (parse_list n stop ts) (parse_list m stop ts);
  m_list_loop : forall m stop ts, n <= m -> agree (parse_list_loop n stop ts) (parse_list_loop m stop ts);
  m_array : forall m ts, n <= m -> agree (parse_array n ts) (parse_array m ts);
  m_map : forall m ts, n <= m -> agree (parse_map n ts) (parse_map m ts);
  m_map_loop : forall m ts, n <= m -> agree (parse_map_loop n ts) (parse_map_loop m ts);
  m_index : forall m l ts, n <= m -> agree (parse_index n l ts) (parse_index m l ts);
  m_block : forall m ts, n <= m -> agree (parse_block n ts) (parse_block m ts);
  m_block_loop : forall m ts, n <= m -> agree (parse_block_loop n ts) (parse_block_loop m ts)
}.

Ltac mgo IH :=
  repeat first
  [ apply agree_refl
  | apply (m_expr _ IH); lia | apply (m_loop _ IH); lia | apply (m_let _ IH); lia | apply (m_unary _ IH); lia | apply (m_binary _ IH); lia
  | apply (m_paren _ IH); lia | apply (m_if _ IH); lia | apply (m_call _ IH); lia | apply (m_list _ IH); lia | apply (m_list_loop _ IH); lia
  | apply (m_array _ IH); lia | apply (m_map _ IH); lia | apply (m_map_loop _ IH); lia | apply (m_index _ IH); lia
  | apply (m_block _ IH); lia | apply (m_block_loop _ IH); lia
  | apply agree_bind; [|intros ? ? _; cbv beta]
  | match goal with |- agree (if ?b then _ else _) _ => destruct b end
  | match goal with |- agree (match ?b with _ => _ end) _ => destruct b end ].

Lemma mono : forall n, mono_at n.
Proof.
  induction n as [|n IH]; [constructor; intros; intro; exfalso; auto|].
  constructor; intros m; intros; (destruct m as [|m]; [lia|]);
    cbn [parse_expr parse_loop parse_let parse_unary parse_binary parse_paren parse_if parse_call parse_list parse_list_loop parse_array
         parse_map parse_map_loop parse_index parse_block parse_block_loop]; cbv zeta; mgo IH.
Qed.

(** a parse that succeeds depends on what it has read and the token after it *)
Definition stable {A} (F : toks -> pres A) : Prop := forall ts a ts', ts <> [] -> F ts = POk a ts' ->
  exists p c r, ts = p ++ c :: r /\ ts' = c :: r /\ forall r', hd_error r' = hd_error r -> F (p ++ c :: r') = POk a (c :: r').

Lemma stable_bind {A B} (F : toks -> pres A) (G : A -> toks -> pres B) :
  stable F -> (forall a, stable (G a)) -> stable (fun ts => pbind (F ts) G).
Proof.
  intros SF SG ts b ts2 N H. destruct (F ts) as [a ts1|?|] eqn:E; try discriminate H. cbn [pbind] in H.
  destruct (SF _ _ _ N E) as (p & c & r & -> & -> & X).
  destruct (SG a (c :: r) b ts2 ltac:(discriminate) H) as (p2 & c2 & r2 & Q & -> & Y).
  destruct p2 as [|d p2]; cbn [app] in Q; injection Q as <- ->.
  - exists p, c, r2. repeat split; auto. intros r' Hr. rewrite (X _ Hr). cbn [pbind]. apply (Y r' Hr).
  - exists (p ++ c :: p2), c2, r2. split; [now rewrite <- app_assoc|]. split; auto. intros r' Hr. rewrite <- app_assoc. cbn [app].
    rewrite X by (destruct p2; reflexivity). cbn [pbind]. apply (Y r' Hr).
Qed.

Lemma stable_ret {A} (g : token -> A) : stable (fun ts => POk (g (current ts)) ts).
Proof. intros [|c r] a ts' N [= <- <-]; [congruence|]. exists [], c, r. auto. Qed.
Lemma stable_const {A} (v : A) : stable (fun ts => POk v ts).
Proof. exact (stable_ret (fun _ => v)). Qed.
Lemma stable_err {A} (g : toks -> perr) : stable (fun ts => PErr (A := A) (g ts)).
Proof. intros ts a ts' _ H. discriminate H. Qed.
Lemma stable_fuel {A} : stable (fun _ : toks => PFuel (A := A)).
Proof. intros ts a ts' _ H. discriminate H. Qed.

Lemma stable_next {A} (F : toks -> pres A) : stable F -> stable (fun ts => F (next ts)).
Proof.
  intros SF [|c [|d s]] a ts' N H; [congruence| |]; cbn [next] in H.
  - destruct (SF _ _ _ N H) as (p & c' & r & Q & -> & X). destruct p as [|x [|y p]]; try discriminate Q. injection Q as <- <-.
    exists [], c, []. repeat split; auto. intros [|? ?] Hr; [exact (X [] Hr)|discriminate].
  - destruct (SF (d :: s) _ _ ltac:(discriminate) H) as (p & c' & r & Q & -> & X). exists (c :: p), c', r. rewrite Q. repeat split; auto.
    intros r' Hr. cbn [app]. replace (next (c :: p ++ c' :: r')) with (p ++ c' :: r') by (destruct p; reflexivity). auto.
Qed.

(** choices on the current and on the next token *)
Lemma stable_view {A} (D : token -> option token -> toks -> pres A) : (forall t o, stable (D t o)) -> stable (fun ts => D (current ts) (peek ts) ts).
Proof.
  intros SD [|c r] a ts' N H; [congruence|]. destruct (SD _ _ _ _ _ N H) as (p & c' & r' & Q & -> & X). exists p, c', r'. repeat split; auto.
  assert (PK : forall s, peek (c :: s) = hd_error s) by (intros [|? ?]; reflexivity). rewrite PK in X. cbn [current] in X.
  intros r2 Hr. destruct p as [|x p]; cbn [app] in *; injection Q as <- ->; cbn [current].
  - rewrite PK, Hr. auto.
  - rewrite PK. replace (hd_error (p ++ c' :: r2)) with (hd_error (p ++ c' :: r')) by (destruct p; reflexivity). auto.
Qed.

Lemma stable_expect k : stable (expect k).
Proof.
  intros [|c [|t r]] a ts' N H; [congruence|discriminate H|]. unfold expect in H. cbn [peek next] in H.
  destruct (kind_eqb k (tkind t)) eqn:K; [|discriminate H]. injection H as <- <-. exists [c], t, r. repeat split; auto.
  intros r' _. unfold expect. cbn [app peek next]. rewrite K. reflexivity.
Qed.

Lemma stable_ext {A} (F G : toks -> pres A) : (forall ts, G ts = F ts) -> stable F -> stable G.
Proof.
  intros E S ts a ts' N H. rewrite E in H. destruct (S _ _ _ N H) as (p & c & r & Q & R & X). exists p, c, r. repeat split; auto.
  intros r' Hr. rewrite E. auto.
Qed.

Lemma stable_semi {A} (v : A) : stable (fun ts => POk v (skip_semi ts)).
Proof.
  intros [|c [|t r]] a ts' N H; [congruence| |]; unfold skip_semi, peek_is in H; cbn [peek next] in H.
  - injection H as <- <-. exists [], c, []. repeat split; auto. intros [|? ?] Hr; [reflexivity|discriminate].
  - destruct (kind_eqb KSemi (tkind t)) eqn:K; injection H as <- <-.
    + exists [c], t, r. repeat split; auto. intros r' _. unfold skip_semi, peek_is. cbn [app peek next]. now rewrite K.
    + exists [], c, (t :: r). repeat split; auto. intros [|t' r'] Hr; [discriminate|]. injection Hr as ->.
      unfold skip_semi, peek_is. cbn [app peek next]. now rewrite K.
Qed.
Lemma stable_skip {A} (F : toks -> pres A) : stable F -> stable (fun ts => F (skip_semi ts)).
Proof. intros S. exact (stable_bind (fun ts => POk tt (skip_semi ts)) (fun _ => F) (stable_semi tt) (fun _ => S)). Qed.

Lemma stable_if {A} k (F G : toks -> pres A) : stable F -> stable G -> stable (fun ts => if peek_is k ts then F ts else G ts).
Proof.
  intros SF SG. apply (stable_view (fun _ o ts => if match o with Some t => kind_eqb k (tkind t) | None => false end then F ts else G ts)).
  intros t o. destruct (match o with Some t => kind_eqb k (tkind t) | None => false end); auto.
Qed.

Record stable_at (n : nat) : Prop := {
  st_expr : forall p, stable (parse_expr n p);
  st_loop : forall p l, stable (parse_loop n p l);
  st_let : stable (parse_let n);
  st_unary : stable (parse_unary n);
  st_binary : forall l, stable (parse_binary n l);
  st_paren : stable (parse_paren n);
  st_if : stable (parse_if n);
  st_call : forall f, stable (parse_call n f);
  st_list : forall stop, stable (parse_list n stop);
  st_list_loop : forall stop, stable (parse_list_loop n stop);
  st_array : stable (parse_array n);
  st_map : stable (parse_map n);
  st_map_loop : stable (parse_map_loop n);
  st_index : forall l, stable (parse_index n l);
  st_block : stable (parse_block n);
  st_block_loop : stable (parse_block_loop n)
}.

Ltac stgo IH :=
  repeat first
  [ apply stable_const | apply stable_semi | apply stable_err | apply stable_fuel | apply stable_expect
  | apply (st_expr _ IH) | apply (st_loop _ IH) | apply (st_let _ IH) | apply (st_unary _ IH) | apply (st_binary _ IH) | apply (st_paren _ IH)
  | apply (st_if _ IH) | apply (st_call _ IH) | apply (st_list _ IH) | apply (st_list_loop _ IH) | apply (st_array _ IH) | apply (st_map _ IH)
  | apply (st_map_loop _ IH) | apply (st_index _ IH) | apply (st_block _ IH) | apply (st_block_loop _ IH)
  | apply stable_bind; [|intros ?; cbv beta]
  | apply stable_if
  | apply (stable_next (parse_expr _ _)) | apply (stable_next (parse_block _)) | apply (stable_next (parse_list _ _)) | apply (stable_next (parse_call _ _))
  | apply (stable_next (parse_index _ _)) | apply (stable_next (parse_binary _ _))
  | apply (stable_skip (parse_block_loop _)) ].

Lemma stable_field l : stable (parse_field l).
Proof. apply stable_bind; [apply stable_expect|intros _]. exact (stable_ret (fun t => EField l (tlit t))). Qed.

Lemma stable_lit (g : token -> pres expr) (f : toks -> pres expr) :
  (forall ts, f ts = match g (current ts) with POk e _ => POk e ts | PErr er => PErr er | PFuel => PFuel end) -> stable f.
Proof.
  intros E. eapply stable_ext; [exact E|]. apply (stable_view (fun t _ ts => match g t with POk e _ => POk e ts | PErr er => PErr er | PFuel => PFuel end)).
  intros t _. destruct (g t); [apply stable_const|apply stable_err|apply stable_fuel].
Qed.
Lemma stable_int : stable parse_integer_literal.
Proof.
  apply (stable_lit (fun t => parse_integer_literal [t])). intros ts. unfold parse_integer_literal. cbn [current].
  destruct (digits_val 0 _); [destruct (_ <=? _)%Z|]; reflexivity.
Qed.
Lemma stable_float : stable parse_float_literal.
Proof. apply (stable_lit (fun t => parse_float_literal [t])). intros ts. unfold parse_float_literal. cbn [current]. destruct (parse_f64 _); reflexivity. Qed.
Lemma stable_bool : stable parse_boolean_literal.
Proof.
  apply (stable_lit (fun t => parse_boolean_literal [t])). intros ts. unfold parse_boolean_literal. cbn [current].
  destruct (str_eqb _ _); [reflexivity|]. destruct (str_eqb _ _); reflexivity.
Qed.

Lemma stables : forall n, stable_at n.
Proof.
  induction n as [|n IH]; [constructor; intros; intros ts a ts' _ H; discriminate H|].
  constructor; intros; cbn [parse_expr parse_loop parse_let parse_unary parse_binary parse_paren parse_if parse_call parse_list parse_list_loop parse_array
         parse_map parse_map_loop parse_index parse_block parse_block_loop]; cbv zeta; try solve [stgo IH].
  - apply (stable_view (fun t _ ts =>
      match tkind t with
      | KIdent => parse_loop n p (EIdent (tlit t)) ts
      | KInteger => pbind (parse_integer_literal ts) (fun e ts => parse_loop n p e ts)
      | KFloat => pbind (parse_float_literal ts) (fun e ts => parse_loop n p e ts)
      | KTrue | KFalse => pbind (parse_boolean_literal ts) (fun e ts => parse_loop n p e ts)
      | KString => parse_loop n p (EStr (tlit t)) ts
      | KLet => pbind (parse_let n ts) (fun e ts => parse_loop n prec_max e ts)
      | KNot | KSub => pbind (parse_unary n ts) (fun e ts => parse_loop n p e ts)
      | KLp => pbind (parse_paren n ts) (fun e ts => parse_loop n p e ts)
      | KIf => pbind (parse_if n ts) (fun e ts => parse_loop n p e ts)
      | KLs => pbind (parse_array n ts) (fun e ts => parse_loop n p e ts)
      | KLb => pbind (parse_map n ts) (fun e ts => parse_loop n p e ts)
      | _ => PErr (EBadExpr (tlit t))
      end)).
    intros t _. destruct (tkind t); try solve [stgo IH]; (apply stable_bind; [first [apply stable_int|apply stable_float|apply stable_bool]|intros ?; cbv beta]; stgo IH).
  - apply (stable_view (fun _ o ts =>
      if negb (has KSemi o) && (p <? match o with Some t => precedence (tkind t) | None => 0 end)%N then
        match o with
        | Some t =>
            if is_binop (tkind t) then pbind (parse_binary n l (next ts)) (fun e ts => parse_loop n p e ts)
            else
              match tkind t with
              | KLp => pbind (parse_call n l (next ts)) (fun e ts => parse_loop n p e ts)
              | KLs => pbind (parse_index n l (next ts)) (fun e ts => parse_loop n p e ts)
              | KDot => pbind (parse_field l (next ts)) (fun e ts => parse_loop n p e ts)
              | _ => parse_loop n p l ts
              end
        | None => parse_loop n p l ts
        end
      else POk l ts)).
    intros _ o. destruct (negb (has KSemi o) && _); [|stgo IH]. destruct o as [t|]; [|stgo IH].
    destruct (is_binop (tkind t)); [stgo IH|]. destruct (tkind t); try solve [stgo IH].
    apply stable_bind; [apply (stable_next (parse_field l)), stable_field|intros ?; cbv beta; stgo IH].
  - apply stable_bind; [stgo IH|intros ?; cbv beta].
    apply (stable_view (fun t _ ts => pbind (expect KAssign ts) (fun _ ts0 => pbind (parse_expr n prec_min (next ts0)) (fun v ts1 => POk (ELet (tlit t) v) (skip_semi ts1))))).
    intros t _. stgo IH.
  - apply (stable_view (fun t _ ts => pbind (parse_expr n (precedence (tkind t) + (if kind_eqb (tkind t) KSub then 2 else 0))%N (next ts)) (fun r ts => POk (EUn t r) ts))).
    intros t _. stgo IH.
  - apply (stable_view (fun t _ ts => pbind (parse_expr n (precedence (tkind t)) (next ts)) (fun r ts => POk (EBin t l r) ts))).
    intros t _. stgo IH.
  - apply stable_bind; [stgo IH|intros es]. destruct f; first [apply stable_const|apply stable_err].
Qed.

(** [spun x F ts]: read after [x], some tokens of [ts] up to a [!] that follows
    an expression keep [F] busy for ever *)
Definition spun {A} (x : toks) (F : nat -> toks -> pres A) (ts : toks) : Prop :=
  exists p t q, ts = p ++ t :: q /\ p <> [] /\ tkind t = KNot /\ spelled t /\ (exists y e w, x ++ p = y ++ w /\ syntax false e w) /\
    forall n q', F n (p ++ t :: q') = PFuel.

Definition coherent {A} (F : nat -> toks -> pres A) : Prop := forall n m ts, n <= m -> agree (F n ts) (F m ts).

Lemma spun_bind {A B} (m : nat) x (F : nat -> toks -> pres A) (G : nat -> A -> toks -> pres B) ts :
  ts <> [] -> coherent F -> stable (F m) -> pbind (F m ts) (G m) = PFuel -> (F m ts = PFuel -> spun x F ts) ->
  (forall a p c r, F m ts = POk a (c :: r) -> ts = p ++ c :: r -> G m a (c :: r) = PFuel -> spun (x ++ p) (fun n => G n a) (c :: r)) ->
  spun x (fun n ts => pbind (F n ts) (G n)) ts.
Proof.
  intros N C S H HF HG. destruct (F m ts) as [a ts'|?|] eqn:E; [|discriminate H|].
  - cbn [pbind] in H. destruct (S _ _ _ N E) as (p & c & r & -> & -> & X).
    destruct (HG a p c r eq_refl eq_refl H) as (p2 & t & q & Q & N2 & K & Sp & En & Y).
    destruct p2 as [|d p3]; [congruence|]. cbn [app] in Q. injection Q as <- ->.
    exists (p ++ c :: p3), t, q. split; [now rewrite <- app_assoc|]. split; [destruct p; discriminate|]. split; [auto|]. split; [auto|].
    split; [destruct En as (y & e & w & En & Sy); exists y, e, w; split; auto; now rewrite <- En, app_assoc|].
    intros n q'. rewrite <- app_assoc. cbn [app].
    assert (Em : F m (p ++ c :: p3 ++ t :: q') = POk a (c :: p3 ++ t :: q')) by (apply X; destruct p3; reflexivity).
    assert (D : F n (p ++ c :: p3 ++ t :: q') = PFuel \/ F n (p ++ c :: p3 ++ t :: q') = POk a (c :: p3 ++ t :: q')).
    { destruct (Nat.le_ge_cases n m) as [Le|Le].
      - pose proof (C n m (p ++ c :: p3 ++ t :: q') Le) as Ag. destruct (F n (p ++ c :: p3 ++ t :: q')); auto; right; rewrite Em in Ag; rewrite Ag by discriminate; reflexivity.
      - right. rewrite <- Em. apply C; auto. congruence. }
    destruct D as [D|D]; rewrite D; cbn [pbind]; [reflexivity|]. apply Y.
  - destruct (HF eq_refl) as (p & t & q & Q & Np & K & Sp & En & Y). exists p, t, q. split; [auto|]. split; [auto|]. split; [auto|]. split; [auto|]. split; [auto|].
    intros n q'. rewrite Y. reflexivity.
Qed.

Lemma spun_view {A} x (F G : nat -> toks -> pres A) c r : (forall n s, hd_error s = hd_error r -> F n (c :: s) = G n (c :: s)) -> spun x G (c :: r) -> spun x F (c :: r).
Proof.
  intros E (p & t & q & Q & N & K & Sp & En & Y). exists p, t, q. split; [auto|]. split; [auto|]. split; [auto|]. split; [auto|]. split; [auto|].
  intros n q'. destruct p as [|d p]; [congruence|]. cbn [app] in Q |- *. injection Q as <- ->. rewrite E by (destruct p; reflexivity). apply Y.
Qed.

Lemma spun_S {A} x (F : nat -> toks -> pres A) ts : (forall ts, F 0 ts = PFuel) -> spun x (fun n => F (S n)) ts -> spun x F ts.
Proof.
  intros Z (p & t & q & Q & N & K & Sp & En & Y). exists p, t, q. split; [auto|]. split; [auto|]. split; [auto|]. split; [auto|]. split; [auto|].
  intros [|n] q'; auto.
Qed.

Lemma spun_next {A} x (F : nat -> toks -> pres A) c r : spun (x ++ [c]) F r -> spun x (fun n ts => F n (next ts)) (c :: r).
Proof.
  intros (p & t & q & Q & N & K & Sp & (y & e & w & En & Sy) & Y). exists (c :: p), t, q. split; [now rewrite Q|]. split; [discriminate|]. split; [auto|]. split; [auto|].
  split; [exists y, e, w; split; auto; now rewrite <- En, <- app_assoc|].
  intros n q'. cbn [app]. replace (next (c :: p ++ t :: q')) with (p ++ t :: q') by (destruct p; reflexivity). auto.
Qed.

Lemma spun_if {A} x k (F G : nat -> toks -> pres A) c r :
  (if peek_is k (c :: r) then spun x F (c :: r) else spun x G (c :: r)) -> spun x (fun n ts => if peek_is k ts then F n ts else G n ts) (c :: r).
Proof.
  assert (PK : forall s, hd_error s = hd_error r -> peek_is k (c :: s) = peek_is k (c :: r)).
  { intros s Hs. unfold peek_is. destruct s, r; cbn in *; try discriminate Hs; auto. now injection Hs as ->. }
  destruct (peek_is k (c :: r)); intros Sp; (eapply spun_view; [|exact Sp]); intros n s Hs; cbv beta; now rewrite PK.
Qed.

Lemma spun_cur {A} x (D : token -> nat -> toks -> pres A) c r : spun x (D c) (c :: r) -> spun x (fun n ts => D (current ts) n ts) (c :: r).
Proof. intros Sp. eapply spun_view; [|exact Sp]. reflexivity. Qed.

Lemma coherent_const {A} (F : toks -> pres A) : coherent (fun _ => F).
Proof. intros n m ts _ _. reflexivity. Qed.

Lemma spun_next_live {A} x (F : nat -> toks -> pres A) ts : live ts -> spun (x ++ [current ts]) F (next ts) -> spun x (fun n ts => F n (next ts)) ts.
Proof. intros (c & r & -> & S & W). destruct r as [|d r]; [inversion W|]. cbn [current next]. apply spun_next. Qed.
Lemma spun_skip {A} x (F : nat -> toks -> pres A) ts : live ts -> (forall y, spun y F (skip_semi ts)) -> spun x (fun n ts => F n (skip_semi ts)) ts.
Proof.
  intros (c & r & -> & S & W) Sp. destruct r as [|d r]; [inversion W|]. unfold skip_semi in *.
  apply (spun_view x (fun n ts => F n (if peek_is KSemi ts then next ts else ts)) (if peek_is KSemi (c :: d :: r) then fun n ts => F n (next ts) else F)).
  - intros n s Hs. unfold peek_is. destruct s as [|d' s]; [discriminate|]. injection Hs as ->. cbn [peek]. destruct (kind_eqb KSemi (tkind d)); reflexivity.
  - destruct (peek_is KSemi (c :: d :: r)); [|apply Sp]. apply spun_next. apply Sp.
Qed.
Lemma spun_if_live {A} x k (F G : nat -> toks -> pres A) ts : live ts ->
  (if peek_is k ts then spun x F ts else spun x G ts) -> spun x (fun n ts => if peek_is k ts then F n ts else G n ts) ts.
Proof. intros (c & r & -> & S & W). apply spun_if. Qed.
Lemma spun_cur_live {A} x (D : token -> nat -> toks -> pres A) ts : live ts -> spun x (D (current ts)) ts -> spun x (fun n ts => D (current ts) n ts) ts.
Proof. intros (c & r & -> & S & W). apply spun_cur. Qed.
Lemma live_ne ts : live ts -> ts <> [].
Proof. intros (c & r & -> & _). discriminate. Qed.
Lemma wf_not_nil ts : wf ts -> ts <> [].
Proof. intros W ->. inversion W. Qed.

Record spin_at (m : nat) : Prop := {
  sp_expr : forall x p ts, wf ts -> 4 * length ts + 4 <= m -> parse_expr m p ts = PFuel -> spun x (fun n => parse_expr n p) ts;
  sp_loop : forall x p l ts y w0, live ts -> 4 * length ts + 3 <= m -> x ++ [current ts] = y ++ w0 -> syntax false l w0 ->
    parse_loop m p l ts = PFuel -> spun x (fun n => parse_loop n p l) ts;
  sp_let : forall x ts, live ts -> 4 * length ts + 3 <= m -> parse_let m ts = PFuel -> spun x parse_let ts;
  sp_unary : forall x ts, live ts -> 4 * length ts + 3 <= m -> parse_unary m ts = PFuel -> spun x parse_unary ts;
  sp_binary : forall x l ts, live ts -> 4 * length ts + 3 <= m -> parse_binary m l ts = PFuel -> spun x (fun n => parse_binary n l) ts;
  sp_paren : forall x ts, live ts -> 4 * length ts + 3 <= m -> parse_paren m ts = PFuel -> spun x parse_paren ts;
  sp_if : forall x ts, live ts -> 4 * length ts + 3 <= m -> parse_if m ts = PFuel -> spun x parse_if ts;
  sp_call : forall x f ts, live ts -> 4 * length ts + 3 <= m -> parse_call m f ts = PFuel -> spun x (fun n => parse_call n f) ts;
  sp_list : forall x stop ts, live ts -> 4 * length ts + 2 <= m -> parse_list m stop ts = PFuel -> spun x (fun n => parse_list n stop) ts;
  sp_list_loop : forall x stop ts, live ts -> 4 * length ts + 1 <= m -> parse_list_loop m stop ts = PFuel -> spun x (fun n => parse_list_loop n stop) ts;
  sp_array : forall x ts, live ts -> 4 * length ts + 3 <= m -> parse_array m ts = PFuel -> spun x parse_array ts;
  sp_map : forall x ts, live ts -> 4 * length ts + 3 <= m -> parse_map m ts = PFuel -> spun x parse_map ts;
  sp_map_loop : forall x ts, live ts -> 4 * length ts + 2 <= m -> parse_map_loop m ts = PFuel -> spun x parse_map_loop ts;
  sp_index : forall x l ts, live ts -> 4 * length ts + 3 <= m -> parse_index m l ts = PFuel -> spun x (fun n => parse_index n l) ts;
  sp_block : forall x ts, live ts -> 4 * length ts + 3 <= m -> parse_block m ts = PFuel -> spun x parse_block ts;
  sp_block_loop : forall x ts, live ts -> 4 * length ts + 1 <= m -> parse_block_loop m ts = PFuel -> spun x parse_block_loop ts
}.

Ltac coh :=
  let n := fresh "n" in let m := fresh "m" in let ts := fresh "ts" in let H := fresh "H" in
  intros n m ts H; cbv beta; first [apply agree_refl | solve [mgo (mono n)]].

Lemma expect_no_fuel k ts : expect k ts <> PFuel.
Proof. unfold expect. destruct (peek ts); [destruct (kind_eqb _ _)|]; discriminate. Qed.

Ltac spdone m IH :=
  first
  [ match goal with
    | H : expect _ _ = PFuel |- _ => destruct (expect_no_fuel _ _ H)
    | H : POk _ _ = PFuel |- _ => discriminate H
    | H : PErr _ = PFuel |- _ => discriminate H
    end
  | match goal with
    | H : parse_expr m _ (next _) = PFuel |- _ => apply (spun_next_live _ (fun n => parse_expr n _)); [assumption|]; apply (sp_expr _ IH); [assumption|lia|exact H]
    | H : parse_list m _ (next _) = PFuel |- _ => apply (spun_next_live _ (fun n => parse_list n _)); [assumption|]; apply (sp_list _ IH); [assumption|lia|exact H]
    | H : parse_block m (next _) = PFuel |- _ => apply (spun_next_live _ parse_block); [assumption|]; apply (sp_block _ IH); [assumption|lia|exact H]
    | H : parse_call m _ (next _) = PFuel |- _ => apply (spun_next_live _ (fun n => parse_call n _)); [assumption|]; apply (sp_call _ IH); [assumption|lia|exact H]
    | H : parse_index m _ (next _) = PFuel |- _ => apply (spun_next_live _ (fun n => parse_index n _)); [assumption|]; apply (sp_index _ IH); [assumption|lia|exact H]
    | H : parse_binary m _ (next _) = PFuel |- _ => apply (spun_next_live _ (fun n => parse_binary n _)); [assumption|]; apply (sp_binary _ IH); [assumption|lia|exact H]
    | H : parse_block_loop m (skip_semi _) = PFuel |- _ => apply (spun_skip _ parse_block_loop); [assumption|]; intros ?; apply (sp_block_loop _ IH); [assumption|lia|exact H]
    | H : parse_expr m _ _ = PFuel |- _ => apply (sp_expr _ IH); [assumption|lia|exact H]
    | H : parse_let m _ = PFuel |- _ => apply (sp_let _ IH); [assumption|lia|exact H]
    | H : parse_unary m _ = PFuel |- _ => apply (sp_unary _ IH); [assumption|lia|exact H]
    | H : parse_paren m _ = PFuel |- _ => apply (sp_paren _ IH); [assumption|lia|exact H]
    | H : parse_if m _ = PFuel |- _ => apply (sp_if _ IH); [assumption|lia|exact H]
    | H : parse_list m _ _ = PFuel |- _ => apply (sp_list _ IH); [assumption|lia|exact H]
    | H : parse_list_loop m _ _ = PFuel |- _ => apply (sp_list_loop _ IH); [assumption|lia|exact H]
    | H : parse_array m _ = PFuel |- _ => apply (sp_array _ IH); [assumption|lia|exact H]
    | H : parse_map m _ = PFuel |- _ => apply (sp_map _ IH); [assumption|lia|exact H]
    | H : parse_map_loop m _ = PFuel |- _ => apply (sp_map_loop _ IH); [assumption|lia|exact H]
    | H : parse_block m _ = PFuel |- _ => apply (sp_block _ IH); [assumption|lia|exact H]
    | H : parse_block_loop m _ = PFuel |- _ => apply (sp_block_loop _ IH); [assumption|lia|exact H]
    end ].

(** one step of a sequence: the first part never ends, or it is done *)
Ltac sstep m IH H :=
  apply (spun_bind m);
  [ first [apply live_ne; assumption | apply wf_not_nil; assumption]
  | coh
  | cbv beta; stgo (stables m)
  | exact H
  | let E := fresh "E" in intros E; cbv beta in E; try spdone m IH
  | clear H; let a := fresh "a" in let p := fresh "p" in let c := fresh "c" in let r := fresh "r" in let E := fresh "E" in let Q := fresh "Q" in
    intros a p c r E Q H; cbv beta in E, H |- *; let Z := constr:(size m) in learn Z E; tails; semis; tails; try spdone m IH ].

Lemma spins : forall m, spin_at m.
Proof.
  induction m as [|m IH]; [constructor; intros; lia|]. constructor.
  - intros x p ts W B H. apply spun_S; [reflexivity|].
    assert (KE : tkind (current ts) <> KEof) by (intros X; cbn [parse_expr] in H; rewrite X in H; discriminate H).
    pose proof (wf_live _ W KE) as L. destruct L as (c & r & -> & S1 & W1). pose proof (live_cons _ _ S1 W1) as L. cbn [parse_expr current] in H, KE |- *.
    apply (spun_cur_live x (fun t n ts =>
      match tkind t with
      | KIdent => parse_loop n p (EIdent (tlit t)) ts
      | KInteger => pbind (parse_integer_literal ts) (fun e ts => parse_loop n p e ts)
      | KFloat => pbind (parse_float_literal ts) (fun e ts => parse_loop n p e ts)
      | KTrue | KFalse => pbind (parse_boolean_literal ts) (fun e ts => parse_loop n p e ts)
      | KString => parse_loop n p (EStr (tlit t)) ts
      | KLet => pbind (parse_let n ts) (fun e ts => parse_loop n prec_max e ts)
      | KNot | KSub => pbind (parse_unary n ts) (fun e ts => parse_loop n p e ts)
      | KLp => pbind (parse_paren n ts) (fun e ts => parse_loop n p e ts)
      | KIf => pbind (parse_if n ts) (fun e ts => parse_loop n p e ts)
      | KLs => pbind (parse_array n ts) (fun e ts => parse_loop n p e ts)
      | KLb => pbind (parse_map n ts) (fun e ts => parse_loop n p e ts)
      | _ => PErr (EBadExpr (tlit t))
      end)); [assumption|]. cbn [current].
    assert (After : forall pr v p1 c1 r1 w, eats (c :: r) w (c1 :: r1) -> syntax false v w -> c :: r = p1 ++ c1 :: r1 -> live (c1 :: r1) ->
      length (c1 :: r1) <= length (c :: r) -> parse_loop m pr v (c1 :: r1) = PFuel -> spun (x ++ p1) (fun n => parse_loop n pr v) (c1 :: r1)).
    { intros pr v p1 c1 r1 w A Sx Q L1 Z H1. destruct (eats_at _ _ _ _ _ A Q) as (-> & _).
      apply (sp_loop _ IH) with (y := x) (w0 := p1 ++ [c1]); auto; [lia|]. cbn [current]. now rewrite <- app_assoc. }
    assert (Lit : forall pr v (F : toks -> pres expr), stable F -> (forall r', F (c :: r') = POk v (c :: r')) -> syntax false v [c] ->
      pbind (F (c :: r)) (fun e ts => parse_loop m pr e ts) = PFuel -> spun x (fun n ts => pbind (F ts) (fun e ts => parse_loop n pr e ts)) (c :: r)).
    { intros pr v F SF HF Sv HH. apply (spun_bind m x (fun _ => F)); [discriminate|apply coherent_const|exact SF|exact HH|rewrite HF; discriminate|].
      intros v' p1 c1 r1 E Q H1. rewrite HF in E. injection E as <- <- <-. assert (p1 = []) by (apply (app_inv_tail (c :: r)); symmetry; exact Q). subst p1.
      rewrite app_nil_r. apply (sp_loop _ IH) with (y := x) (w0 := [c]); auto. lia. }
    destruct (tkind c) eqn:K; try discriminate H; cbv beta iota.
    + apply (sp_loop _ IH) with (y := x) (w0 := [c]); auto; [lia|]. rewrite (tok_eta _ _ K) at 2. constructor.
    + destruct (digits_val 0 (tlit c)) as [z|] eqn:D; [|unfold parse_integer_literal in H; cbn [current] in H; rewrite D in H; discriminate H].
      pose proof (digits_val_digits _ _ _ D) as DD. rewrite (digits_val_decimal _ DD) in D. injection D as <-.
      destruct (Z.of_N (decimal (tlit c)) <=? i64_max)%Z eqn:Le;
        [|unfold parse_integer_literal in H; cbn [current] in H; rewrite (digits_val_decimal _ DD), Le in H; discriminate H].
      apply (Lit p (EInt (Z.of_N (decimal (tlit c))))); auto using stable_int.
      * intros r'. unfold parse_integer_literal. cbn [current]. rewrite (digits_val_decimal _ DD), Le. reflexivity.
      * rewrite (tok_eta _ _ K) at 2. constructor; auto; [now apply spelled_integer|]. unfold i64_max in Le. apply Z.leb_le in Le. lia.
    + destruct (parse_f64 (tlit c)) as [f|] eqn:D; [|unfold parse_float_literal in H; cbn [current] in H; rewrite D in H; discriminate H].
      apply (Lit p (EFloat f)); auto using stable_float.
      * intros r'. unfold parse_float_literal. cbn [current]. rewrite D. reflexivity.
      * rewrite (tok_eta _ _ K). constructor. now apply FloatLiteral.parse_f64_iff.
    + apply (Lit p (EBool true)); auto using stable_bool; rewrite (opt c _ _ S1 K ltac:(inop)); [reflexivity|constructor].
    + apply (Lit p (EBool false)); auto using stable_bool; rewrite (opt c _ _ S1 K ltac:(inop)); [reflexivity|constructor].
    + apply (sp_loop _ IH) with (y := x) (w0 := [c]); auto; [lia|]. rewrite (tok_eta _ _ K) at 2. constructor.
    + sstep m IH H. destruct (so_unary _ (sound m) _ _ _ L ltac:(right; auto) E) as ((w & A & Sx & _) & _). eauto.
    + sstep m IH H. destruct (so_unary _ (sound m) _ _ _ L ltac:(left; auto) E) as ((w & A & Sx & _) & _). eauto.
    + sstep m IH H. destruct (so_paren _ (sound m) _ _ _ L K E) as ((w & A & Sx & _) & _). eauto.
    + sstep m IH H. destruct (so_map _ (sound m) _ _ _ L K E) as ((w & A & Sx & _) & _). eauto.
    + sstep m IH H. destruct (so_array _ (sound m) _ _ _ L K E) as ((w & A & Sx & _) & _). eauto.
    + sstep m IH H. destruct (so_let _ (sound m) _ _ _ L K E) as ((w & A & Sx & _) & _). eauto.
    + sstep m IH H. destruct (so_if _ (sound m) _ _ _ L K E) as ((w & A & Sx & _) & _). eauto.
  - intros x p l ts y w0 L B X Sx H. destruct L as (c & r & -> & S0 & W0). pose proof (live_cons _ _ S0 W0) as L. cbn [current] in X.
    destruct r as [|t r]; [inversion W0|].
    apply spun_S; [reflexivity|]. cbn [parse_loop] in H |- *.
    destruct (negb (peek_is KSemi (c :: t :: r)) && (p <? peek_precedence (c :: t :: r))%N) eqn:C; [|discriminate H].
    assert (C' : forall s, negb (peek_is KSemi (c :: t :: s)) && (p <? peek_precedence (c :: t :: s))%N = true) by (intros s; exact C).
    assert (P0 : (0 < precedence (tkind t))%N).
    { apply andb_true_iff in C. destruct C as [_ C]. apply N.ltb_lt in C. unfold peek_precedence in C. cbn [peek] in C. lia. }
    cbn [peek] in H.
    apply (spun_view x _ (fun n ts =>
        if is_binop (tkind t) then pbind (parse_binary n l (next ts)) (fun e ts => parse_loop n p e ts)
        else
          match tkind t with
          | KLp => pbind (parse_call n l (next ts)) (fun e ts => parse_loop n p e ts)
          | KLs => pbind (parse_index n l (next ts)) (fun e ts => parse_loop n p e ts)
          | KDot => pbind (parse_field l (next ts)) (fun e ts => parse_loop n p e ts)
          | _ => parse_loop n p l ts
          end)).
    { intros n s Hs. destruct s as [|t' s]; [discriminate|]. injection Hs as ->. rewrite C'. cbn [peek]. reflexivity. }
    assert (KE : tkind t <> KEof) by (intros KX; rewrite KX in P0; cbn in P0; lia).
    destruct (wf_hd _ _ W0 KE) as [S1 W1]. pose proof (live_cons _ _ S1 W1) as L1.
    assert (LN : live (next (c :: t :: r))) by exact L1.
    assert (ZN : length (next (c :: t :: r)) + 1 = length (c :: t :: r)) by (cbn; lia).
    assert (ST : forall w, c :: t :: w = [c] ++ t :: w) by reflexivity.
    assert (AT : forall (p1 : toks) c1 r1 w e, c :: t :: r = p1 ++ c1 :: r1 -> eats (t :: r) (t :: w) (c1 :: r1) -> syntax false e (w0 ++ t :: w) ->
      live (c1 :: r1) -> length (c1 :: r1) <= length (next (c :: t :: r)) ->
      parse_loop m p e (c1 :: r1) = PFuel -> spun (x ++ p1) (fun n => parse_loop n p e) (c1 :: r1)).
    { intros p1 c1 r1 w e Q A Se L2 Z2 H2. apply (sp_loop _ IH) with (y := y) (w0 := w0 ++ t :: w); auto; [lia|]. cbn [current].
      destruct A as (u & t' & r0 & E & [= <- <-] & E2 & S' & W').
      assert (p1 = c :: u). { apply (app_inv_tail (c1 :: r1)). rewrite <- Q, E. reflexivity. } subst p1.
      rewrite <- app_assoc. cbn [app]. rewrite <- E2. rewrite ST, !app_assoc, X. reflexivity. }
    destruct (is_binop (tkind t)) eqn:Bo.
    + sstep m IH H. change (next (c :: t :: r)) with (t :: r) in E.
      destruct (so_binary _ (sound m) _ _ _ _ L1 E) as (rr & w & -> & A & Sr & _). cbn [current] in *.
      eapply AT; eauto. constructor; auto. now apply binary_iff.
    + destruct (precedence_cases _ P0) as [Bx|[K|[K|[K|K]]]]; [congruence| | | |]; rewrite K in H |- *; cbv beta iota in H |- *.
      * exists [c], t, r. split; [reflexivity|]. split; [discriminate|]. split; [auto|]. split; [auto|]. split; [exists y, l, w0; auto|].
        intros n q'. cbn [app]. induction n as [|n IHn]; [reflexivity|]. cbn [parse_loop]. rewrite C'. cbn [peek]. rewrite K. cbn [is_binop]. exact IHn.
      * sstep m IH H. change (next (c :: t :: r)) with (t :: r) in E.
        destruct (so_call _ (sound m) _ _ _ _ L1 K E) as (nm & es & w & -> & -> & A & Sl & _).
        pose proof (opt t _ (lit "(") S1 K ltac:(inop)) as Ht. unfold op in A. rewrite <- Ht in A.
        eapply AT; eauto. inversion Sx; subst. cbn [app]. now constructor.
      * sstep m IH H. change (next (c :: t :: r)) with (t :: r) in E.
        destruct (so_index _ (sound m) _ _ _ _ L1 K E) as (i & w & -> & A & Si & _).
        pose proof (opt t _ (lit "[") S1 K ltac:(inop)) as Ht. unfold op in A. rewrite <- Ht in A.
        eapply AT; eauto. rewrite Ht. now constructor.
      * apply (spun_bind m x (fun _ ts => parse_field l (next ts))); [discriminate|apply coherent_const|apply (stable_next (parse_field l)), stable_field|exact H| |].
        -- unfold parse_field. intros E. destruct (expect KIdent _) eqn:EX; try discriminate E. destruct (expect_no_fuel _ _ EX).
        -- intros v p1 c1 r1 E Q H1. change (next (c :: t :: r)) with (t :: r) in E. unfold parse_field in E.
           destruct (expect KIdent (t :: r)) as [u ts'|?|] eqn:EX; try discriminate E. cbn [pbind] in E.
           injection E as <- ->. destruct (expect_to _ _ _ _ _ _ EX) as [-> K1]. destruct (wf_hd _ _ W1 ltac:(congruence)) as [S2 W2].
           eapply (AT p1 c1 r1 [c1]); eauto.
           ++ exists [t], c1, r1. repeat split; auto.
           ++ cbn [current]. rewrite (opt t _ _ S1 K ltac:(inop)). rewrite (tok_eta _ _ K1) at 2. now constructor.
           ++ apply live_cons; auto.
           ++ cbn. lia.
  - intros x ts L B H. apply spun_S; [reflexivity|]. cbn [parse_let] in H |- *. cbv zeta in H |- *. tails.
    sstep m IH H.
    apply (spun_cur_live _ (fun t n ts => pbind (expect KAssign ts) (fun _ ts0 => pbind (parse_expr n prec_min (next ts0)) (fun v ts1 => POk (ELet (tlit t) v) (skip_semi ts1))))); [assumption|].
    sstep m IH H. sstep m IH H.
  - intros x ts L B H. apply spun_S; [reflexivity|]. cbn [parse_unary] in H |- *. cbv zeta in H |- *. tails.
    apply (spun_cur_live _ (fun t n ts => pbind (parse_expr n (precedence (tkind t) + (if kind_eqb (tkind t) KSub then 2 else 0))%N (next ts)) (fun r ts => POk (EUn t r) ts))); [assumption|].
    sstep m IH H.
  - intros x l ts L B H. apply spun_S; [reflexivity|]. cbn [parse_binary] in H |- *. cbv zeta in H |- *. tails.
    apply (spun_cur_live _ (fun t n ts => pbind (parse_expr n (precedence (tkind t)) (next ts)) (fun r ts => POk (EBin t l r) ts))); [assumption|].
    sstep m IH H.
  - intros x ts L B H. apply spun_S; [reflexivity|]. cbn [parse_paren] in H |- *. tails. do 2 sstep m IH H.
  - intros x ts L B H. apply spun_S; [reflexivity|]. cbn [parse_if] in H |- *. tails. do 4 sstep m IH H.
    apply spun_if_live; [assumption|]. destruct (peek_is KElse _) eqn:P in H |- *; [|discriminate H].
    match type of P with peek_is _ ?t = true => match goal with L' : live t |- _ => destruct (peek_next_size _ _ L' P ltac:(neof)) as (? & ? & ?) end end.
    sstep m IH H.
  - intros x f ts L B H. apply spun_S; [reflexivity|]. cbn [parse_call] in H |- *. tails. sstep m IH H. destruct f; discriminate H.
  - intros x stop ts L B H. apply spun_S; [reflexivity|]. cbn [parse_list] in H |- *. tails. sstep m IH H.
    apply (spun_bind m); [apply live_ne; assumption|coh|stgo (stables m)|exact H|intros E1; destruct (expect_no_fuel _ _ E1)|]. intros ? ? ? ? _ _ X. discriminate X.
  - intros x stop ts L B H. apply spun_S; [reflexivity|]. cbn [parse_list_loop] in H |- *. tails.
    apply spun_if_live; [assumption|]. destruct (peek_is stop ts); [discriminate H|]. sstep m IH H.
    apply spun_if_live; [assumption|]. destruct (peek_is stop _).
    + sstep m IH H.
    + do 2 sstep m IH H.
  - intros x ts L B H. apply spun_S; [reflexivity|]. cbn [parse_array] in H |- *. tails. sstep m IH H.
  - intros x ts L B H. apply spun_S; [reflexivity|]. cbn [parse_map] in H |- *. tails. do 2 sstep m IH H.
  - intros x ts L B H. apply spun_S; [reflexivity|]. cbn [parse_map_loop] in H |- *. tails.
    apply spun_if_live; [assumption|]. destruct (peek_is KRb ts); [discriminate H|]. do 3 sstep m IH H.
    apply spun_if_live; [assumption|]. destruct (peek_is KRb _).
    + sstep m IH H.
    + do 2 sstep m IH H.
  - intros x l ts L B H. apply spun_S; [reflexivity|]. cbn [parse_index] in H |- *. tails. do 2 sstep m IH H.
  - intros x ts L B H. apply spun_S; [reflexivity|]. cbn [parse_block] in H |- *. tails. do 3 sstep m IH H.
  - intros x ts L B H. apply spun_S; [reflexivity|]. cbn [parse_block_loop] in H |- *. tails.
    apply spun_if_live; [assumption|]. destruct (peek_is KRb ts); [discriminate H|]. do 2 sstep m IH H.
Qed.

Lemma request_coherent : coherent parse_request.
Proof. intros n m ts Le. unfold parse_request. cbv zeta. mgo (mono n). Qed.
Lemma test_coherent : coherent parse_test.
Proof. intros n m ts Le. unfold parse_test. cbv zeta. mgo (mono n). Qed.
Lemma request_stable n : stable (parse_request n).
Proof.
  unfold parse_request. cbv zeta. apply stable_bind; [apply stable_expect|intros _].
  apply (stable_view (fun t _ ts => pbind (expect KTemplate ts) (fun _ ts =>
    if peek_is KLs ts then pbind (parse_list n KRs (next ts)) (fun asserts ts0 => POk (tlit t, tlit (current ts), asserts) ts0)
    else POk (tlit t, tlit (current ts), []) ts))).
  intros t _. apply stable_bind; [apply stable_expect|intros _].
  apply (stable_view (fun t' _ ts => if peek_is KLs ts then pbind (parse_list n KRs (next ts)) (fun asserts ts0 => POk (tlit t, tlit t', asserts) ts0)
    else POk (tlit t, tlit t', []) ts)).
  intros t' _. stgo (stables n).
Qed.
Lemma test_stable n : stable (parse_test n).
Proof.
  unfold parse_test. cbv zeta. apply stable_bind; [apply stable_expect|intros _].
  apply (stable_view (fun t _ ts => pbind (parse_block n ts) (fun block ts => POk (tlit t, block) ts))).
  intros t _. stgo (stables n).
Qed.

Lemma request_spun m x ts : live ts -> 4 * length ts + 3 <= m -> parse_request m ts = PFuel -> spun x parse_request ts.
Proof.
  intros L B H. unfold parse_request in H |- *. cbv zeta in H |- *. tails. sstep m (spins m) H.
  apply (spun_cur_live _ (fun t n ts => pbind (expect KTemplate ts) (fun _ ts =>
    if peek_is KLs ts then pbind (parse_list n KRs (next ts)) (fun asserts ts0 => POk (tlit t, tlit (current ts), asserts) ts0)
    else POk (tlit t, tlit (current ts), []) ts))); [assumption|].
  sstep m (spins m) H.
  match goal with |- spun _ (fun n ts => _) ?s => apply (spun_cur_live _ (fun t' n ts => if peek_is KLs ts
    then pbind (parse_list n KRs (next ts)) (fun asserts ts0 => POk (tlit (current (c :: r)), tlit t', asserts) ts0)
    else POk (tlit (current (c :: r)), tlit t', []) ts)); [assumption|] end.
  apply spun_if_live; [assumption|]. destruct (peek_is KLs _) eqn:P in H |- *; [|discriminate H].
  match type of P with peek_is _ ?t = true => match goal with L' : live t |- _ => destruct (peek_next_size _ _ L' P ltac:(neof)) as (? & ? & ?) end end.
  sstep m (spins m) H.
Qed.
Lemma test_spun m x ts : live ts -> 4 * length ts + 3 <= m -> parse_test m ts = PFuel -> spun x parse_test ts.
Proof.
  intros L B H. unfold parse_test in H |- *. cbv zeta in H |- *. tails. sstep m (spins m) H.
  apply (spun_cur_live _ (fun t n ts => pbind (parse_block n ts) (fun block ts => POk (tlit t, block) ts))); [assumption|].
  sstep m (spins m) H.
Qed.

Lemma request_smaller m ts v ts' : live ts -> parse_request m ts = POk v ts' -> smaller ts ts'.
Proof.
  intros L H. unfold parse_request in H. cbv zeta in H.
  destruct (expect KIdent ts) as [u t0|?|] eqn:E; cbn [pbind] in H; try discriminate H. learn (size m) E.
  destruct (expect KTemplate t0) as [u1 t1|?|] eqn:E1; cbn [pbind] in H; try discriminate H. learn (size m) E1.
  destruct (peek_is KLs t1) eqn:P; [|inversion H; subst; zdone].
  match goal with L1 : live t1 |- _ => destruct (peek_next_size _ _ L1 P ltac:(neof)) as (? & ? & ?) end.
  destruct (parse_list m KRs (next t1)) as [es t2|?|] eqn:E2; cbn [pbind] in H; try discriminate H. learn (size m) E2.
  inversion H; subst. zdone.
Qed.
Lemma test_smaller m ts v ts' : live ts -> parse_test m ts = POk v ts' -> smaller ts ts'.
Proof.
  intros L H. unfold parse_test in H. cbv zeta in H.
  destruct (expect KIdent ts) as [u t0|?|] eqn:E; cbn [pbind] in H; try discriminate H. learn (size m) E.
  destruct (parse_block m t0) as [es t2|?|] eqn:E2; cbn [pbind] in H; try discriminate H. learn (size m) E2.
  inversion H; subst. zdone.
Qed.

Lemma spun_top : forall m x src ts, wf ts -> 4 * length ts + 5 <= m -> parse_top m src ts = PFuel -> spun x (fun n => parse_top n src) ts.
Proof.
  induction m as [|m IH]; intros x src ts W B H; [lia|]. apply spun_S; [reflexivity|].
  assert (KE : tkind (current ts) <> KEof) by (intros X; cbn [parse_top] in H; rewrite X in H; discriminate H).
  pose proof (wf_live _ W KE) as L. cbn [parse_top] in H |- *.
  assert (Rest : forall x src ts1, smaller ts ts1 -> parse_top m src (next (skip_semi ts1)) = PFuel -> spun x (fun n ts => parse_top n src (next (skip_semi ts))) ts1).
  { intros x1 src1 ts1 (L1 & Z1 & _) H1. destruct (skip_semi_size _ L1) as (L2 & Z2 & _). destruct (next_size _ L2) as (W3 & Z3 & _).
    apply (spun_skip x1 (fun n ts => parse_top n src1 (next ts))); [assumption|]. intros y. apply (spun_next_live y (fun n => parse_top n src1)); [assumption|].
    apply IH; [assumption|lia|assumption]. }
  assert (Ex : pbind (parse_expr m prec_min ts) (fun e ts => parse_top m (Source (s_exprs src ++ [e]) (s_requests src) (s_tests src)) (next (skip_semi ts))) = PFuel ->
    spun x (fun n ts => pbind (parse_expr n prec_min ts) (fun e ts => parse_top n (Source (s_exprs src ++ [e]) (s_requests src) (s_tests src)) (next (skip_semi ts)))) ts).
  { clear H. intros H. sstep m (spins m) H. apply Rest; auto. split; auto. }
  apply (spun_cur_live x (fun t n ts =>
      match tkind t with
      | KEof => POk src ts
      | KRequest =>
          pbind (parse_request n ts) (fun '(name, message, asserts) ts =>
          parse_top n (Source (s_exprs src) (mset name (message, asserts) (s_requests src)) (s_tests src)) (next (skip_semi ts)))
      | KTest =>
          pbind (parse_test n ts) (fun '(name, block) ts =>
          parse_top n (Source (s_exprs src) (s_requests src) (mset name block (s_tests src))) (next (skip_semi ts)))
      | _ =>
          pbind (parse_expr n prec_min ts) (fun e ts =>
          parse_top n (Source (s_exprs src ++ [e]) (s_requests src) (s_tests src)) (next (skip_semi ts)))
      end)); [assumption|].
  destruct (tkind (current ts)) eqn:K; try (exact (Ex H)); [congruence| |].
  - apply (spun_bind m x parse_request); [now apply live_ne|apply request_coherent|apply request_stable|exact H|intros E; apply (request_spun m); [assumption|lia|assumption]|].
    intros [[nm ms] es] p c r E Q H1. apply Rest; auto. eapply request_smaller; eauto.
  - apply (spun_bind m x parse_test); [now apply live_ne|apply test_coherent|apply test_stable|exact H|intros E; apply (test_spun m); [assumption|lia|assumption]|].
    intros [nm b] p c r E Q H1. apply Rest; auto. eapply test_smaller; eauto.
Qed.

(** an endless parse: the tokens up to a [!] right after an expression, whatever comes after them *)
Theorem endless_cause text : parse text = Diverge <->
  exists p q, segment text = p ++ op KNot "!" :: q /\ (exists y e w, p = y ++ w /\ syntax false e w) /\
    forall text' q', segment text' = p ++ op KNot "!" :: q' -> parse text' = Diverge.
Proof.
  split.
  - intros D. pose proof (proj1 (parse_diverges text) D (fuel_for (segment text))) as H. unfold parse_fuel in H.
    destruct (spun_top (fuel_for (segment text)) [] _ _ (wf_segment text) ltac:(unfold fuel_for; lia) H) as (p & t & q & Q & N & K & Sp & En & Y). cbn [app] in En.
    rewrite (opt t _ (lit "!") Sp K ltac:(inop)) in Q, Y. exists p, q. split; [exact Q|]. split; [exact En|].
    intros text' q' Q'. apply parse_diverges. intros n. rewrite Q'. apply Y.
  - intros (p & q & Q & _ & Y). eapply Y; eauto.
Qed.
