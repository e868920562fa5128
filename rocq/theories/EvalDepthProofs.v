(** The depth of evaluation *)
From Verif Require Import Deep SpecStack SpecSyntax ParserBase TextProofs SyntaxProofs ParserSound EvaluatorProofs DeepProofs.
Open Scope nat_scope.

(** ** the depth does not change what is evaluated *)
Definition like {A} (m : evd A) (m' : evm A) : Prop := forall s, fst (m s) = m' s.
Lemma like_flat {A} (m : evm A) : like (flat m) m.
Proof. easy. Qed.
Lemma like_bind {A B} (m : evd A) m' (k : A -> evd B) k' : like m m' -> (forall a, like (k a) (k' a)) -> like (ebind m k) (bind m' k').
Proof.
  intros M K s. unfold ebind, bind. rewrite <- (M s). destruct (fst (m s)) as [[a|e| |] s']; cbn [fst]; try reflexivity. apply K.
Qed.
Lemma like_entered {A} (m : evd A) m' : like m m' -> like (entered m) m'.
Proof. intros M s. apply M. Qed.
Section Like.
  Variable h : host.
  Variable call : str -> list value -> evd value.
  Variable call' : str -> list value -> evm value.
  Hypothesis CL : forall n vs, like (call n vs) (call' n vs).
  Lemma like_list es : Forall (fun e => like (deep_eval h call e) (eval h call' e)) es ->
    like ((fix deep_args (es : list expr) : evd (list value) :=
      match es with [] => flat (ret []) | e :: es' => ebind (deep_eval h call e) (fun v => ebind (deep_args es') (fun vs => flat (ret (v :: vs)))) end) es)
     ((fix eval_list (es : list expr) : evm (list value) :=
      match es with [] => ret [] | e :: es' => bind (eval h call' e) (fun v => bind (eval_list es') (fun vs => ret (v :: vs))) end) es).
  Proof. induction 1 as [|e es E _ IH]; [easy|]. apply like_bind; [exact E|]. intros v. apply like_bind; [exact IH|]. easy. Qed.
  Lemma like_body es : Forall (fun e => like (deep_eval h call e) (eval h call' e)) es -> forall last,
    like ((fix deep_body (last : value) (es : list expr) : evd value :=
      match es with [] => flat (ret last) | e :: es' => ebind (deep_eval h call e) (fun v => deep_body v es') end) last es)
     ((fix eval_block (last : value) (es : list expr) : evm value :=
      match es with [] => ret last | e :: es' => bind (eval h call' e) (fun v => eval_block v es') end) last es).
  Proof. induction 1 as [|e es E _ IH]; intros last; [easy|]. apply like_bind; [exact E|]. intros v. apply IH. Qed.
  Lemma like_pairs ps : Forall (fun kv => like (deep_eval h call (fst kv)) (eval h call' (fst kv)) /\ like (deep_eval h call (snd kv)) (eval h call' (snd kv))) ps -> forall m,
    like ((fix deep_pairs (m : amap value) (ps : list (expr * expr)) : evd (amap value) :=
      match ps with [] => flat (ret m) | (k, v) :: ps' => ebind (deep_eval h call k) (fun kv => ebind (deep_eval h call v) (fun vv => deep_pairs (mset (show_value h kv) vv m) ps')) end) m ps)
     ((fix eval_pairs (m : amap value) (ps : list (expr * expr)) : evm (amap value) :=
      match ps with [] => ret m | (k, v) :: ps' => bind (eval h call' k) (fun kv => bind (eval h call' v) (fun vv => eval_pairs (mset (show_value h kv) vv m) ps')) end) m ps).
  Proof.
    induction 1 as [|[k v] ps [E1 E2] _ IH]; intros m; [easy|]. apply like_bind; [exact E1|]. intros kv. apply like_bind; [exact E2|]. intros vv. apply IH.
  Qed.
  Lemma like_eval e : like (deep_eval h call e) (eval h call' e).
  Proof.
    induction e as [z|f|b|x|es IH|ps IH|e i IHe IHi|e f IHe|n|n e IHe|t e IHe|t l r IHl IHr|e IHe|c a b IHc IHa IHb|n es IH] using expr_ind2;
      cbn [deep_eval eval]; apply like_entered; try exact (like_flat _); try exact IHe.
    - apply like_bind; [now apply like_list|easy].
    - apply like_bind; [apply like_pairs; exact IH|easy].
    - apply like_bind; [exact IHe|]. intros v. apply like_bind; [exact IHi|easy].
    - apply like_bind; [exact IHe|easy].
    - apply like_bind; [exact IHe|easy].
    - apply like_bind; [exact IHe|easy].
    - destruct (strict_op h (tkind t)).
      + apply like_bind; [exact IHl|]. intros v. apply like_bind; [exact IHr|easy].
      + destruct (tkind t); try exact (like_flat _); (apply like_bind; [exact IHl|]; intros v; destruct (falsy v); auto using like_flat).
    - apply like_bind; [exact IHc|]. intros v. destruct (falsy v); now apply like_body.
    - apply like_bind; [now apply like_list|]. intros vs. apply CL.
  Qed.
  Lemma like_exprs es : forall last, like (deep_exprs h call last es) (eval_exprs h call' last es).
  Proof. induction es as [|e es IH]; intros last; [easy|]. apply like_bind; [apply like_eval|]. intros v. apply IH. Qed.
End Like.
Lemma like_null m m' : like m m' -> like (deep_or_null m) (or_null m').
Proof. intros M s. unfold deep_or_null, or_null. cbn [fst]. now rewrite (M s). Qed.
Lemma like_asserts h ev ev' es : (forall e, like (ev e) (ev' e)) -> like (deep_asserts h ev es) (eval_asserts h ev' es).
Proof.
  intros E. induction es as [|e es IH]; [easy|]. destruct e; try exact IH. cbn [deep_asserts eval_asserts].
  apply like_bind; [apply like_null, E|]. intros lv. apply like_bind; [apply like_null, E|]. intros rv. apply like_bind; [exact IH|]. easy.
Qed.
Lemma like_call w d : forall n vs, like (deep_call_at w d n vs) (call_at w d n vs).
Proof.
  induction d as [|d IH]; intros n vs s; cbn [deep_call_at call_at]; destruct (ctx_request (s_ctx s) n) as [[message asserts]|]; try reflexivity.
  unfold deep_request_call, request_call. cbv zeta. destruct (client_send _ _ _) as [[[[rq rs] t] er]|e| |]; try reflexivity. destruct (to_map _ _) as [m|e| |]; try reflexivity.
  rewrite <- (like_asserts _ (deep_eval (e_host w) (deep_call_at w d)) (eval (e_host w) (call_at w d)) asserts) by (intros e; now apply like_eval).
  destruct (fst (deep_asserts _ _ _ _)) as [[a|e| |] s']; reflexivity.
Qed.
Theorem deep_eval_same w es s : fst (deep_eval_block w es s) = eval_block w es s.
Proof. apply (like_exprs (e_host w)). intros n vs. apply like_call. Qed.

(** ** how deep *)
Section Upper.
  Variable A : nat.
  (** the assertions of the requests are at most so high *)
  Definition fits (s : st) : Prop := forall n m es, ctx_request (s_ctx s) n = Some (m, es) -> heights es <= A.
  Definition shallow {X} (N : nat) (m : evd X) : Prop := forall s, fits s -> snd (m s) <= N /\ fits (snd (fst (m s))).
  Lemma shallow_bind {X Y} N (m : evd X) (k : X -> evd Y) : shallow N m -> (forall a, shallow N (k a)) -> shallow N (ebind m k).
  Proof.
    intros M K s F. destruct (M s F) as [M1 M2]. unfold ebind. destruct (fst (m s)) as [[a|e| |] s']; cbn [fst snd] in *; auto.
    destruct (K a s' M2) as [K1 K2]. split; [lia|exact K2].
  Qed.
  Lemma shallow_flat {X} N (m : evm X) : (forall s, fits s -> fits (snd (m s))) -> shallow N (flat m).
  Proof. intros M s F. cbn [flat fst snd]. split; [lia|auto]. Qed.
  Lemma shallow_ret {X} N (a : X) : shallow N (flat (ret a)).
  Proof. now apply shallow_flat. Qed.
  Lemma shallow_lift {X} N (a : out everr X) : shallow N (flat (lift a)).
  Proof. now apply shallow_flat. Qed.
  Lemma shallow_weak {X} N M (m : evd X) : shallow N m -> N <= M -> shallow M m.
  Proof. intros H L s F. destruct (H s F). split; [lia|auto]. Qed.
  Lemma shallow_entered {X} N (m : evd X) : shallow N m -> shallow (S N) (entered m).
  Proof. intros H s F. destruct (H s F). cbn [entered fst snd]. split; [lia|auto]. Qed.
  Section Eval.
    Variable h : host.
    Variable call : str -> list value -> evd value.
    Variable K : nat.
    Hypothesis CL : forall n vs, shallow K (call n vs).
    Definition bounded (e : expr) : Prop := shallow (height e + K) (deep_eval h call e).
    Lemma shallow_list es : Forall bounded es -> shallow (heights es + K)
      ((fix deep_args (es : list expr) : evd (list value) :=
        match es with [] => flat (ret []) | e :: es' => ebind (deep_eval h call e) (fun v => ebind (deep_args es') (fun vs => flat (ret (v :: vs)))) end) es).
    Proof.
      induction 1 as [|e es E _ IH]; [apply shallow_ret|]. rewrite heights_cons. apply shallow_bind; [eapply shallow_weak; [exact E|lia]|]. intros v.
      apply shallow_bind; [eapply shallow_weak; [exact IH|lia]|]. intros vs. apply shallow_ret.
    Qed.
    Lemma shallow_body es : Forall bounded es -> forall last, shallow (heights es + K)
      ((fix deep_body (last : value) (es : list expr) : evd value :=
        match es with [] => flat (ret last) | e :: es' => ebind (deep_eval h call e) (fun v => deep_body v es') end) last es).
    Proof.
      induction 1 as [|e es E _ IH]; intros last; [apply shallow_ret|]. rewrite heights_cons. apply shallow_bind; [eapply shallow_weak; [exact E|lia]|]. intros v.
      eapply shallow_weak; [apply IH|lia].
    Qed.
    Lemma shallow_pairs ps : Forall (fun kv => bounded (fst kv) /\ bounded (snd kv)) ps -> forall m, shallow (pair_heights ps + K)
      ((fix deep_pairs (m : amap value) (ps : list (expr * expr)) : evd (amap value) :=
        match ps with [] => flat (ret m) | (k, v) :: ps' => ebind (deep_eval h call k) (fun kv => ebind (deep_eval h call v) (fun vv => deep_pairs (mset (show_value h kv) vv m) ps')) end) m ps).
    Proof.
      induction 1 as [|[k v] ps [E1 E2] _ IH]; intros m; [apply shallow_ret|]. rewrite pair_heights_cons. cbn [fst snd] in *. apply shallow_bind; [eapply shallow_weak; [exact E1|lia]|]. intros kv.
      apply shallow_bind; [eapply shallow_weak; [exact E2|lia]|]. intros vv. eapply shallow_weak; [apply IH|lia].
    Qed.
    Lemma shallow_eval e : bounded e.
    Proof.
      unfold bounded. induction e as [z|f|b|x|es IH|ps IH|e i IHe IHi|e f IHe|n|n e IHe|t e IHe|t l r IHl IHr|e IHe|c a b IHc IHa IHb|n es IH] using expr_ind2;
        rewrite ?height_arr, ?height_call, ?height_map, ?height_if; cbn [deep_eval height Nat.add]; apply shallow_entered; try apply shallow_ret.
      - apply shallow_bind; [apply shallow_list, IH|]. intros. apply shallow_ret.
      - apply shallow_bind; [apply shallow_pairs, IH|]. intros. apply shallow_ret.
      - apply shallow_bind; [eapply shallow_weak; [exact IHe|lia]|]. intros v. apply shallow_bind; [eapply shallow_weak; [exact IHi|lia]|]. intros. apply shallow_lift.
      - apply shallow_bind; [exact IHe|]. intros. apply shallow_lift.
      - apply shallow_flat. intros s F. now destruct (ctx_get _ _).
      - apply shallow_bind; [exact IHe|]. intros v. apply shallow_flat. intros s F. exact F.
      - apply shallow_bind; [exact IHe|]. intros. apply shallow_lift.
      - destruct (strict_op h (tkind t)).
        + apply shallow_bind; [eapply shallow_weak; [exact IHl|lia]|]. intros v. apply shallow_bind; [eapply shallow_weak; [exact IHr|lia]|]. intros. apply shallow_lift.
        + assert (R : shallow (Nat.max (height l) (height r) + K) (deep_eval h call r)) by (eapply shallow_weak; [exact IHr|lia]).
          destruct (tkind t); try apply shallow_lift; (apply shallow_bind; [eapply shallow_weak; [exact IHl|lia]|]; intros v; destruct (falsy v); auto using shallow_ret).
      - exact IHe.
      - apply shallow_bind; [eapply shallow_weak; [exact IHc|lia]|]. intros v. destruct (falsy v); (eapply shallow_weak; [apply shallow_body; assumption|lia]).
      - apply shallow_bind; [apply shallow_list, IH|]. intros vs. eapply shallow_weak; [apply CL|lia].
    Qed.
    Lemma shallow_exprs es : forall last, shallow (heights es + K) (deep_exprs h call last es).
    Proof.
      induction es as [|e es IH]; intros last; [apply shallow_ret|]. rewrite heights_cons. apply shallow_bind; [eapply shallow_weak; [apply shallow_eval|lia]|]. intros v.
      eapply shallow_weak; [apply IH|lia].
    Qed.
  End Eval.
  Lemma shallow_native N h n vs : shallow N (flat (native_call h n vs)).
  Proof.
    apply shallow_flat. intros s F. unfold native_call. destruct (str_eqb n (lit "println")); [destruct (native_println h vs) as [[v|e| |] t]; exact F|].
    destruct (str_eqb n (lit "print")); [destruct (native_print h vs) as [[v|e| |] t]; exact F|].
    destruct (str_eqb n (lit "format")), (str_eqb n (lit "length")), (str_eqb n (lit "append")); exact F.
  Qed.
  Lemma shallow_null N m : shallow N m -> shallow N (deep_or_null m).
  Proof. intros H s F. destruct (H s F) as [H1 H2]. unfold deep_or_null. cbn [fst snd]. split; [exact H1|]. destruct (fst (m s)) as [[a|e| |] s']; exact H2. Qed.
  Lemma shallow_asserts h ev es : (forall e, shallow (height e) (ev e)) -> shallow (heights es) (deep_asserts h ev es).
  Proof.
    intros E. induction es as [|e es IH]; [apply shallow_ret|]. rewrite heights_cons. destruct e; try (eapply shallow_weak; [exact IH|lia]). cbn [deep_asserts height].
    apply shallow_bind; [eapply shallow_weak; [apply shallow_null, E|lia]|]. intros lv. apply shallow_bind; [eapply shallow_weak; [apply shallow_null, E|lia]|]. intros rv.
    apply shallow_bind; [eapply shallow_weak; [exact IH|lia]|]. intros. apply shallow_ret.
  Qed.
End Upper.
Lemma fits_map A m t : fits A (St (ctx_from m) t).
Proof. intros n x es E. discriminate E. Qed.
Lemma read_height e : read_depth e <= height e.
Proof.
  induction e as [z|f|b|x|es IH|ps IH|e i IHe IHi|e f IHe|n|n e IHe|t e IHe|t l r IHl IHr|e IHe|c a b IHc IHa IHb|n es IH] using expr_ind2; cbn [read_depth height]; try lia.
  - apply le_n_S. induction IH as [|e es E _ IH]; [cbn; lia|]. change (Nat.max (read_depth e) (list_max (map read_depth es)) <= Nat.max (height e) (list_max (map height es))). lia.
  - apply le_n_S. induction IH as [|[k v] ps [E1 E2] _ IH]; [cbn; lia|]. cbn [fst snd] in *.
    set (rd := fun kv : expr * expr => Nat.max (read_depth (fst kv)) (read_depth (snd kv))) in *. set (hd := fun kv : expr * expr => Nat.max (height (fst kv)) (height (snd kv))) in *.
    change (Nat.max (rd (k, v)) (list_max (map rd ps)) <= Nat.max (hd (k, v)) (list_max (map hd ps))). unfold rd at 1, hd at 1. cbn [fst snd]. lia.
Qed.
Theorem body_depth_length text : body_depth text <= S (length text).
Proof.
  unfold body_depth. pose proof (parse_depth_length text) as L. destruct (parse text) as [src|e| |] eqn:P; try lia. destruct (source_height _ _ P) as [H _].
  destruct (s_exprs src) as [|e es]; [lia|]. pose proof (read_height e) as R. rewrite heights_cons in H. lia.
Qed.
Lemma call_one w n vs s : deep_call_at w 1 n vs s =
  match ctx_request (s_ctx s) n with
  | Some (message, asserts) => deep_request_call w (deep_eval (e_host w) (deep_call_at w 0)) n message asserts s
  | None => flat (native_call (e_host w) n vs) s
  end.
Proof. reflexivity. Qed.
Lemma shallow_call w A B n vs : answers w B -> shallow A (Nat.max A (S B)) (deep_call_at w 1 n vs).
Proof.
  intros W s F. rewrite call_one. destruct (ctx_request (s_ctx s) n) as [[message asserts]|] eqn:R; [|now apply shallow_native].
  pose proof (F _ _ _ R) as HA. unfold deep_request_call. cbv zeta. destruct (client_send _ _ _) as [[[[rq rs] t] er]|e| |] eqn:C; try (cbn [fst snd]; split; [lia|exact F]).
  apply W in C. pose proof (body_depth_length (rs_body rs)) as D. destruct (to_map _ _) as [m|e| |]; try (cbn [fst snd]; split; [lia|exact F]).
  assert (E : forall e, shallow A (height e) (deep_eval (e_host w) (deep_call_at w 0) e)).
  { intros e. rewrite <- (Nat.add_0_r (height e)). apply shallow_eval. intros n' vs' s' F'. cbn [deep_call_at]. destruct (ctx_request (s_ctx s') n') as [[? ?]|]; [cbn [fst snd]; auto|now apply shallow_native]. }
  destruct (shallow_asserts A (e_host w) _ asserts E (St (ctx_from m) (s_trace (emit (Sent (substitute (var_text (e_host w) (s_ctx s)) message)) s))) (fits_map A m _)) as [S1 _].
  cbn [fst snd]. split; [lia|]. destruct (fst (deep_asserts _ _ _ _)) as [[a|e| |] s']; exact F.
Qed.
Theorem eval_depth_bound w A B es s : answers w B -> (forall n m as_, ctx_request (s_ctx s) n = Some (m, as_) -> heights as_ <= A) ->
  snd (deep_eval_block w es s) <= heights es + Nat.max A (S B).
Proof. intros W F. apply (shallow_exprs A (e_host w) (deep_call_at w 1) (Nat.max A (S B))); [|exact F]. intros n vs. now apply shallow_call. Qed.

(** ** what is needed in any case *)
Lemma ebind_ok {A B} (m : evd A) (k : A -> evd B) s b : fst (fst (ebind m k s)) = Ok b ->
  exists a s', fst (m s) = (Ok a, s') /\ fst (fst (k a s')) = Ok b /\ snd (ebind m k s) = Nat.max (snd (m s)) (snd (k a s')).
Proof. unfold ebind. destruct (fst (m s)) as [[a|e| |] s'] eqn:E; cbn [fst snd]; try discriminate. intros H. exists a, s'. auto. Qed.
Lemma snd_ebind {A B} (m : evd A) (k : A -> evd B) s : snd (m s) <= snd (ebind m k s).
Proof. unfold ebind. destruct (fst (m s)) as [[a|e| |] s']; cbn [snd]; lia. Qed.
Section Lower.
  Variable h : host.
  Variable call : str -> list value -> evd value.
  Definition needs (e : expr) : Prop := everywhere eager1 e -> forall s v, fst (fst (deep_eval h call e s)) = Ok v -> height e <= snd (deep_eval h call e s).
  Definition dargs := (fix deep_args (es : list expr) : evd (list value) :=
        match es with [] => flat (ret []) | e :: es' => ebind (deep_eval h call e) (fun v => ebind (deep_args es') (fun vs => flat (ret (v :: vs)))) end).
  Definition dpairs := (fix deep_pairs (m : amap value) (ps : list (expr * expr)) : evd (amap value) :=
        match ps with [] => flat (ret m) | (k, v) :: ps' => ebind (deep_eval h call k) (fun kv => ebind (deep_eval h call v) (fun vv => deep_pairs (mset (show_value h kv) vv m) ps')) end).
  Lemma dargs_cons e es : dargs (e :: es) = ebind (deep_eval h call e) (fun v => ebind (dargs es) (fun vs => flat (ret (v :: vs)))).
  Proof. reflexivity. Qed.
  Lemma dpairs_cons m k v ps : dpairs m ((k, v) :: ps) = ebind (deep_eval h call k) (fun kv => ebind (deep_eval h call v) (fun vv => dpairs (mset (show_value h kv) vv m) ps)).
  Proof. reflexivity. Qed.
  Lemma needs_list es : Forall needs es -> Forall (everywhere eager1) es -> forall s vs, fst (fst (dargs es s)) = Ok vs -> heights es <= snd (dargs es s).
  Proof.
    intros N E. induction N as [|e es Ne _ IH]; intros s vs H; [cbn; lia|]. inversion E as [|? ? Ee Ees]; subst. rewrite heights_cons.
    rewrite dargs_cons in *. apply ebind_ok in H. destruct H as (v & s1 & H1 & H2 & ->). apply ebind_ok in H2. destruct H2 as (vs' & s2 & H3 & H4 & ->).
    specialize (Ne Ee s v ltac:(now rewrite H1)). specialize (IH Ees s1 vs' ltac:(now rewrite H3)). lia.
  Qed.
  Lemma needs_pairs ps : Forall (fun kv => needs (fst kv) /\ needs (snd kv)) ps -> Forall (fun kv => everywhere eager1 (fst kv) /\ everywhere eager1 (snd kv)) ps -> forall m s vs, fst (fst (dpairs m ps s)) = Ok vs -> pair_heights ps <= snd (dpairs m ps s).
  Proof.
    intros N E. induction N as [|[k v] ps [Nk Nv] _ IH]; intros m s vs H; [cbn; lia|]. inversion E as [|? ? [Ek Ev] Eps]; subst. cbn [fst snd] in *. rewrite pair_heights_cons.
    rewrite dpairs_cons in *. apply ebind_ok in H. destruct H as (kv & s1 & H1 & H2 & ->). apply ebind_ok in H2. destruct H2 as (vv & s2 & H3 & H4 & ->).
    specialize (Nk Ek s kv ltac:(now rewrite H1)). specialize (Nv Ev s1 vv ltac:(now rewrite H3)). specialize (IH Eps _ _ _ H4). lia.
  Qed.
  Lemma needs_all e : needs e.
  Proof.
    induction e as [z|f|b|x|es IH|ps IH|e i IHe IHi|e f IHe|n|n e IHe|t e IHe|t l r IHl IHr|e IHe|c a b IHc IHa IHb|n es IH] using expr_ind2; intros EV s v H;
      apply everywhere_eq in EV; destruct EV as [E1 E2]; cbn [eager1] in E1;
      rewrite ?height_arr, ?height_call, ?height_map, ?height_if; cbn [deep_eval height] in *; unfold entered in *; cbn [fst snd] in *; apply le_n_S; try lia.
    - apply ebind_ok in H. destruct H as (vs & s1 & H1 & H2 & ->). pose proof (needs_list es IH E2 s vs) as X. unfold dargs in X. rewrite H1 in X. specialize (X eq_refl). lia.
    - apply ebind_ok in H. destruct H as (vs & s1 & H1 & H2 & ->). pose proof (needs_pairs ps IH E2 [] s vs) as X. unfold dpairs in X. rewrite H1 in X. specialize (X eq_refl). lia.
    - apply ebind_ok in H. destruct H as (v1 & s1 & H1 & H2 & ->). apply ebind_ok in H2. destruct H2 as (v2 & s2 & H3 & H4 & ->). destruct E2 as [E2 E3].
      specialize (IHe E2 s v1 ltac:(now rewrite H1)). specialize (IHi E3 s1 v2 ltac:(now rewrite H3)). lia.
    - apply ebind_ok in H. destruct H as (v1 & s1 & H1 & H2 & ->). specialize (IHe E2 s v1 ltac:(now rewrite H1)). lia.
    - apply ebind_ok in H. destruct H as (v1 & s1 & H1 & H2 & ->). specialize (IHe E2 s v1 ltac:(now rewrite H1)). lia.
    - apply ebind_ok in H. destruct H as (v1 & s1 & H1 & H2 & ->). specialize (IHe E2 s v1 ltac:(now rewrite H1)). lia.
    - destruct E2 as [E2 E3]. destruct (strict_op h (tkind t)).
      + apply ebind_ok in H. destruct H as (v1 & s1 & H1 & H2 & ->). apply ebind_ok in H2. destruct H2 as (v2 & s2 & H3 & H4 & ->).
        specialize (IHl E2 s v1 ltac:(now rewrite H1)). specialize (IHr E3 s1 v2 ltac:(now rewrite H3)). lia.
      + destruct (tkind t); try discriminate H; destruct E1; congruence.
    - apply (IHe E2 s v H).
    - apply ebind_ok in H. destruct H as (vs & s1 & H1 & H2 & ->). pose proof (needs_list es IH E2 s vs) as X. unfold dargs in X. rewrite H1 in X. specialize (X eq_refl). lia.
  Qed.
End Lower.
Theorem eval_depth_needed w e s v : everywhere eager1 e -> fst (eval_block w [e] s) = Ok v -> height e <= snd (deep_eval_block w [e] s).
Proof.
  intros E H. rewrite <- deep_eval_same in H. unfold deep_eval_block in *. cbn [deep_exprs] in *. apply ebind_ok in H. destruct H as (v1 & s1 & H1 & H2 & ->).
  pose proof (needs_all _ _ e E s v1 ltac:(now rewrite H1)). lia.
Qed.
(** the body of an answer *)
Theorem call_depth w n s message asserts rq rs t er : ctx_request (s_ctx s) n = Some (message, asserts) ->
  client_send (e_prepare w) (e_net w (s_trace s) (substitute (var_text (e_host w) (s_ctx s)) message)) (substitute (var_text (e_host w) (s_ctx s)) message) = Ok (rq, rs, t, er) ->
  S (body_depth (rs_body rs)) <= snd (deep_eval_block w [ECall n []] s).
Proof.
  intros R C. unfold deep_eval_block. cbn [deep_exprs]. etransitivity; [|apply snd_ebind]. cbn [deep_eval]. unfold entered. cbn [snd]. apply le_n_S. unfold ebind at 1. cbn [flat ret fst snd].
  change (Nat.max 0 ?x) with x. rewrite call_one, R. unfold deep_request_call. cbv zeta. rewrite C.
  destruct (to_map _ _); cbn [snd]; lia.
Qed.
Lemma body_parse text : parse_depth text <= body_depth text.
Proof. unfold body_depth. lia. Qed.
(** a chain of left operands *)
Lemma chain_depth h call t l r s : (exists f, strict_op h (tkind t) = Some f) -> S (snd (deep_eval h call l s)) <= snd (deep_eval h call (EBin t l r) s).
Proof. intros [f E]. cbn [deep_eval]. rewrite E. unfold entered. cbn [snd]. apply le_n_S, snd_ebind. Qed.

Theorem source_depth text src w B es s : parse text = Ok src -> answers w B -> (forall n, ctx_request (s_ctx s) n = mget n (s_requests src)) ->
  es = s_exprs src \/ (exists n, mget n (s_tests src) = Some es) ->
  snd (deep_eval_block w es s) <= length text + Nat.max (length text) (S B).
Proof.
  intros P W R E. destruct (source_height _ _ P) as (X & Y & Z). assert (H : heights es <= length text) by (destruct E as [->|[n E]]; eauto).
  etransitivity; [apply (eval_depth_bound w (length text) B); [exact W|]|lia]. intros n m as_ Q. rewrite R in Q. eauto.
Qed.
