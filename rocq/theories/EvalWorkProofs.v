(** The work of evaluation *)
From Verif Require Import Work SpecWork SpecStack SpecSyntax SpecEval ParserBase TextProofs SyntaxProofs ParserSound ParserTop EvaluatorProofs EvaluatorTop DeepProofs WorkProofs.
Open Scope nat_scope.

(** ** counting does not change what is evaluated *)
Definition alike {A} (m : evw A) (m' : evm A) : Prop := forall s, fst (m s) = m' s.
Lemma same_idle {A} (m : evm A) : alike (idle m) m.
Proof. easy. Qed.
Lemma same_bind {A B} (m : evw A) m' (k : A -> evw B) k' : alike m m' -> (forall a, alike (k a) (k' a)) -> alike (tbind m k) (bind m' k').
Proof.
  intros M K s. unfold tbind, bind. rewrite <- (M s). destruct (fst (m s)) as [[a|e| |] s']; cbn [fst]; try reflexivity. apply K.
Qed.
Lemma same_stepped {A} (m : evw A) m' : alike m m' -> alike (stepped m) m'.
Proof. intros M s. apply M. Qed.
Section Like.
  Variable h : host.
  Variable call : str -> list value -> evw value.
  Variable call' : str -> list value -> evm value.
  Hypothesis CL : forall n vs, alike (call n vs) (call' n vs).
  Lemma same_list es : Forall (fun e => alike (work_eval h call e) (eval h call' e)) es ->
    alike ((fix work_args (es : list expr) : evw (list value) :=
      match es with [] => idle (ret []) | e :: es' => tbind (work_eval h call e) (fun v => tbind (work_args es') (fun vs => idle (ret (v :: vs)))) end) es)
     ((fix eval_list (es : list expr) : evm (list value) :=
      match es with [] => ret [] | e :: es' => bind (eval h call' e) (fun v => bind (eval_list es') (fun vs => ret (v :: vs))) end) es).
  Proof. induction 1 as [|e es E _ IH]; [easy|]. apply same_bind; [exact E|]. intros v. apply same_bind; [exact IH|]. easy. Qed.
  Lemma same_body es : Forall (fun e => alike (work_eval h call e) (eval h call' e)) es -> forall last,
    alike ((fix work_body (last : value) (es : list expr) : evw value :=
      match es with [] => idle (ret last) | e :: es' => tbind (work_eval h call e) (fun v => work_body v es') end) last es)
     ((fix eval_block (last : value) (es : list expr) : evm value :=
      match es with [] => ret last | e :: es' => bind (eval h call' e) (fun v => eval_block v es') end) last es).
  Proof. induction 1 as [|e es E _ IH]; intros last; [easy|]. apply same_bind; [exact E|]. intros v. apply IH. Qed.
  Lemma same_pairs ps : Forall (fun kv => alike (work_eval h call (fst kv)) (eval h call' (fst kv)) /\ alike (work_eval h call (snd kv)) (eval h call' (snd kv))) ps -> forall m,
    alike ((fix work_pairs (m : amap value) (ps : list (expr * expr)) : evw (amap value) :=
      match ps with [] => idle (ret m) | (k, v) :: ps' => tbind (work_eval h call k) (fun kv => tbind (work_eval h call v) (fun vv => work_pairs (mset (show_value h kv) vv m) ps')) end) m ps)
     ((fix eval_pairs (m : amap value) (ps : list (expr * expr)) : evm (amap value) :=
      match ps with [] => ret m | (k, v) :: ps' => bind (eval h call' k) (fun kv => bind (eval h call' v) (fun vv => eval_pairs (mset (show_value h kv) vv m) ps')) end) m ps).
  Proof.
    induction 1 as [|[k v] ps [E1 E2] _ IH]; intros m; [easy|]. apply same_bind; [exact E1|]. intros kv. apply same_bind; [exact E2|]. intros vv. apply IH.
  Qed.
  Lemma same_eval e : alike (work_eval h call e) (eval h call' e).
  Proof.
    induction e as [z|f|b|x|es IH|ps IH|e i IHe IHi|e f IHe|n|n e IHe|t e IHe|t l r IHl IHr|e IHe|c a b IHc IHa IHb|n es IH] using expr_ind2;
      cbn [work_eval eval]; apply same_stepped; try exact (same_idle _); try exact IHe.
    - apply same_bind; [now apply same_list|easy].
    - apply same_bind; [apply same_pairs; exact IH|easy].
    - apply same_bind; [exact IHe|]. intros v. apply same_bind; [exact IHi|easy].
    - apply same_bind; [exact IHe|easy].
    - apply same_bind; [exact IHe|easy].
    - apply same_bind; [exact IHe|easy].
    - destruct (strict_op h (tkind t)).
      + apply same_bind; [exact IHl|]. intros v. apply same_bind; [exact IHr|easy].
      + destruct (tkind t); try exact (same_idle _); (apply same_bind; [exact IHl|]; intros v; destruct (falsy v); auto using same_idle).
    - apply same_bind; [exact IHc|]. intros v. destruct (falsy v); now apply same_body.
    - apply same_bind; [now apply same_list|]. intros vs. apply CL.
  Qed.
  Lemma same_exprs es : forall last, alike (work_exprs h call last es) (eval_exprs h call' last es).
  Proof. induction es as [|e es IH]; intros last; [easy|]. apply same_bind; [apply same_eval|]. intros v. apply IH. Qed.
End Like.
Lemma same_null m m' : alike m m' -> alike (work_or_null m) (or_null m').
Proof. intros M s. unfold work_or_null, or_null. cbn [fst]. now rewrite (M s). Qed.
Lemma same_asserts h ev ev' es : (forall e, alike (ev e) (ev' e)) -> alike (work_asserts h ev es) (eval_asserts h ev' es).
Proof.
  intros E. induction es as [|e es IH]; [easy|]. destruct e; try exact IH. cbn [work_asserts eval_asserts].
  apply same_bind; [apply same_null, E|]. intros lv. apply same_bind; [apply same_null, E|]. intros rv. apply same_bind; [exact IH|]. easy.
Qed.
Lemma same_call w d : forall n vs, alike (work_call_at w d n vs) (call_at w d n vs).
Proof.
  induction d as [|d IH]; intros n vs s; cbn [work_call_at call_at]; destruct (ctx_request (s_ctx s) n) as [[message asserts]|]; try reflexivity.
  unfold work_request_call, request_call. cbv zeta. destruct (client_send _ _ _) as [[[[rq rs] t] er]|e| |]; try reflexivity. destruct (to_map _ _) as [m|e| |]; try reflexivity.
  rewrite <- (same_asserts _ (work_eval (e_host w) (work_call_at w d)) (eval (e_host w) (call_at w d)) asserts) by (intros e; now apply same_eval).
  destruct (fst (work_asserts _ _ _ _)) as [[a|e| |] s']; reflexivity.
Qed.
Theorem work_eval_same w es s : fst (work_eval_block w es s) = eval_block w es s.
Proof. apply (same_exprs (e_host w)). intros n vs. apply same_call. Qed.

(** ** how much *)
Section Upper.
  Variables A K : nat.
  (** the assertions of the requests are at most so large *)
  Definition fits (s : st) : Prop := forall n m es, ctx_request (s_ctx s) n = Some (m, es) -> sizes es <= A.
  Definition sends (s : st) : nat := sent (s_trace s).
  (** at most [N], and [K] for each request sent *)
  Definition takes {X} (N : nat) (m : evw X) : Prop := forall s, fits s -> fst (fst (m s)) <> Diverge ->
    snd (m s) + K * sends s <= N + K * sends (snd (fst (m s))) /\ fits (snd (fst (m s))).
  Lemma takes_bind {X Y} N M (m : evw X) (k : X -> evw Y) : takes N m -> (forall a, takes M (k a)) -> takes (N + M) (tbind m k).
  Proof.
    intros H1 H2 s F. specialize (H1 s F). unfold tbind. destruct (fst (m s)) as [[a|e| |] s']; cbn [fst snd] in *; intros D.
    - destruct (H1 ltac:(discriminate)) as [L F']. destruct (H2 a s' F' D) as [L' F'']. split; [lia|exact F''].
    - destruct (H1 ltac:(discriminate)). split; [lia|auto].
    - destruct (H1 ltac:(discriminate)). split; [lia|auto].
    - now destruct D.
  Qed.
  Lemma takes_idle {X} N (m : evm X) : (forall s, fits s -> fits (snd (m s)) /\ sends (snd (m s)) = sends s) -> takes N (idle m).
  Proof. intros M s F D. cbn [idle fst snd]. destruct (M s F) as [M1 M2]. rewrite M2. split; [lia|auto]. Qed.
  Lemma takes_ret {X} N (a : X) : takes N (idle (ret a)).
  Proof. now apply takes_idle. Qed.
  Lemma takes_lift {X} N (a : out everr X) : takes N (idle (lift a)).
  Proof. now apply takes_idle. Qed.
  Lemma takes_weak {X} N M (m : evw X) : takes N m -> N <= M -> takes M m.
  Proof. intros H L s F D. destruct (H s F D). split; [lia|auto]. Qed.
  Lemma takes_stepped {X} N (m : evw X) : takes N m -> takes (S N) (stepped m).
  Proof. intros H s F D. cbn [stepped fst snd] in *. destruct (H s F D). split; [lia|auto]. Qed.
  Lemma takes_then {X Y} N (m : evw X) (k : X -> evw Y) : takes N m -> (forall a, takes 0 (k a)) -> takes N (tbind m k).
  Proof. intros H1 H2. rewrite <- (Nat.add_0_r N). now apply takes_bind. Qed.
  Section Eval.
    Variable h : host.
    Variable call : str -> list value -> evw value.
    Hypothesis CL : forall n vs, takes 0 (call n vs).
    Definition fair (e : expr) : Prop := takes (size e) (work_eval h call e).
    Lemma takes_list es : Forall fair es -> takes (sizes es)
      ((fix work_args (es : list expr) : evw (list value) :=
        match es with [] => idle (ret []) | e :: es' => tbind (work_eval h call e) (fun v => tbind (work_args es') (fun vs => idle (ret (v :: vs)))) end) es).
    Proof. induction 1 as [|e es E _ IH]; [apply takes_ret|]. rewrite sizes_cons. apply takes_bind; [exact E|]. intros v. apply takes_then; [exact IH|]. intros vs. apply takes_ret. Qed.
    Lemma takes_body es : Forall fair es -> forall last, takes (sizes es)
      ((fix work_body (last : value) (es : list expr) : evw value :=
        match es with [] => idle (ret last) | e :: es' => tbind (work_eval h call e) (fun v => work_body v es') end) last es).
    Proof. induction 1 as [|e es E _ IH]; intros last; [apply takes_ret|]. rewrite sizes_cons. apply takes_bind; [exact E|]. intros v. apply IH. Qed.
    Lemma takes_pairs ps : Forall (fun kv => fair (fst kv) /\ fair (snd kv)) ps -> forall m, takes (pair_sizes ps)
      ((fix work_pairs (m : amap value) (ps : list (expr * expr)) : evw (amap value) :=
        match ps with [] => idle (ret m) | (k, v) :: ps' => tbind (work_eval h call k) (fun kv => tbind (work_eval h call v) (fun vv => work_pairs (mset (show_value h kv) vv m) ps')) end) m ps).
    Proof.
      induction 1 as [|[k v] ps [E1 E2] _ IH]; intros m; [apply takes_ret|]. rewrite pair_sizes_cons. cbn [fst snd] in *. rewrite <- Nat.add_assoc. apply takes_bind; [exact E1|]. intros kv.
      apply takes_bind; [exact E2|]. intros vv. apply IH.
    Qed.
    Lemma takes_eval e : fair e.
    Proof.
      unfold fair. induction e as [z|f|b|x|es IH|ps IH|e i IHe IHi|e f IHe|n|n e IHe|t e IHe|t l r IHl IHr|e IHe|c a b IHc IHa IHb|n es IH] using expr_ind2;
        rewrite ?size_arr, ?size_call, ?size_map, ?size_if; cbn [work_eval size]; apply takes_stepped; try apply takes_ret.
      - apply takes_then; [apply takes_list, IH|]. intros. apply takes_ret.
      - apply takes_then; [apply takes_pairs, IH|]. intros. apply takes_ret.
      - apply takes_bind; [exact IHe|]. intros v. apply takes_then; [exact IHi|]. intros. apply takes_lift.
      - apply takes_then; [exact IHe|]. intros. apply takes_lift.
      - apply takes_idle. intros s F. now destruct (ctx_get _ _).
      - apply takes_then; [exact IHe|]. intros v. apply takes_idle. intros s F. split; [exact F|reflexivity].
      - apply takes_then; [exact IHe|]. intros. apply takes_lift.
      - destruct (strict_op h (tkind t)).
        + apply takes_bind; [exact IHl|]. intros v. apply takes_then; [exact IHr|]. intros. apply takes_lift.
        + destruct (tkind t); try apply takes_lift; (apply takes_bind; [exact IHl|]; intros v; destruct (falsy v); auto using takes_ret).
      - exact IHe.
      - apply takes_bind; [exact IHc|]. intros v. destruct (falsy v); (eapply takes_weak; [apply takes_body; assumption|lia]).
      - apply takes_then; [apply takes_list, IH|]. intros vs. apply CL.
    Qed.
    Lemma takes_exprs es : forall last, takes (sizes es) (work_exprs h call last es).
    Proof. induction es as [|e es IH]; intros last; [apply takes_ret|]. rewrite sizes_cons. apply takes_bind; [apply takes_eval|]. intros v. apply IH. Qed.
  End Eval.
  Lemma takes_native N h n vs : takes N (idle (native_call h n vs)).
  Proof.
    assert (EM : forall t s, sends (emit (Printed t) s) = sends s) by (intros t [c tr]; unfold sends, emit; cbn [s_trace]; rewrite sent_app; cbn; lia).
    apply takes_idle. intros s F. unfold native_call. destruct (str_eqb n (lit "println")); [destruct (native_println h vs) as [[v|e| |] t]; cbn [snd]; rewrite ?EM; split; auto|].
    destruct (str_eqb n (lit "print")); [destruct (native_print h vs) as [[v|e| |] t]; cbn [snd]; rewrite ?EM; split; auto|].
    destruct (str_eqb n (lit "format")), (str_eqb n (lit "length")), (str_eqb n (lit "append")); split; auto.
  Qed.
  Lemma takes_null N m : takes N m -> takes N (work_or_null m).
  Proof.
    intros H s F D. specialize (H s F). unfold work_or_null in *. cbn [fst snd] in *. destruct (fst (m s)) as [[a|e| |] s']; cbn [fst snd] in *; (apply H; first [discriminate|exact D]).
  Qed.
  Lemma takes_asserts h ev es : (forall e, takes (size e) (ev e)) -> takes (sizes es) (work_asserts h ev es).
  Proof.
    intros E. induction es as [|e es IH]; [apply takes_ret|]. rewrite sizes_cons. destruct e; try (eapply takes_weak; [exact IH|lia]). cbn [work_asserts size].
    apply (takes_weak (size e1 + (size e2 + sizes es))); [|lia]. apply takes_bind; [apply takes_null, E|]. intros lv. apply takes_bind; [apply takes_null, E|]. intros rv.
    apply takes_then; [exact IH|]. intros. apply takes_ret.
  Qed.
End Upper.
Lemma fits_map A m t : fits A (St (ctx_from m) t).
Proof. intros n x es E. discriminate E. Qed.
Lemma read_size e : read_work e <= size e.
Proof.
  induction e as [z|f|b|x|es IH|ps IH|e i IHe IHi|e f IHe|n|n e IHe|t e IHe|t l r IHl IHr|e IHe|c a b IHc IHa IHb|n es IH] using expr_ind2; cbn [read_work size]; try lia.
  - apply le_n_S. induction IH as [|e es E _ IH]; [cbn; lia|]. change (read_work e + list_sum (map read_work es) <= size e + list_sum (map size es)). lia.
  - apply le_n_S. induction IH as [|[k v] ps [E1 E2] _ IH]; [cbn; lia|]. cbn [fst snd] in *.
    set (rd := fun kv : expr * expr => read_work (fst kv) + read_work (snd kv)) in *. set (hd := fun kv : expr * expr => size (fst kv) + size (snd kv)) in *.
    change (rd (k, v) + list_sum (map rd ps) <= hd (k, v) + list_sum (map hd ps)). unfold rd at 1, hd at 1. cbn [fst snd]. lia.
Qed.

(** ** a text has no more expressions than characters *)
Lemma syntax_size b :
  (forall e w, syntax b e w -> size e <= length w) /\ (forall es w, syntax_list b es w -> sizes es <= length w) /\
  (forall ps w, syntax_pairs b ps w -> pair_sizes ps <= length w) /\ (forall es w, syntax_block b es w -> sizes es <= length w).
Proof.
  apply (syntax_all b (fun e w _ => size e <= length w) (fun es w _ => sizes es <= length w) (fun ps w _ => pair_sizes ps <= length w) (fun es w _ => sizes es <= length w)); intros;
    rewrite ?size_arr, ?size_call, ?size_map, ?size_if, ?sizes_cons, ?pair_sizes_cons; cbn [size length]; repeat (rewrite ?app_length; cbn [length]); try lia;
    repeat match goal with |- context [sizes []] => change (sizes []) with 0 | |- context [pair_sizes []] => change (pair_sizes []) with 0 end; lia.
Qed.
Definition item_size (i : item) : nat := match i with IExpr e => size e | IRequest _ _ es => sizes es | ITest _ b => sizes b end.
Lemma items_size is w : syntax_items is w -> list_sum (map item_size is) <= length w.
Proof.
  destruct (syntax_size false) as (X1 & X2 & X3 & X4).
  assert (IT : forall i w, syntax_item false i w -> item_size i <= length w).
  { intros i w' H. destruct H; cbn [item_size length]; try (now apply X1); rewrite ?app_length; try (apply X2 in H; lia); try (apply X4 in H; lia). cbn; lia. }
  induction 1 as [|i w is w' Hi Hs IH|i w is w' Hi Hs IH]; [cbn; lia| |]; rewrite app_length; cbn [length]; apply IT in Hi; change (list_sum (map item_size (i :: is))) with (item_size i + list_sum (map item_size is)); lia.
Qed.
Lemma in_sum {A} (f : A -> nat) x l : In x l -> f x <= list_sum (map f l).
Proof. intros I. induction l as [|y l IH]; [easy|]. change (list_sum (map f (y :: l))) with (f y + list_sum (map f l)). destruct I as [->|I]; [lia|]. apply IH in I. lia. Qed.
Theorem source_size text src : parse text = Ok src ->
  sizes (s_exprs src) <= length text /\
  (forall n m es, mget n (s_requests src) = Some (m, es) -> sizes es <= length text) /\
  (forall n b, mget n (s_tests src) = Some b -> sizes b <= length text).
Proof.
  intros P. destruct (accounted _ _ P) as (is & w & S & Si & X & Y & Z). pose proof (segment_length text) as L. rewrite S, app_length in L. cbn [length] in L.
  pose proof (items_size _ _ Si) as H. rewrite X. repeat split.
  - etransitivity; [|etransitivity; [exact H|lia]]. clear. induction is as [|i is IH]; [cbn; lia|]. change (item_exprs (i :: is)) with ((match i with IExpr e => [e] | _ => [] end) ++ item_exprs is). rewrite sizes_app.
    change (list_sum (map item_size (i :: is))) with (item_size i + list_sum (map item_size is)). destruct i; cbn [item_size]; rewrite ?sizes_cons; change (sizes []) with 0; lia.
  - intros n m es E. apply Y in E. destruct E as (a & b & E & _). assert (I : In (n, (m, es)) (item_requests is)) by (rewrite E; apply in_or_app; right; now left).
    apply in_flat_map in I. destruct I as (i & Ii & I). destruct i; cbn in I; try contradiction. destruct I as [I|[]]. injection I as -> -> ->. apply (in_sum item_size) in Ii. cbn [item_size] in Ii. lia.
  - intros n b E. apply Z in E. destruct E as (a & b' & E & _). assert (I : In (n, b) (item_tests is)) by (rewrite E; apply in_or_app; right; now left).
    apply in_flat_map in I. destruct I as (i & Ii & I). destruct i; cbn in I; try contradiction. destruct I as [I|[]]. injection I as -> ->. apply (in_sum item_size) in Ii. cbn [item_size] in Ii. lia.
Qed.
Theorem body_work_length text : parse text <> Diverge -> body_work text <= 4 * length text + 7.
Proof.
  intros D. unfold body_work. pose proof (parse_work_length text D) as L. destruct (parse text) as [src|e| |] eqn:P; try lia. destruct (source_size _ _ P) as [H _].
  destruct (s_exprs src) as [|e es]; [lia|]. pose proof (read_size e) as R. rewrite sizes_cons in H. lia.
Qed.
Lemma work_call_one w n vs s : work_call_at w 1 n vs s =
  match ctx_request (s_ctx s) n with
  | Some (message, asserts) => work_request_call w (work_eval (e_host w) (work_call_at w 0)) n message asserts s
  | None => idle (native_call (e_host w) n vs) s
  end.
Proof. reflexivity. Qed.
Lemma takes_call w A B n vs : answers w B -> takes A (A + (4 * B + 7)) 0 (work_call_at w 1 n vs).
Proof.
  intros W s F D. rewrite work_call_one in *. destruct (ctx_request (s_ctx s) n) as [[message asserts]|] eqn:R; [|now apply takes_native].
  pose proof (F _ _ _ R) as HA. unfold work_request_call in *. cbv zeta in *. set (msg := substitute (var_text (e_host w) (s_ctx s)) message) in *.
  set (K := A + (4 * B + 7)). assert (EM : sends (emit (Sent msg) s) = sends s + 1) by (unfold sends, emit; cbn [s_trace]; rewrite sent_app; reflexivity).
  destruct (client_send _ _ _) as [[[[rq rs] t] er]|e| |] eqn:C; try (cbn [fst snd]; rewrite EM; split; [lia|exact F]); try (now destruct D).
  apply W in C. assert (BD : parse (rs_body rs) <> Diverge -> body_work (rs_body rs) <= 4 * B + 7) by (intros X; pose proof (body_work_length _ X); lia).
  assert (TM : to_map (e_host w) rs <> Diverge -> parse (rs_body rs) <> Diverge) by (unfold to_map; destruct (parse (rs_body rs)); congruence).
  destruct (to_map (e_host w) rs) as [m|e| |]; try (cbn [fst snd]; rewrite EM; specialize (BD (TM ltac:(discriminate))); unfold K; split; [lia|exact F]); try (now destruct D).
  specialize (BD (TM ltac:(discriminate))).
  assert (E : forall e, takes A K (size e) (work_eval (e_host w) (work_call_at w 0) e)).
  { intros e. apply takes_eval. intros n' vs' s' F' D'. cbn [work_call_at] in *. destruct (ctx_request (s_ctx s') n') as [[? ?]|]; [now destruct D'|now apply takes_native]. }
  pose proof (takes_asserts A K (e_host w) _ asserts E (St (ctx_from m) (s_trace (emit (Sent msg) s))) (fits_map A m _)) as T. cbn [fst snd] in *.
  change (sends (St (ctx_from m) (s_trace (emit (Sent msg) s)))) with (sends (emit (Sent msg) s)) in T. rewrite EM in T.
  destruct (work_asserts (e_host w) _ asserts _) as [[[a|e| |] s'] k]; cbn [fst snd] in *; try (now destruct D); (destruct (T ltac:(discriminate)) as [T1 _]; split; [|exact F];
    match goal with |- context [sends (St ?c (s_trace s'))] => change (sends (St c (s_trace s'))) with (sends s') end; unfold K in *; lia).
Qed.
(** A call of eval_expr for each expression at most once, and the assertions and the body for each request sent *)
Theorem eval_work_bound w A B es s : answers w B -> (forall n m as_, ctx_request (s_ctx s) n = Some (m, as_) -> sizes as_ <= A) -> fst (eval_block w es s) <> Diverge ->
  snd (work_eval_block w es s) <= sizes es + (sent (s_trace (snd (eval_block w es s))) - sent (s_trace s)) * (A + (4 * B + 7)).
Proof.
  intros W F D. rewrite <- work_eval_same in *.
  destruct (takes_exprs A (A + (4 * B + 7)) (e_host w) (work_call_at w 1) (fun n vs => takes_call w A B n vs W) es VNull s F D) as [T _].
  change (work_exprs (e_host w) (work_call_at w 1) VNull es) with (work_eval_block w es) in T. unfold sends in T. nia.
Qed.
Lemma calls_size e : call_count e <= size e.
Proof.
  induction e as [z|f|b|x|es IH|ps IH|e i IHe IHi|e f IHe|n|n e IHe|t e IHe|t l r IHl IHr|e IHe|c a b IHc IHa IHb|n es IH] using expr_ind2; rewrite ?size_arr, ?size_call, ?size_map, ?size_if; cbn [call_count size]; try lia.
  - induction IH as [|e es E _ IH]; [cbn; lia|]. rewrite sizes_cons. change (call_count e + list_sum (map call_count es) <= S (size e + sizes es)). lia.
  - induction IH as [|[k v] ps [E1 E2] _ IH]; [cbn; lia|]. rewrite pair_sizes_cons. cbn [fst snd] in *.
    set (cc := fun kv : expr * expr => call_count (fst kv) + call_count (snd kv)) in *. change (cc (k, v) + list_sum (map cc ps) <= S (size k + size v + pair_sizes ps)). unfold cc at 1. cbn [fst snd]. lia.
  - assert (L : forall es, Forall (fun e => call_count e <= size e) es -> list_sum (map call_count es) <= sizes es).
    { induction 1 as [|x xs Hx _ I]; [cbn; lia|]. rewrite sizes_cons. change (call_count x + list_sum (map call_count xs) <= size x + sizes xs). lia. }
    apply L in IHa. apply L in IHb. lia.
  - apply le_n_S. induction IH as [|e es E _ IH]; [cbn; lia|]. rewrite sizes_cons. change (call_count e + list_sum (map call_count es) <= size e + sizes es). lia.
Qed.
Theorem source_work text src w B es s : parse text = Ok src -> answers w B -> (forall n, ctx_request (s_ctx s) n = mget n (s_requests src)) ->
  es = s_exprs src \/ (exists n, mget n (s_tests src) = Some es) -> fst (eval_block w es s) <> Diverge ->
  snd (work_eval_block w es s) <= length text * (length text + 4 * B + 8).
Proof.
  intros P W R E D. destruct (source_size _ _ P) as (X & Y & Z). assert (H : sizes es <= length text) by (destruct E as [->|[n E]]; eauto).
  pose proof (eval_work_bound w (length text) B es s W ltac:(intros n m as_ Q; rewrite R in Q; eauto) D) as T.
  destruct (eval_block w es s) as [o s'] eqn:EV. destruct (block_requests_sent _ _ _ _ _ EV) as (recs & tr & _ & TR & C & _). cbn [fst snd] in *. rewrite TR, sent_app in T.
  assert (CS : list_sum (map call_count es) <= sizes es).
  { clear. induction es as [|e es IH]; [cbn; lia|]. rewrite sizes_cons. change (call_count e + list_sum (map call_count es) <= size e + sizes es). pose proof (calls_size e). lia. }
  replace (sent (s_trace s) + sent tr - sent (s_trace s)) with (sent tr) in T by lia. nia.
Qed.

(** ** what is needed in any case *)
Lemma tbind_ok {A B} (m : evw A) (k : A -> evw B) s b : fst (fst (tbind m k s)) = Ok b ->
  exists a s', fst (m s) = (Ok a, s') /\ fst (fst (k a s')) = Ok b /\ snd (tbind m k s) = snd (m s) + snd (k a s').
Proof. unfold tbind. destruct (fst (m s)) as [[a|e| |] s'] eqn:E; cbn [fst snd]; try discriminate. intros H. exists a, s'. auto. Qed.
Section Lower.
  Variable h : host.
  Variable call : str -> list value -> evw value.
  Definition asks (e : expr) : Prop := everywhere eager1 e -> forall s v, fst (fst (work_eval h call e s)) = Ok v -> size e <= snd (work_eval h call e s).
  Definition wargs := (fix work_args (es : list expr) : evw (list value) :=
        match es with [] => idle (ret []) | e :: es' => tbind (work_eval h call e) (fun v => tbind (work_args es') (fun vs => idle (ret (v :: vs)))) end).
  Definition wpairs := (fix work_pairs (m : amap value) (ps : list (expr * expr)) : evw (amap value) :=
        match ps with [] => idle (ret m) | (k, v) :: ps' => tbind (work_eval h call k) (fun kv => tbind (work_eval h call v) (fun vv => work_pairs (mset (show_value h kv) vv m) ps')) end).
  Lemma wargs_cons e es : wargs (e :: es) = tbind (work_eval h call e) (fun v => tbind (wargs es) (fun vs => idle (ret (v :: vs)))).
  Proof. reflexivity. Qed.
  Lemma wpairs_cons m k v ps : wpairs m ((k, v) :: ps) = tbind (work_eval h call k) (fun kv => tbind (work_eval h call v) (fun vv => wpairs (mset (show_value h kv) vv m) ps)).
  Proof. reflexivity. Qed.
  Lemma asks_list es : Forall asks es -> Forall (everywhere eager1) es -> forall s vs, fst (fst (wargs es s)) = Ok vs -> sizes es <= snd (wargs es s).
  Proof.
    intros N E. induction N as [|e es Ne _ IH]; intros s vs H; [cbn; lia|]. inversion E as [|? ? Ee Ees]; subst. rewrite sizes_cons.
    rewrite wargs_cons in *. apply tbind_ok in H. destruct H as (v & s1 & H1 & H2 & ->). apply tbind_ok in H2. destruct H2 as (vs' & s2 & H3 & H4 & ->).
    specialize (Ne Ee s v ltac:(now rewrite H1)). specialize (IH Ees s1 vs' ltac:(now rewrite H3)). lia.
  Qed.
  Lemma asks_pairs ps : Forall (fun kv => asks (fst kv) /\ asks (snd kv)) ps -> Forall (fun kv => everywhere eager1 (fst kv) /\ everywhere eager1 (snd kv)) ps -> forall m s vs, fst (fst (wpairs m ps s)) = Ok vs -> pair_sizes ps <= snd (wpairs m ps s).
  Proof.
    intros N E. induction N as [|[k v] ps [Nk Nv] _ IH]; intros m s vs H; [cbn; lia|]. inversion E as [|? ? [Ek Ev] Eps]; subst. cbn [fst snd] in *. rewrite pair_sizes_cons.
    rewrite wpairs_cons in *. apply tbind_ok in H. destruct H as (kv & s1 & H1 & H2 & ->). apply tbind_ok in H2. destruct H2 as (vv & s2 & H3 & H4 & ->).
    specialize (Nk Ek s kv ltac:(now rewrite H1)). specialize (Nv Ev s1 vv ltac:(now rewrite H3)). specialize (IH Eps _ _ _ H4). lia.
  Qed.
  Lemma asks_all e : asks e.
  Proof.
    induction e as [z|f|b|x|es IH|ps IH|e i IHe IHi|e f IHe|n|n e IHe|t e IHe|t l r IHl IHr|e IHe|c a b IHc IHa IHb|n es IH] using expr_ind2; intros EV s v H;
      apply everywhere_eq in EV; destruct EV as [E1 E2]; cbn [eager1] in E1;
      rewrite ?size_arr, ?size_call, ?size_map, ?size_if; cbn [work_eval size] in *; unfold stepped in *; cbn [fst snd] in *; apply le_n_S; try lia.
    - apply tbind_ok in H. destruct H as (vs & s1 & H1 & H2 & ->). pose proof (asks_list es IH E2 s vs) as X. unfold wargs in X. rewrite H1 in X. specialize (X eq_refl). lia.
    - apply tbind_ok in H. destruct H as (vs & s1 & H1 & H2 & ->). pose proof (asks_pairs ps IH E2 [] s vs) as X. unfold wpairs in X. rewrite H1 in X. specialize (X eq_refl). lia.
    - apply tbind_ok in H. destruct H as (v1 & s1 & H1 & H2 & ->). apply tbind_ok in H2. destruct H2 as (v2 & s2 & H3 & H4 & ->). destruct E2 as [E2 E3].
      specialize (IHe E2 s v1 ltac:(now rewrite H1)). specialize (IHi E3 s1 v2 ltac:(now rewrite H3)). lia.
    - apply tbind_ok in H. destruct H as (v1 & s1 & H1 & H2 & ->). specialize (IHe E2 s v1 ltac:(now rewrite H1)). lia.
    - apply tbind_ok in H. destruct H as (v1 & s1 & H1 & H2 & ->). specialize (IHe E2 s v1 ltac:(now rewrite H1)). lia.
    - apply tbind_ok in H. destruct H as (v1 & s1 & H1 & H2 & ->). specialize (IHe E2 s v1 ltac:(now rewrite H1)). lia.
    - destruct E2 as [E2 E3]. destruct (strict_op h (tkind t)).
      + apply tbind_ok in H. destruct H as (v1 & s1 & H1 & H2 & ->). apply tbind_ok in H2. destruct H2 as (v2 & s2 & H3 & H4 & ->).
        specialize (IHl E2 s v1 ltac:(now rewrite H1)). specialize (IHr E3 s1 v2 ltac:(now rewrite H3)). lia.
      + destruct (tkind t); try discriminate H; destruct E1; congruence.
    - apply (IHe E2 s v H).
    - apply tbind_ok in H. destruct H as (vs & s1 & H1 & H2 & ->). pose proof (asks_list es IH E2 s vs) as X. unfold wargs in X. rewrite H1 in X. specialize (X eq_refl). lia.
  Qed.
End Lower.
Theorem eval_work_needed w e s v : everywhere eager1 e -> fst (eval_block w [e] s) = Ok v -> size e <= snd (work_eval_block w [e] s).
Proof.
  intros E H. rewrite <- work_eval_same in H. unfold work_eval_block in *. cbn [work_exprs] in *. apply tbind_ok in H. destruct H as (v1 & s1 & H1 & H2 & ->).
  pose proof (asks_all _ _ e E s v1 ltac:(now rewrite H1)). lia.
Qed.
Lemma tbind_least {A B} (m : evw A) (k : A -> evw B) s : snd (m s) <= snd (tbind m k s).
Proof. unfold tbind. destruct (m s) as [[[a|e| |] s'] n]; cbn; lia. Qed.
(** a request costs the reading of its answer *)
Theorem call_work w n s message asserts rq rs t er : ctx_request (s_ctx s) n = Some (message, asserts) ->
  client_send (e_prepare w) (e_net w (s_trace s) (substitute (var_text (e_host w) (s_ctx s)) message)) (substitute (var_text (e_host w) (s_ctx s)) message) = Ok (rq, rs, t, er) ->
  S (body_work (rs_body rs)) <= snd (work_eval_block w [ECall n []] s) /\
  forall src, parse (rs_body rs) = Ok src -> sizes (s_exprs src) <= body_work (rs_body rs).
Proof.
  intros R C. split.
  - unfold work_eval_block. cbn [work_exprs]. etransitivity; [|apply tbind_least]. cbn [work_eval]. unfold stepped. cbn [snd]. apply le_n_S. unfold tbind at 1. cbn [idle ret fst snd].
    change (0 + ?x) with x. rewrite work_call_one, R. unfold work_request_call. cbv zeta. rewrite C.
    destruct (to_map _ _); cbn [snd]; lia.
  - intros src P. unfold body_work. pose proof (parse_work_least _ _ P). lia.
Qed.
