(** What depends on the order of map entries *)
From Verif Require Import AnyOrder SpecOrder SpecShow TextProofs SyntaxProofs EqualityProofs EvaluatorProofs.

(** ** texts *)
Definition entry_any plain (m : amap value) (k t : str) : Prop :=
  exists v u, mget k m = Some v /\ debug_any plain v u /\ t = debug_str plain k ++ lit ": " ++ u.
Definition told plain v := orderless v -> forall t u, debug_any plain v t -> debug_any plain v u -> t = u.
Lemma items_unique plain l : Forall (told plain) l -> Forall orderless l -> forall ts us, Forall2 (debug_any plain) l ts -> Forall2 (debug_any plain) l us -> ts = us.
Proof. induction 1 as [|v l Hv _ IH]; intros O ts us A B; inversion A; inversion B; inversion O; subst; auto. f_equal; auto. Qed.
Lemma entries_unique plain m : Forall (fun kv => told plain (snd kv)) m -> orderless (VMap m) -> forall ks js ts us,
  Permutation ks (map fst m) -> Permutation js (map fst m) -> Forall2 (entry_any plain m) ks ts -> Forall2 (entry_any plain m) js us -> ts = us.
Proof.
  intros T O ks js ts us P Q A B. inversion O as [| | | | | | |k v Ov]; subst; cbn [map fst] in *.
  - apply Permutation_sym, Permutation_nil in P. apply Permutation_sym, Permutation_nil in Q. subst. inversion A; inversion B. reflexivity.
  - apply Permutation_sym, Permutation_length_1_inv in P. apply Permutation_sym, Permutation_length_1_inv in Q. subst.
    inversion A as [|? ? ? ? (x & a & X & Xa & ->) N]; subst. inversion B as [|? ? ? ? (y & b & Y & Yb & ->) N']; subst. inversion N; inversion N'; subst.
    cbn [mget] in X, Y. rewrite str_eqb_refl in X, Y. injection X as <-. injection Y as <-. inversion T as [|? ? Tv]; subst. now rewrite (Tv Ov a b).
Qed.
Lemma debug_unique plain v : told plain v.
Proof.
  induction v as [| | | | |l IH|m IH] using value_ind2; intros O t u A B.
  1-5: inversion A; inversion B; subst; auto.
  - inversion A as [| | | | |? ts FA|]; inversion B as [| | | | |? us FB|]; subst. inversion O; subst. now rewrite (items_unique plain l IH H0 ts us).
  - inversion A as [| | | | | |? ks ts PA FA]; inversion B as [| | | | | |? js us PB FB]; subst. now rewrite (entries_unique plain m IH O ks js ts us).
Qed.
Lemma show_unique plain v : orderless v -> forall t u, show_any plain v t -> show_any plain v u -> t = u.
Proof.
  intros O t u A B. destruct v as [| | | | |l|m].
  1-5: inversion A; inversion B; subst; auto.
  - inversion A as [| | | | |? ts FA|]; inversion B as [| | | | |? us FB|]; subst. inversion O; subst. rewrite (items_unique plain l) with (ts := ts) (us := us); auto.
    apply Forall_forall. intros; apply debug_unique.
  - inversion A as [| | | | | |? ks ts PA FA]; inversion B as [| | | | | |? js us PB FB]; subst. rewrite (entries_unique plain m) with (ks := ks) (js := js) (ts := ts) (us := us); auto.
    apply Forall_forall. intros; apply debug_unique.
Qed.

Section Shown.
  Variable h : host.
  Hypothesis O : orders h.
  Lemma mget_shown (g : str * value -> str) (m : amap value) k : In k (map fst m) -> exists v, mget k m = Some v /\ In (k, v) m /\ mget k (map (fun kv => (fst kv, g kv)) m) = Some (g (k, v)).
  Proof.
    induction m as [|[j x] m IH]; intros I; [destruct I|]. cbn [map mget fst]. destruct (str_eqb k j) eqn:E.
    - apply str_eqb_eq in E. subst. exists x. split; [reflexivity|]. split; [now left|]. reflexivity.
    - destruct I as [I|I]; [cbn [fst] in I; subst; rewrite str_eqb_refl in E; discriminate|]. destruct (IH I) as (v & A & B & C). exists v. split; [exact A|]. split; [now right|exact C].
  Qed.
  Lemma entries_shown m : Forall (fun kv => debug_any (h_plain h) (snd kv) (debug_value h (snd kv))) m ->
    Forall2 (entry_any (h_plain h) m) (h_order h (map fst m))
      (map (fun k => match mget k (map (fun kv => (fst kv, debug_str (h_plain h) (fst kv) ++ lit ": " ++ debug_value h (snd kv))) m) with Some x => x | None => [] end) (h_order h (map fst m))).
  Proof.
    intros D. pose proof (O (map fst m)) as P. assert (I : forall k, In k (h_order h (map fst m)) -> In k (map fst m)) by (intros k; apply Permutation_in, P).
    revert I. generalize (h_order h (map fst m)) as ks. clear P. induction ks as [|k ks IH]; intros I; cbn [map]; constructor; [|apply IH; intros; apply I; now right].
    destruct (mget_shown (fun kv => debug_str (h_plain h) (fst kv) ++ lit ": " ++ debug_value h (snd kv)) m k (I k (or_introl eq_refl))) as (v & A & B & C).
    exists v, (debug_value h v). rewrite Forall_forall in D. split; [exact A|]. split; [exact (D _ B)|]. exact (f_equal (fun o => match o with Some x => x | None => [] end) C).
  Qed.
  Lemma debug_possible v : debug_any (h_plain h) v (debug_value h v).
  Proof.
    induction v as [| | | | |l IH|m IH] using value_ind2; try constructor.
    - induction IH; constructor; auto.
    - econstructor; [apply O|]. now apply entries_shown.
  Qed.
  Lemma show_possible v : show_any (h_plain h) v (show_value h v).
  Proof.
    destruct v as [| | | | |l|m]; try constructor.
    - induction l; constructor; auto using debug_possible.
    - econstructor; [apply O|]. apply entries_shown. apply Forall_forall. intros; apply debug_possible.
  Qed.
End Shown.

(** ** one way only, unless a map with several entries is shown *)
(** the model's way is among those possible *)
Definition possible {A} (m : may A) (f : evm A) : Prop := forall s, exists l, m s l (fst (f s)) (snd (f s)).

Lemma do_possible {A} (f : evm A) : possible (may_do f) f.
Proof. intros s. exists []. split; auto. apply surjective_pairing. Qed.
Lemma bind_possible {A B} (m : may A) (k : A -> may B) f g : possible m f -> (forall a, possible (k a) (g a)) -> possible (may_bind m k) (bind f g).
Proof.
  intros M K s. destruct (M s) as [l1 R]. unfold bind. destruct (f s) as [[a|e| |] s1]; cbn [fst snd] in R.
  - destruct (K a s1) as [l2 T]. exists (l1 ++ l2). left. exists a, s1, l1, l2. auto.
  - exists l1. now right.
  - exists l1. now right.
  - exists l1. now right.
Qed.
(** an equal function will do *)
Lemma possible_ext {A} (m : may A) f g : (forall s, f s = g s) -> possible m f -> possible m g.
Proof. intros E P s. rewrite <- E. apply P. Qed.
Lemma show_poss h k v : orders h -> possible (may_show h k v) (ret (show_value h v)).
Proof. intros O s. exists [k v]. cbn. repeat split; auto. exists (show_value h v). split; auto. now apply show_possible. Qed.

Lemma texts_poss h k vs : orders h -> possible (may_texts h k vs) (ret (map (show_value h) vs)).
Proof.
  intros O. induction vs as [|v vs IH]; cbn [may_texts map]; [apply do_possible|].
  apply (possible_ext _ (bind (ret (show_value h v)) (fun t => bind (ret (map (show_value h) vs)) (fun ts => ret (t :: ts))))); auto.
  apply bind_possible; [now apply show_poss|]. intros t. apply bind_possible; auto. intros; apply do_possible.
Qed.
Lemma index_poss h v i : orders h -> possible (may_index h v i) (lift (index_value h v i)).
Proof.
  intros O. unfold may_index. destruct v; try apply do_possible. apply (possible_ext _ (bind (ret (show_value h i)) (fun t => ret (match mget t pairs with Some x => x | None => VNull end)))).
  { intros s. unfold bind, ret, lift. cbn [index_value]. destruct i; now destruct (mget _ pairs). }
  apply bind_possible; [now apply show_poss|]. intros; apply do_possible.
Qed.

(** ** expressions *)
Section Eqs.
  Variables (h : host) (call : str -> list value -> may value).
  Fixpoint mayl (es : list expr) : may (list value) :=
    match es with
    | [] => may_do (ret [])
    | e :: es' => may_bind (may_eval h call e) (fun v => may_bind (mayl es') (fun vs => may_do (ret (v :: vs))))
    end.
  Fixpoint mayp (m : amap value) (ps : list (expr * expr)) : may (amap value) :=
    match ps with
    | [] => may_do (ret m)
    | (k, v) :: ps' => may_bind (may_eval h call k) (fun kv => may_bind (may_eval h call v) (fun vv => may_bind (may_show h ToKeep kv) (fun t => mayp (mset t vv m) ps')))
    end.
  Lemma may_arr es : may_eval h call (EArr es) = may_bind (mayl es) (fun vs => may_do (ret (VArr vs))).
  Proof. reflexivity. Qed.
  Lemma may_map ps : may_eval h call (EMap ps) = may_bind (mayp [] ps) (fun m => may_do (ret (VMap m))).
  Proof. reflexivity. Qed.
  Lemma may_if c a b : may_eval h call (EIf c a b) =
    may_bind (may_eval h call c) (fun cv => if falsy cv then may_exprs h call VNull b else may_exprs h call VNull a).
  Proof. reflexivity. Qed.
  Lemma may_callx n es : may_eval h call (ECall n es) = may_bind (mayl es) (fun vs => call n vs).
  Proof. reflexivity. Qed.
End Eqs.

Section Possible.
  Variables (h : host) (call : str -> list value -> may value) (call' : str -> list value -> evm value).
  Hypothesis O : orders h.
  Hypothesis C : forall n vs, possible (call n vs) (call' n vs).
  Let ok e := possible (may_eval h call e) (eval h call' e).
  Lemma mayl_poss es : Forall ok es -> possible (mayl h call es) (evl h call' es).
  Proof. induction 1; cbn [mayl evl]; [apply do_possible|]. apply bind_possible; auto. intros v. apply bind_possible; auto. intros; apply do_possible. Qed.
  Lemma mayp_poss ps : Forall (fun kv => ok (fst kv) /\ ok (snd kv)) ps -> forall m, possible (mayp h call m ps) (evp h call' m ps).
  Proof.
    induction 1 as [|[k v] ps [K V] _ IH]; intros m; cbn [mayp evp]; [apply do_possible|]. apply bind_possible; [exact K|]. intros x. apply bind_possible; [exact V|]. intros y.
    apply (possible_ext _ (bind (ret (show_value h x)) (fun t => evp h call' (mset t y m) ps))); auto. apply bind_possible; [now apply show_poss|]. auto.
  Qed.
  Lemma exprs_poss es : Forall ok es -> forall v, possible (may_exprs h call v es) (eval_exprs h call' v es).
  Proof. induction 1; intros v; cbn [may_exprs eval_exprs]; [apply do_possible|]. apply bind_possible; auto. Qed.
  Lemma eval_poss e : ok e.
  Proof.
    induction e as [z|f|x|x|es IH|ps IH|e i IHe IHi|e f IHe|n|n e IHe|t e IHe|t l r IHl IHr|e IHe|c p q IHc IHa IHb|n es IH] using expr_ind2; unfold ok; try apply do_possible.
    - rewrite may_arr, eval_arr. apply bind_possible; [now apply mayl_poss|]. intros; apply do_possible.
    - rewrite may_map, eval_map. apply bind_possible; [now apply mayp_poss|]. intros; apply do_possible.
    - apply bind_possible; auto. intros x. apply bind_possible; auto. intros y. now apply index_poss.
    - apply bind_possible; auto. intros; apply do_possible.
    - apply bind_possible; auto. intros; apply do_possible.
    - apply bind_possible; auto. intros; apply do_possible.
    - cbn [may_eval eval]. destruct (strict_op h (tkind t)).
      + apply bind_possible; auto. intros x. apply bind_possible; auto. intros; apply do_possible.
      + destruct (tkind t); try apply do_possible; apply bind_possible; auto; intros v; destruct (falsy v); auto using do_possible.
    - exact IHe.
    - rewrite may_if, eval_if. apply bind_possible; auto. intros v. destruct (falsy v); now apply exprs_poss.
    - rewrite may_callx, eval_callx. apply bind_possible; [now apply mayl_poss|]. auto.
  Qed.
  Lemma block_poss v es : possible (may_exprs h call v es) (eval_exprs h call' v es).
  Proof. apply exprs_poss. apply Forall_forall. intros; apply eval_poss. Qed.
End Possible.

(** ** calls *)
Lemma fold_texts {R} (f : value -> str) (g : str -> R -> str -> str) (rs : list R) : forall vs (s : str),
  fold_left (fun s rt => g s (fst rt) (snd rt)) (combine rs (map f vs)) s = fold_left (fun s rv => g s (fst rv) (f (snd rv))) (combine rs vs) s.
Proof. induction rs as [|r rs IH]; intros [|v vs] s; cbn [combine map fold_left]; auto. Qed.
Lemma format_poss h k vs : orders h -> possible (may_format h k vs) (lift (native_format h vs)).
Proof.
  intros O. unfold may_format, native_format. destruct (pop (rev vs)) as [[v|] rest]; [|apply do_possible]. destruct v; try apply do_possible. cbv zeta.
  destruct (Nat.eqb _ _); [|apply do_possible].
  apply (possible_ext _ (bind (ret (map (show_value h) rest)) (fun ts => ret (VStr (fold_left (fun s0 rt => replace_range s0 (fst rt) (snd rt)) (combine (rev (find_iter s)) ts) s))))).
  { intros s0. unfold bind, ret, lift. now rewrite (fold_texts (show_value h) replace_range). }
  apply bind_possible; [now apply texts_poss|]. intros; apply do_possible.
Qed.
Lemma native_poss h n vs : orders h -> possible (may_native h n vs) (native_call h n vs).
Proof.
  intros O. unfold may_native, native_call. repeat match goal with |- possible (if ?b then _ else _) _ => destruct b end; try apply do_possible.
  - apply (possible_ext _ (bind (lift (native_format h vs)) (fun v => bind (ret (show_value h v)) (fun t s => (Ok VNull, emit (Printed (t ++ [10%N])) s))))).
    { intros s. unfold bind, ret, lift, native_println. now destruct (native_format h vs). }
    apply bind_possible; [now apply format_poss|]. intros v. apply bind_possible; [now apply show_poss|]. intros; apply do_possible.
  - apply (possible_ext _ (bind (lift (native_format h vs)) (fun v => bind (ret (show_value h v)) (fun t s => (Ok VNull, emit (Printed t) s))))).
    { intros s. unfold bind, ret, lift, native_print. now destruct (native_format h vs). }
    apply bind_possible; [now apply format_poss|]. intros v. apply bind_possible; [now apply show_poss|]. intros; apply do_possible.
  - now apply format_poss.
Qed.
Lemma or_null_poss m f : possible m f -> possible (may_or_null m) (or_null f).
Proof.
  intros M s. destruct (M s) as [l R]. exists l. unfold or_null, may_or_null. destruct (f s) as [[a|e| |] s1]; cbn [fst snd] in *; try (left; split; [exact R|discriminate]).
  right. now exists e.
Qed.
Lemma asserts_poss h ev ev' es : orders h -> (forall e, possible (ev e) (ev' e)) -> possible (may_asserts h ev es) (eval_asserts h ev' es).
Proof.
  intros O E. induction es as [|e es IH]; cbn [may_asserts eval_asserts]; [apply do_possible|]. destruct e; auto.
  apply bind_possible; [now apply or_null_poss|]. intros x. apply bind_possible; [now apply or_null_poss|]. intros y.
  apply (possible_ext _ (bind (match compare_op (tkind t) with
     | Some f => bind (ret (show_value h x)) (fun lt => bind (ret (show_value h y)) (fun rt => ret [Assert (show_expr e1 ++ lit " " ++ tlit t ++ lit " " ++ show_expr e2) lt (tlit t) rt (f x y)]))
     | None => ret [] end) (fun a => bind (eval_asserts h ev' es) (fun as_ => ret (a ++ as_))))).
  { intros s. destruct (compare_op (tkind t)); reflexivity. }
  apply bind_possible.
  - destruct (compare_op _); [|apply do_possible]. apply bind_possible; [now apply show_poss|]. intros a. apply bind_possible; [now apply show_poss|]. intros; apply do_possible.
  - intros a. apply bind_possible; auto. intros; apply do_possible.
Qed.
Lemma message_poss h m : orders h -> possible (may_message h m) (fun s => (Ok (substitute (var_text h (s_ctx s)) m), s)).
Proof.
  intros O s. unfold may_message. cbv zeta. set (vs := map _ (rev (find_iter m))).
  destruct (bind_possible _ (fun ts => may_do (ret (fold_left (fun x rt => replace_range x (fst rt) (snd rt)) (combine (rev (find_iter m)) ts) m))) _ (fun ts => ret _) (texts_poss h ToKeep vs O) (fun ts => do_possible _) s) as [l R].
  exists l. cbn [fst snd]. cbn in R. replace (substitute (var_text h (s_ctx s)) m) with (fold_left (fun x rt => replace_range x (fst rt) (snd rt)) (combine (rev (find_iter m)) (map (show_value h) vs)) m); [exact R|].
  subst vs. unfold substitute. rewrite map_map, <- map_rev. generalize (rev (find_iter m)) as rs. clear R. intros rs.
  generalize m at 2 4 as acc. induction rs as [|r rs IH]; intros acc; cbn [map combine fold_left fst snd]; [reflexivity|]. rewrite IH. unfold var_text. now destruct (ctx_get _ _).
Qed.

(** ** bodies *)
Section Json.
  Variable h : host.
  Fixpoint mayi (es : list expr) : may (list value) :=
    match es with
    | [] => may_do (ret [])
    | e :: es' => may_bind (may_json h e) (fun v => may_bind (mayi es') (fun vs => may_do (ret (v :: vs))))
    end.
  Fixpoint maye (ps : list (expr * expr)) : may (list (str * value)) :=
    match ps with
    | [] => may_do (ret [])
    | (k, v) :: ps' =>
        may_bind (may_json h k) (fun kv => may_bind (may_show h ToKeep kv) (fun t => may_bind (may_json h v) (fun vv =>
          may_bind (maye ps') (fun es => may_do (ret ((t, vv) :: es))))))
    end.
  Lemma json_arr es : may_json h (EArr es) = may_bind (mayi es) (fun vs => may_do (ret (VArr vs))).
  Proof. reflexivity. Qed.
  Lemma json_map ps : may_json h (EMap ps) = may_bind (maye ps) (fun es => may_do (ret (VMap (mextend [] es)))).
  Proof. reflexivity. Qed.
  Lemma json_poss e : orders h -> possible (may_json h e) (ret (expr_eval h e)).
  Proof.
    intros O. induction e as [z|f|x|x|es IH|ps IH|e i IHe IHi|e f IHe|n|n e IHe|t e IHe|t l r IHl IHr|e IHe|c p q IHc IHa IHb|n es IH] using expr_ind2; try apply do_possible.
    - rewrite json_arr. apply (possible_ext _ (bind (ret (map (expr_eval h) es)) (fun vs => ret (VArr vs)))); auto. apply bind_possible; [|intros; apply do_possible].
      induction IH as [|e es E _ IH]; cbn [mayi map]; [apply do_possible|]. apply (possible_ext _ (bind (ret (expr_eval h e)) (fun v => bind (ret (map (expr_eval h) es)) (fun vs => ret (v :: vs))))); auto.
      apply bind_possible; auto. intros v. apply bind_possible; auto. intros; apply do_possible.
    - rewrite json_map. set (g := fun kv : expr * expr => (show_value h (expr_eval h (fst kv)), expr_eval h (snd kv))).
      apply (possible_ext _ (bind (ret (map g ps)) (fun es => ret (VMap (mextend [] es))))); auto. apply bind_possible; [|intros; apply do_possible].
      induction IH as [|[k v] ps [K V] _ IH]; cbn [maye map]; [apply do_possible|]. cbn [fst snd] in *.
      apply (possible_ext _ (bind (ret (expr_eval h k)) (fun x => bind (ret (show_value h x)) (fun t => bind (ret (expr_eval h v)) (fun y => bind (ret (map g ps)) (fun es => ret ((t, y) :: es))))))); auto.
      apply bind_possible; auto. intros x. apply bind_possible; [now apply show_poss|]. intros t. apply bind_possible; auto. intros y. apply bind_possible; auto. intros; apply do_possible.
  Qed.
  Lemma to_map_poss r : orders h -> possible (may_to_map h r) (lift (to_map h r)).
  Proof.
    intros O. unfold may_to_map, to_map. cbv zeta. destruct (parse (rs_body r)) as [src| | |]; try apply do_possible. destruct (s_exprs src) as [|e es]; [apply do_possible|].
    eapply possible_ext; [|apply bind_possible; [now apply json_poss|intros v; apply do_possible]]. reflexivity.
  Qed.
End Json.

(** ** requests *)
Lemma request_poss w ev ev' n m es : orders (e_host w) -> (forall e, possible (ev e) (ev' e)) -> possible (may_request w ev n m es) (request_call w ev' n m es).
Proof.
  intros O E. set (chk := fun t rq rs error map_ s =>
    match eval_asserts (e_host w) ev' es (St (ctx_from map_) (s_trace s)) with
    | (Ok as_, sl) => (Ok (VMap (ctx_into_map (s_ctx sl))), St (ctx_push (s_ctx s) (Record_ n t rq rs as_ error)) (s_trace sl))
    | (Err e, sl) => (Err e, St (s_ctx s) (s_trace sl))
    | (Panic, sl) => (Panic, St (s_ctx s) (s_trace sl))
    | (Diverge, sl) => (Diverge, St (s_ctx s) (s_trace sl))
    end).
  apply (possible_ext _ (bind (fun s => (Ok (substitute (var_text (e_host w) (s_ctx s)) m), s)) (fun msg =>
    bind (fun s => (client_send (e_prepare w) (e_net w (s_trace s) msg) msg, emit (Sent msg) s)) (fun x =>
      match x with (rq, rs, t, error) => bind (lift (to_map (e_host w) rs)) (chk t rq rs error) end)))).
  { intros s. unfold bind, lift, request_call. cbv zeta. destruct (client_send _ _ _) as [[[[rq rs] t] error]| | |]; try reflexivity. }
  unfold may_request. apply bind_possible; [now apply message_poss|]. intros msg. apply bind_possible; [apply do_possible|]. intros [[[rq rs] t] error].
  apply bind_possible; [now apply to_map_poss|]. intros map_ s. destruct (asserts_poss (e_host w) ev ev' es O E (St (ctx_from map_) (s_trace s))) as [l R].
  exists l. unfold may_checks, chk. do 2 eexists. split; [exact R|]. destruct (eval_asserts _ _ _ _) as [[a|e| |] sl]; cbn [fst snd]; auto.
Qed.
Lemma call_poss w d : orders (e_host w) -> forall n vs, possible (may_call w d n vs) (call_at w d n vs).
Proof.
  intros O. induction d as [|d IH]; intros n vs s; cbn [may_call call_at]; destruct (ctx_request (s_ctx s) n) as [[m es]|].
  - apply (do_possible (lift Diverge)).
  - now apply native_poss.
  - apply request_poss; auto. intros; now apply eval_poss.
  - now apply native_poss.
Qed.
Lemma run_poss w es : orders (e_host w) -> possible (may_run w es) (eval_block w es).
Proof. intros O. apply block_poss; auto. now apply call_poss. Qed.

(** ** a whole text *)
Lemma error_poss h e : orders h -> possible (may_error h e) (ret (everr_text h e)).
Proof.
  intros O s. unfold may_error, ret. cbn [fst snd]. pose proof (fun v => show_possible h O v) as S. pose proof (fun v => debug_possible h O v) as D.
  destruct e; eexists; (split; [reflexivity|split; [reflexivity|]]); cbn [everr_text]; eauto 10.
Qed.

Lemma command_poss w text : orders (e_host w) -> possible (may_command w text) (command_eval w text).
Proof.
  intros O s. unfold may_command, command_eval. destruct (parse text) as [src|e| |]; try solve [exists []; split; reflexivity]. cbv zeta.
  set (s0 := upd _ s). destruct (run_poss w (s_exprs src) O s0) as [l R]. destruct (eval_block w (s_exprs src) s0) as [[v|e| |] s1]; cbn [fst snd] in *.
  - destruct (show_poss (e_host w) ToRead v O s1) as [l2 T]. exists (l ++ l2). left. exists v, s1, l, l2. eexists. split; [exact R|]. split; [exact T|]. repeat split.
  - destruct (error_poss (e_host w) e O s1) as [l2 T]. exists (l ++ l2). right; left. exists e, s1, l, l2. eexists. split; [exact R|]. split; [exact T|]. repeat split.
  - exists l. right; right; left. split; [exact R|reflexivity].
  - exists l. right; right; right. split; [exact R|reflexivity].
Qed.
