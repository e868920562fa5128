(** Runs that differ in the order of map entries only *)
From Verif Require Import AnyOrder SpecOrder SpecShow TextProofs SyntaxProofs EqualityProofs EvaluatorProofs OrderProofs.

(** [b]: the texts for reading are to agree as well *)
Section Agree.
  Variable b : bool.
  Definition rd (t u : str) : Prop := b = true -> t = u.
  Definition calm (x : shown) : Prop := match x with ToKeep v => orderless v | ToRead v => b = true -> orderless v end.
  Definition al_event (x y : event) : Prop :=
    match x, y with Printed t, Printed u => rd t u | Sent m, Sent n => m = n | _, _ => False end.
  Definition al_check (x y : assertion) : Prop := same_check x y /\ rd (a_left x) (a_left y) /\ rd (a_right x) (a_right y).
  Definition al_record (x y : record) : Prop :=
    r_name x = r_name y /\ r_time x = r_time y /\ r_request x = r_request y /\ r_response x = r_response y /\ r_error x = r_error y /\
    Forall2 al_check (r_asserts x) (r_asserts y).
  Record alike (s t : st) : Prop := Alike {
    al_vars : c_vars (s_ctx s) = c_vars (s_ctx t);
    al_reqs : c_reqs (s_ctx s) = c_reqs (s_ctx t);
    al_recs : Forall2 al_record (c_recs (s_ctx s)) (c_recs (s_ctx t));
    al_trace : Forall2 al_event (s_trace s) (s_trace t) }.
  Definition al_out {A} (R : A -> A -> Prop) (x y : out everr A) : Prop :=
    match x, y with
    | Ok x, Ok y => R x y
    | Err e, Err f => e = f
    | Panic, Panic | Diverge, Diverge => True
    | _, _ => False
    end.
  Definition agree {A} (R : A -> A -> Prop) (m n : may A) : Prop := forall s l o s1, m s l o s1 -> Forall calm l ->
    forall s' l' o' s1', alike s s' -> n s' l' o' s1' -> al_out R o o' /\ alike s1 s1'.

  Lemma do_agree {A} (R : A -> A -> Prop) (f g : evm A) :
    (forall s s', alike s s' -> al_out R (fst (f s)) (fst (g s')) /\ alike (snd (f s)) (snd (g s'))) -> agree R (may_do f) (may_do g).
  Proof. intros H s l o s1 [-> E] _ s' l' o' s1' L [-> E']. specialize (H s s' L). rewrite E, E' in H. exact H. Qed.
  Lemma ret_agree {A} (R : A -> A -> Prop) x y : R x y -> agree R (may_do (ret x)) (may_do (ret y)).
  Proof. intros H. apply do_agree. intros s s' L. split; auto. Qed.
  Lemma lift_agree {A} (o : out everr A) : agree eq (may_do (lift o)) (may_do (lift o)).
  Proof. apply do_agree. intros s s' L. split; auto. now destruct o. Qed.
  Lemma bind_agree {A B} (RA : A -> A -> Prop) (RB : B -> B -> Prop) (m n : may A) (k j : A -> may B) :
    agree RA m n -> (forall x y, RA x y -> agree RB (k x) (j y)) -> agree RB (may_bind m k) (may_bind n j).
  Proof.
    intros M K s l o s1 [(a & s2 & l1 & l2 & R & T & ->)|R] F s' l' o' s1' L H.
    - apply Forall_app in F. destruct F as [F1 F2]. destruct H as [(a' & s2' & l1' & l2' & R' & T' & ->)|R'].
      + destruct (M _ _ _ _ R F1 _ _ _ _ L R') as (Q & L2). exact (K _ _ Q _ _ _ _ T F2 _ _ _ _ L2 T').
      + destruct o'; try (now destruct R'); destruct (M _ _ _ _ R F1 _ _ _ _ L R') as (Q & _); destruct Q.
    - destruct H as [(a' & s2' & l1' & l2' & R' & T' & ->)|R'].
      + destruct o; try (now destruct R); destruct (M _ _ _ _ R F _ _ _ _ L R') as (Q & _); destruct Q.
      + destruct o as [a|e| |], o' as [a'|e'| |]; try (now destruct R); try (now destruct R'); destruct (M _ _ _ _ R F _ _ _ _ L R') as (Q & L2); auto.
  Qed.
  Lemma agree_weak {A} (R S : A -> A -> Prop) m n : (forall x y, R x y -> S x y) -> agree R m n -> agree S m n.
  Proof. intros W G s l o s1 E F s' l' o' s1' L E'. destruct (G _ _ _ _ E F _ _ _ _ L E') as [Q L2]. split; auto. destruct o, o'; cbn in *; auto. Qed.

  Variable w : env.
  Variable order : list str -> list str.
  Let h := e_host w.
  Let w' := reseeded w order.
  Let h' := e_host w'.
  Hypothesis N : forall tr tr' m, Forall2 al_event tr tr' -> e_net w tr m = e_net w tr' m.

  Lemma keep_agree v : agree eq (may_show h ToKeep v) (may_show h' ToKeep v).
  Proof. intros s l o s1 (-> & -> & t & T & ->) F s' l' o' s1' L (-> & -> & u & U & ->). inversion F; subst. split; [|exact L]. exact (show_unique (h_plain h) v H1 t u T U). Qed.
  Lemma read_agree v : agree rd (may_show h ToRead v) (may_show h' ToRead v).
  Proof. intros s l o s1 (-> & -> & t & T & ->) F s' l' o' s1' L (-> & -> & u & U & ->). inversion F; subst. split; [|exact L]. intros B. exact (show_unique (h_plain h) v (H1 B) t u T U). Qed.
  Lemma keep_texts vs : agree eq (may_texts h ToKeep vs) (may_texts h' ToKeep vs).
  Proof.
    induction vs as [|v vs IH]; cbn [may_texts]; [now apply ret_agree|]. eapply bind_agree; [apply keep_agree|]. intros t u ->. eapply bind_agree; [exact IH|]. intros ts us ->. now apply ret_agree.
  Qed.
  Lemma read_texts vs : agree (fun ts us => b = true -> ts = us) (may_texts h ToRead vs) (may_texts h' ToRead vs).
  Proof.
    induction vs as [|v vs IH]; cbn [may_texts]; [now apply ret_agree|]. eapply bind_agree; [apply read_agree|]. intros t u T. eapply bind_agree; [exact IH|]. intros ts us U. apply ret_agree.
    intros B. now rewrite (T B), (U B).
  Qed.
  Lemma index_agree v i : agree eq (may_index h v i) (may_index h' v i).
  Proof.
    unfold may_index. destruct v; try apply lift_agree. eapply bind_agree; [apply keep_agree|]. intros t u ->. now apply ret_agree.
  Qed.

  Section Exprs.
    Variables call call' : str -> list value -> may value.
    Hypothesis C : forall n vs, agree eq (call n vs) (call' n vs).
    Let ok e := agree eq (may_eval h call e) (may_eval h' call' e).
    Lemma mayl_agree es : Forall ok es -> agree eq (mayl h call es) (mayl h' call' es).
    Proof. induction 1; cbn [mayl]; [now apply ret_agree|]. eapply bind_agree; [eassumption|]. intros v ? <-. eapply bind_agree; [eassumption|]. intros vs ? <-. now apply ret_agree. Qed.
    Lemma mayp_agree ps : Forall (fun kv => ok (fst kv) /\ ok (snd kv)) ps -> forall m, agree eq (mayp h call m ps) (mayp h' call' m ps).
    Proof.
      induction 1 as [|[k v] ps [K V] _ IH]; intros m; cbn [mayp]; [now apply ret_agree|]. eapply bind_agree; [exact K|]. intros x ? <-. eapply bind_agree; [exact V|]. intros y ? <-.
      eapply bind_agree; [apply keep_agree|]. intros t ? <-. apply IH.
    Qed.
    Lemma exprs_agree es : Forall ok es -> forall v, agree eq (may_exprs h call v es) (may_exprs h' call' v es).
    Proof. induction 1; intros v; cbn [may_exprs]; [now apply ret_agree|]. eapply bind_agree; [eassumption|]. intros u ? <-. auto. Qed.
    Lemma set_alike s s' n v : alike s s' -> alike (upd (fun c => ctx_set c n v) s) (upd (fun c => ctx_set c n v) s').
    Proof. intros [V Q R T]. constructor; cbn; auto. now rewrite V. Qed.
    Lemma eval_agree e : ok e.
    Proof.
      induction e as [z|f|x|x|es IH|ps IH|e i IHe IHi|e f IHe|n|n e IHe|t e IHe|t l r IHl IHr|e IHe|c p q IHc IHa IHb|n es IH] using expr_ind2; unfold ok; try (now apply ret_agree).
      - rewrite !may_arr. eapply bind_agree; [now apply mayl_agree|]. intros x ? <-. now apply ret_agree.
      - rewrite !may_map. eapply bind_agree; [now apply mayp_agree|]. intros x ? <-. now apply ret_agree.
      - eapply bind_agree; [exact IHe|]. intros x ? <-. eapply bind_agree; [exact IHi|]. intros y ? <-. apply index_agree.
      - eapply bind_agree; [exact IHe|]. intros x ? <-. apply lift_agree.
      - apply do_agree. intros s s' L. unfold ctx_get. rewrite <- (al_vars _ _ L). destruct (mget n _); cbn; auto.
      - eapply bind_agree; [exact IHe|]. intros x ? <-. apply do_agree. intros s s' L. split; [reflexivity|]. now apply set_alike.
      - eapply bind_agree; [exact IHe|]. intros x ? <-. apply lift_agree.
      - cbn [may_eval]. assert (E : strict_op h' (tkind t) = strict_op h (tkind t)) by (destruct (tkind t); reflexivity). rewrite E. destruct (strict_op h (tkind t)).
        + eapply bind_agree; [exact IHl|]. intros x ? <-. eapply bind_agree; [exact IHr|]. intros y ? <-. apply lift_agree.
        + destruct (tkind t); try apply lift_agree; (eapply bind_agree; [exact IHl|]); intros v ? <-; destruct (falsy v); auto; now apply ret_agree.
      - exact IHe.
      - rewrite !may_if. eapply bind_agree; [exact IHc|]. intros v ? <-. destruct (falsy v); now apply exprs_agree.
      - rewrite !may_callx. eapply bind_agree; [now apply mayl_agree|]. intros vs ? <-. apply C.
    Qed.
    Lemma block_agree v es : agree eq (may_exprs h call v es) (may_exprs h' call' v es).
    Proof. apply exprs_agree. apply Forall_forall. intros; apply eval_agree. Qed.
  End Exprs.

  (** ** calls *)
  Lemma format_keep vs : agree eq (may_format h ToKeep vs) (may_format h' ToKeep vs).
  Proof.
    unfold may_format. destruct (pop (rev vs)) as [[v|] rest]; [|apply lift_agree]. destruct v; try apply lift_agree. cbv zeta.
    destruct (Nat.eqb _ _); [|apply lift_agree]. eapply bind_agree; [apply keep_texts|]. intros ts ? <-. now apply ret_agree.
  Qed.
  (** a text, the same one if it is to be *)
  Definition rv (x y : value) : Prop := exists t u, x = VStr t /\ y = VStr u /\ rd t u.
  Lemma format_read vs : agree rv (may_format h ToRead vs) (may_format h' ToRead vs).
  Proof.
    assert (X : forall e, agree rv (may_do (lift (Err e))) (may_do (lift (Err e)))) by (intros e; apply do_agree; cbn; auto).
    unfold may_format. destruct (pop (rev vs)) as [[v|] rest]; [|apply X]. destruct v; try apply X. cbv zeta.
    destruct (Nat.eqb _ _); [|apply X]. eapply bind_agree; [apply read_texts|]. intros ts us T. apply ret_agree. do 2 eexists. split; [reflexivity|]. split; [reflexivity|]. intros B. now rewrite (T B).
  Qed.
  Lemma text_agree x y : rv x y -> agree rd (may_show h ToRead x) (may_show h' ToRead y).
  Proof.
    intros (t & u & -> & -> & T) s l o s1 (-> & -> & a & A & ->) F s' l' o' s1' L (-> & -> & c & D & ->). split; [|exact L]. inversion A; inversion D; subst. exact T.
  Qed.
  Lemma emit_alike s s' t u : alike s s' -> al_event t u -> alike (emit t s) (emit u s').
  Proof. intros [V Q R T] E. constructor; cbn; auto. apply Forall2_app; auto. Qed.
  Lemma native_agree n vs : agree eq (may_native h n vs) (may_native h' n vs).
  Proof.
    unfold may_native. repeat match goal with |- agree _ (if ?b then _ else _) _ => destruct b end; try apply lift_agree.
    - eapply bind_agree; [apply format_read|]. intros x y X. eapply bind_agree; [now apply text_agree|]. intros t u T. apply do_agree. intros s s' L. split; [reflexivity|]. apply emit_alike; auto.
      intros B. now rewrite (T B).
    - eapply bind_agree; [apply format_read|]. intros x y X. eapply bind_agree; [now apply text_agree|]. intros t u T. apply do_agree. intros s s' L. split; [reflexivity|]. apply emit_alike; auto.
    - apply format_keep.
  Qed.
  Lemma or_null_agree m n : agree eq m n -> agree eq (may_or_null m) (may_or_null n).
  Proof.
    intros M s l o s1 [[R E]|(e & R & ->)] F s' l' o' s1' L [[R2 E2]|(e2 & R2 & ->)]; destruct (M _ _ _ _ R F _ _ _ _ L R2) as (Q & L2); split; auto; try exact L2.
    - destruct o; try (now destruct Q). now destruct (E e).
    - destruct o'; try (now destruct Q). now destruct (E2 e0).
    - reflexivity.
  Qed.
  Lemma asserts_agree ev ev' es : (forall e, agree eq (ev e) (ev' e)) -> agree (Forall2 al_check) (may_asserts h ev es) (may_asserts h' ev' es).
  Proof.
    intros E. induction es as [|e es IH]; cbn [may_asserts]; [apply ret_agree; constructor|]. destruct e; auto.
    eapply bind_agree; [apply or_null_agree, E|]. intros x ? <-. eapply bind_agree; [apply or_null_agree, E|]. intros y ? <-.
    apply (bind_agree (Forall2 al_check)).
    - destruct (compare_op _); [|apply ret_agree; constructor]. eapply bind_agree; [apply read_agree|]. intros t1 u1 T1. eapply bind_agree; [apply read_agree|]. intros t2 u2 T2. apply ret_agree.
      repeat constructor; auto.
    - intros a c A. eapply bind_agree; [exact IH|]. intros x1 y1 X. apply ret_agree. now apply Forall2_app.
  Qed.
  Lemma message_agree m : agree eq (may_message h m) (may_message h' m).
  Proof.
    intros s l o s1 R F s' l' o' s1' L R'. unfold may_message in R, R'. cbv zeta in R, R'. unfold ctx_get in R, R'. rewrite <- (al_vars _ _ L) in R'.
    eapply (bind_agree eq eq); [apply keep_texts| |exact R|exact F|exact L|exact R']. intros ts ? <-. now apply ret_agree.
  Qed.
  Lemma json_agree e : agree eq (may_json h e) (may_json h' e).
  Proof.
    induction e as [z|f|x|x|es IH|ps IH|e i IHe IHi|e f IHe|n|n e IHe|t e IHe|t l r IHl IHr|e IHe|c p q IHc IHa IHb|n es IH] using expr_ind2; try (now apply ret_agree).
    - rewrite !json_arr. eapply bind_agree; [|intros vs ? <-; now apply ret_agree]. induction IH; cbn [mayi]; [now apply ret_agree|]. eapply bind_agree; [eassumption|]. intros v ? <-. eapply bind_agree; [eassumption|].
      intros vs ? <-. now apply ret_agree.
    - rewrite !json_map. eapply bind_agree; [|intros vs ? <-; now apply ret_agree]. induction IH as [|[k v] ps [K V] _ IH]; cbn [maye]; [now apply ret_agree|]. cbn [fst snd] in *.
      eapply bind_agree; [exact K|]. intros x ? <-. eapply bind_agree; [apply keep_agree|]. intros t ? <-. eapply bind_agree; [exact V|]. intros y ? <-. eapply bind_agree; [exact IH|]. intros vs ? <-. now apply ret_agree.
  Qed.
  Lemma to_map_agree r : agree eq (may_to_map h r) (may_to_map h' r).
  Proof.
    unfold may_to_map. cbv zeta. destruct (parse (rs_body r)) as [src| | |]; try apply lift_agree; try (now apply ret_agree). destruct (s_exprs src); [now apply ret_agree|].
    eapply bind_agree; [apply json_agree|]. intros v ? <-. now apply ret_agree.
  Qed.
  Lemma checks_agree ev ev' n t rq rs error es m : (forall e, agree eq (ev e) (ev' e)) -> agree eq (may_checks h ev n t rq rs error es m) (may_checks h' ev' n t rq rs error es m).
  Proof.
    intros E s l o s1 (oa & sl & R & H) F s' l' o' s1' [V Q K T] (oa' & sl' & R' & H').
    assert (L : alike (St (ctx_from m) (s_trace s)) (St (ctx_from m) (s_trace s'))) by (constructor; cbn; auto).
    destruct (asserts_agree ev ev' es E _ _ _ _ R F _ _ _ _ L R') as (O & [V2 Q2 K2 T2]).
    destruct oa, oa'; try (now destruct O); cbn in O; destruct H as [-> ->], H' as [-> ->]; split; try exact I; try (constructor; cbn; now auto).
    - cbn. unfold ctx_into_map. now rewrite V2.
    - constructor; cbn; auto. apply Forall2_app; auto. repeat constructor; auto.
    - exact O.
  Qed.
  Lemma request_agree ev ev' n m es : (forall e, agree eq (ev e) (ev' e)) -> agree eq (may_request w ev n m es) (may_request w' ev' n m es).
  Proof.
    intros E. unfold may_request. eapply bind_agree; [apply message_agree|]. intros msg ? <-. apply (bind_agree eq).
    - apply do_agree. intros s s' L. cbn [fst snd]. rewrite (N (s_trace s) (s_trace s') msg (al_trace _ _ L)). split; [cbn; now destruct (client_send _ _ _)|]. now apply emit_alike.
    - intros [[[rq rs] t] error] ? <-. eapply bind_agree; [apply to_map_agree|]. intros mp ? <-. now apply checks_agree.
  Qed.
  Lemma call_agree d : forall n vs, agree eq (may_call w d n vs) (may_call w' d n vs).
  Proof.
    induction d as [|d IH]; intros n vs s l o s1 R F s' l' o' s1' L R'; cbn [may_call] in R, R'; unfold ctx_request in R, R'; rewrite <- (al_reqs _ _ L) in R'; destruct (mget n _) as [[m es]|].
    - exact (lift_agree Diverge _ _ _ _ R F _ _ _ _ L R').
    - exact (native_agree n vs _ _ _ _ R F _ _ _ _ L R').
    - exact (request_agree _ _ n m es (eval_agree _ _ IH) _ _ _ _ R F _ _ _ _ L R').
    - exact (native_agree n vs _ _ _ _ R F _ _ _ _ L R').
  Qed.
  Lemma run_agree es : agree eq (may_run w es) (may_run w' es).
  Proof. apply block_agree, call_agree. Qed.

  (** ** a whole text *)
  Lemma error_agree e : agree rd (may_error h e) (may_error h' e).
  Proof.
    intros s l o s1 [-> R] F s' l' o' s1' L [-> R2]. split; [|exact L]. destruct e; destruct R as [-> R], R2 as [_ R2]; try (subst; cbn; now intros _).
    - destruct R as (a & c & A & C & ->), R2 as (a' & c' & A' & C' & ->). inversion F as [|? ? F1 F']; subst. inversion F'; subst.
      intros B. now rewrite (show_unique (h_plain h) l0 (F1 B) a a' A A'), (show_unique (h_plain h) r (H1 B) c c' C C').
    - destruct R as (a & A & ->), R2 as (c & C & ->). inversion F; subst. intros B. now rewrite (debug_unique (h_plain h) v (H1 B) a c A C).
    - destruct R as (a & A & ->), R2 as (c & C & ->). inversion F; subst. intros B. now rewrite (debug_unique (h_plain h) v (H1 B) a c A C).
    - destruct R as (a & A & ->), R2 as (c & C & ->). inversion F; subst. intros B. now rewrite (debug_unique (h_plain h) v (H1 B) a c A C).
    - destruct R as (a & A & ->), R2 as (c & C & ->). inversion F; subst. intros B. now rewrite (debug_unique (h_plain h) v (H1 B) a c A C).
  Qed.
  Lemma print_alike s s' t u : alike s s' -> rd t u -> alike (println_ t s) (println_ u s').
  Proof. intros L T. apply emit_alike; auto. intros B. now rewrite (T B). Qed.
  Lemma then_agree m m' ok ok' err err' : agree eq m m' -> (forall v, agree rd (ok v) (ok' v)) -> (forall e, agree rd (err e) (err' e)) -> agree eq (may_then m ok err) (may_then m' ok' err').
  Proof.
    intros M O E s l o s1 R F s' l' o' s1' L R2.
    destruct R as [(v & s2 & a & c & t & R & T & -> & -> & ->)|[(v & s2 & a & c & t & R & T & -> & -> & ->)|[[R ->]|[R ->]]]];
    destruct R2 as [(v2 & s12 & a2 & c2 & t2 & R2 & T2 & -> & -> & ->)|[(v2 & s12 & a2 & c2 & t2 & R2 & T2 & -> & -> & ->)|[[R2 ->]|[R2 ->]]]];
    try (apply Forall_app in F; destruct F as [F F2]); destruct (M _ _ _ _ R F _ _ _ _ L R2) as (Q & L2); try (now destruct Q); auto; cbn in Q; subst v2.
    - destruct (O _ _ _ _ _ T F2 _ _ _ _ L2 T2) as (Q & _). split; [reflexivity|]. now apply print_alike.
    - destruct (E _ _ _ _ _ T F2 _ _ _ _ L2 T2) as (Q & _). split; [reflexivity|]. now apply print_alike.
  Qed.
  Lemma extend_alike s s' q : alike s s' -> alike (upd (fun c => ctx_extend c q) s) (upd (fun c => ctx_extend c q) s').
  Proof. intros [V Q R T]. constructor; cbn; auto. now rewrite Q. Qed.
  Lemma command_agree text : agree eq (may_command w text) (may_command w' text).
  Proof.
    intros s l o s1 R F s' l' o' s1' L R2. unfold may_command in *. destruct (parse text) as [src|e| |].
    - exact (then_agree _ _ _ _ _ _ (run_agree (s_exprs src)) read_agree error_agree _ _ _ _ R F _ _ _ _ (extend_alike _ _ _ L) R2).
    - destruct R as [-> R], R2 as [-> R2]. injection R as <- <-. injection R2 as <- <-. split; [reflexivity|]. apply print_alike; auto. now intros _.
    - destruct R as [-> R], R2 as [-> R2]. injection R as <- <-. injection R2 as <- <-. split; [exact I|exact L].
    - destruct R as [-> R], R2 as [-> R2]. injection R as <- <-. injection R2 as <- <-. split; [exact I|exact L].
  Qed.
End Agree.

(** ** results *)
Lemma Forall2_eq {A} (R : A -> A -> Prop) : (forall x y, R x y -> x = y) -> forall l m, Forall2 R l m -> l = m.
Proof. intros H l m F. induction F; f_equal; auto. Qed.
Lemma Forall2_map_rel {A} (R S : A -> A -> Prop) : (forall x y, R x y -> S x y) -> forall l m, Forall2 R l m -> Forall2 S l m.
Proof. intros H l m F. induction F; constructor; auto. Qed.
Lemma Forall2_same {A} (R : A -> A -> Prop) : (forall x, R x x) -> forall l, Forall2 R l l.
Proof. intros H l. induction l; constructor; auto. Qed.
Lemma event_eq x y : al_event true x y -> x = y.
Proof. destruct x, y; cbn; try easy; [intros H; now rewrite (H eq_refl)|congruence]. Qed.
Lemma check_eq x y : al_check true x y -> x = y.
Proof. destruct x, y. intros ((A & B & C) & L & R). cbn in *. now rewrite A, B, C, (L eq_refl), (R eq_refl). Qed.
Lemma record_eq x y : al_record true x y -> x = y.
Proof. destruct x, y. intros (A & B & C & D & E & F). cbn in *. apply (Forall2_eq _ check_eq) in F. congruence. Qed.
Lemma alike_eq s t : alike true s t -> s = t.
Proof.
  destruct s as [[a c d] e], t as [[a' c' d'] e']. intros [V Q R T]; cbn in *. apply (Forall2_eq _ record_eq) in R. apply (Forall2_eq _ event_eq) in T. congruence.
Qed.
Lemma alike_refl b s : alike b s s.
Proof.
  constructor; auto; apply Forall2_same.
  - intros r. repeat split; auto. apply Forall2_same. intros a. repeat split; auto.
  - intros [t|m]; cbn; auto. now intros _.
Qed.
Lemma alike_same s t : alike false s t <-> same_state s t.
Proof.
  split.
  - intros [V Q R T]. repeat split; auto.
    + revert R. apply Forall2_map_rel. intros x y (A & B & C & D & E & F). repeat split; auto. revert F. apply Forall2_map_rel. now intros ? ? [].
    + revert T. apply Forall2_map_rel. intros [x|x] [y|y]; cbn; auto.
  - intros (V & Q & R & T). constructor; auto.
    + revert R. apply Forall2_map_rel. intros x y (A & B & C & D & E & F). repeat split; auto. revert F. apply Forall2_map_rel. intros u v U. split; [exact U|]. split; discriminate.
    + revert T. apply Forall2_map_rel. intros [x|x] [y|y]; cbn; auto. intros _ H. discriminate H.
Qed.
Lemma settled_calm l : settled l -> Forall (calm true) l.
Proof. intros S. apply Forall_forall. intros [v|v] I; cbn; [|intros _]; apply S; auto. Qed.
Lemma kept_calm l : kept_settled l -> Forall (calm false) l.
Proof. intros S. apply Forall_forall. intros [v|v] I; cbn; [now apply S|discriminate]. Qed.
Lemma net_eq w tr tr' m : Forall2 (al_event true) tr tr' -> e_net w tr m = e_net w tr' m.
Proof. intros F. now rewrite (Forall2_eq _ event_eq _ _ F). Qed.
Lemma messages_same tr tr' : Forall2 (al_event false) tr tr' -> messages tr = messages tr'.
Proof. induction 1 as [|x y l m E _ IH]; auto. destruct x, y; try (now destruct E); cbn in *; congruence. Qed.
Lemma net_unaware w tr tr' m : unaware w -> Forall2 (al_event false) tr tr' -> e_net w tr m = e_net w tr' m.
Proof. intros U F. apply U. now apply messages_same. Qed.
Lemma out_eq {A} (x y : out everr A) : al_out eq x y -> y = x.
Proof. destruct x, y; cbn; try easy; congruence. Qed.
Lemma reseeded_self w : reseeded w (h_order (e_host w)) = w.
Proof. now destruct w as [[p o c] q n]. Qed.

Theorem order_possible : forall w es s, orders (e_host w) -> exists log, may_run w es s log (fst (eval_block w es s)) (snd (eval_block w es s)).
Proof. intros w es s O. exact (run_poss w es O s). Qed.
Theorem order_possible_text : forall w text s, orders (e_host w) -> exists log, may_command w text s log (fst (command_eval w text s)) (snd (command_eval w text s)).
Proof. intros w text s O. exact (command_poss w text O s). Qed.
Theorem order_only : forall w es s log o s1, may_run w es s log o s1 -> settled log -> forall log' o' s1', may_run w es s log' o' s1' -> o' = o /\ s1' = s1.
Proof.
  intros w es s l o s1 R S l' o' s1' R'. rewrite <- (reseeded_self w) in R'.
  destruct (run_agree true w _ (net_eq w) es _ _ _ _ R (settled_calm _ S) _ _ _ _ (alike_refl _ s) R') as [O L]. split; [now apply out_eq|]. symmetry. now apply alike_eq.
Qed.
Theorem order_only_text : forall w text s log o s1, may_command w text s log o s1 -> settled log -> forall log' o' s1', may_command w text s log' o' s1' -> o' = o /\ s1' = s1.
Proof.
  intros w es s l o s1 R S l' o' s1' R'. rewrite <- (reseeded_self w) in R'.
  destruct (command_agree true w _ (net_eq w) es _ _ _ _ R (settled_calm _ S) _ _ _ _ (alike_refl _ s) R') as [O L]. split; [now apply out_eq|]. symmetry. now apply alike_eq.
Qed.
Theorem order_same : forall w order es s log o s1, orders (e_host (reseeded w order)) -> may_run w es s log o s1 -> settled log -> eval_block (reseeded w order) es s = (o, s1).
Proof.
  intros w order es s l o s1 P R S. destruct (order_possible (reseeded w order) es s P) as [l' R'].
  destruct (run_agree true w order (net_eq w) es _ _ _ _ R (settled_calm _ S) _ _ _ _ (alike_refl _ s) R') as [O L]. apply out_eq in O. apply alike_eq in L. rewrite (surjective_pairing (eval_block _ es s)). congruence.
Qed.
Theorem order_same_text : forall w order text s log o s1, orders (e_host (reseeded w order)) -> may_command w text s log o s1 -> settled log -> command_eval (reseeded w order) text s = (o, s1).
Proof.
  intros w order es s l o s1 P R S. destruct (order_possible_text (reseeded w order) es s P) as [l' R'].
  destruct (command_agree true w order (net_eq w) es _ _ _ _ R (settled_calm _ S) _ _ _ _ (alike_refl _ s) R') as [O L]. apply out_eq in O. apply alike_eq in L. rewrite (surjective_pairing (command_eval _ es s)). congruence.
Qed.
Theorem order_verdict : forall w es s log o s1, unaware w -> may_run w es s log o s1 -> kept_settled log ->
  forall t log' o' t1, same_state s t -> may_run w es t log' o' t1 -> o' = o /\ same_state s1 t1.
Proof.
  intros w es s l o s1 U R S t l' o' t1 L R'. rewrite <- (reseeded_self w) in R'. apply alike_same in L.
  destruct (run_agree false w _ (fun tr tr' m => net_unaware w tr tr' m U) es _ _ _ _ R (kept_calm _ S) _ _ _ _ L R') as [O L2]. split; [now apply out_eq|]. now apply alike_same.
Qed.
Theorem order_verdict_seed : forall w order es s log o s1, unaware w -> orders (e_host (reseeded w order)) -> may_run w es s log o s1 -> kept_settled log ->
  forall t, same_state s t -> fst (eval_block (reseeded w order) es t) = o /\ same_state s1 (snd (eval_block (reseeded w order) es t)).
Proof.
  intros w order es s l o s1 U P R S t L. destruct (order_possible (reseeded w order) es t P) as [l' R']. apply alike_same in L.
  destruct (run_agree false w order (fun tr tr' m => net_unaware w tr tr' m U) es _ _ _ _ R (kept_calm _ S) _ _ _ _ L R') as [O L2]. split; [now apply out_eq|]. now apply alike_same.
Qed.
