(** Programs whose operands surely have the right types do not fail *)
From Coq Require Import Lia.
From Verif Require Import TextProofs ValueProofs JsonProofs TemplateProofs EvaluatorProofs EvaluatorTop SafeProofs RunProofs ParserTop ByLineProofs SpecTypes.
Open Scope nat_scope.

Scheme typed_mut := Minimality for typed Sort Prop
with typed_all_mut := Minimality for typed_all Sort Prop
with typed_block_mut := Minimality for typed_block Sort Prop.
Combined Scheme typed_ind3 from typed_mut, typed_all_mut, typed_block_mut.

Lemma has_incl T U v : incl T U -> has T v -> has U v.
Proof. intros I (t & J & H). exists t. auto. Qed.
Lemma has_one t v : is_a t v -> has [t] v.
Proof. intros H. exists t. split; [now left|auto]. Qed.
Lemma has_anything v : has anything v.
Proof.
  destruct v; [exists TNull|exists TInt|exists TFloat|exists TBool|exists TStr|exists TArr|exists TMap]; (split; [cbn; tauto|cbn; eauto]).
Qed.
Lemma weaker_true G G' vars : weaker G G' -> true_of G' vars -> true_of G vars.
Proof. intros W H n T E. destruct (W n T E) as (T' & E' & I). destruct (H n T' E') as (v & M & Hv). exists v. split; auto. eapply has_incl; eauto. Qed.

Lemma types_length Ts vs : Forall2 has Ts vs -> length Ts = length vs.
Proof. induction 1; cbn; congruence. Qed.
Lemma all_length reqs G es Ts G' : typed_all reqs G es Ts G' -> length es = length Ts.
Proof. induction 1; cbn; congruence. Qed.

Section Sound.
Variables (w : env) (reqs : amap (str * list expr)).
Notation h := (e_host w).
Notation call := (call_at w 1).
Definition sat (G : scope) (s : st) : Prop := (forall n, mget n (c_reqs (s_ctx s)) = mget n reqs) /\ true_of G (c_vars (s_ctx s)).
(** from states of which [G] is true, [m] gives a [Q] and leaves [G'], or does not return *)
Definition sound {A} (G : scope) (m : evm A) (Q : A -> Prop) (G' : scope) : Prop :=
  forall s, sat G s -> match m s with (Ok a, s') => Q a /\ sat G' s' | (Err _, _) => False | _ => True end.

Lemma sound_ret {A} G (a : A) (Q : A -> Prop) : Q a -> sound G (ret a) Q G.
Proof. intros H s S. now cbn. Qed.
Lemma sound_bind {A B} G G1 G2 (m : evm A) (k : A -> evm B) P Q : sound G m P G1 -> (forall a, P a -> sound G1 (k a) Q G2) -> sound G (bind m k) Q G2.
Proof. intros M K s S. specialize (M s S). unfold bind. destruct (m s) as [[a|e| |] s1]; auto. destruct M as [H S1]. apply (K a H s1 S1). Qed.
Lemma sound_lift {A} G (r : out everr A) (Q : A -> Prop) : (match r with Ok a => Q a | Err _ => False | _ => True end) -> sound G (lift r) Q G.
Proof. intros H s S. unfold lift. destruct r; auto. Qed.
Lemma sound_weaken {A} G G1 G2 (m : evm A) (P Q : A -> Prop) : sound G m P G1 -> (forall a, P a -> Q a) -> weaker G2 G1 -> sound G m Q G2.
Proof.
  intros M I W s S. specialize (M s S). destruct (m s) as [[a|e| |] s1]; auto. destruct M as [H [R T]]. split; auto. split; auto. eapply weaker_true; eauto.
Qed.

Lemma arith_int z : match arith h z with Ok v => is_a TInt v | Err _ => False | _ => True end.
Proof. unfold arith. destruct (in_i64 z); [cbn; eauto|]. destruct (h_checks h); cbn; eauto. Qed.
Lemma binary_sound k a b c : binary k a b c -> forall u v, is_a a u -> is_a b v ->
  exists f, strict_op h k = Some f /\ match f u v with Ok x => is_a c x | Err _ => False | _ => True end.
Proof.
  intros B u v U V. inversion B as [k' I|k' a' b' I Na Nb O| |k' a' b' I]; subst.
  - destruct U as [x ->], V as [y ->]. cbn [In] in I.
    repeat (destruct I as [<-|I]; [cbn [strict_op]; eexists; (split; [reflexivity|]); cbn; try apply arith_int; eauto|]); try destruct I.
    + unfold int_div. destruct (_ =? _)%Z; auto. destruct (_ && _)%bool; auto. cbn. eauto.
    + unfold int_rem. destruct (_ =? _)%Z; auto. destruct (_ && _)%bool; auto. cbn. eauto.
    + unfold int_shl. destruct (_ && _)%bool; [cbn; eauto|]. destruct (h_checks h); cbn; eauto.
    + unfold int_shr. destruct (_ && _)%bool; [cbn; eauto|]. destruct (h_checks h); cbn; eauto.
  - cbn [In] in I. destruct Na as [-> | ->], Nb as [-> | ->]; destruct U as [x ->], V as [y ->]; try (destruct O; discriminate).
    all: repeat (destruct I as [<-|I]; [cbn [strict_op]; eexists; (split; [reflexivity|]); cbn; eauto|]); destruct I.
  - destruct U as [x ->], V as [y ->]. cbn [strict_op]. eexists. split; [reflexivity|]. cbn. eauto.
  - cbn [In comparison_kinds] in I.
    repeat (destruct I as [<-|I]; [cbn [strict_op]; eexists; (split; [reflexivity|]); cbn; eauto|]); destruct I.
Qed.
Lemma unary_sound t a b : unary (tkind t) a b -> forall v, is_a a v -> match unary_value h t v with Ok x => is_a b x | Err _ => False | _ => True end.
Proof.
  intros U v V. unfold unary_value. remember (tkind t) as k. destruct U as [a N| |a N].
  - destruct N as [-> | ->]; destruct V as [x ->]; [apply arith_int|cbn; eauto].
  - destruct V as [x ->]. cbn. eauto.
  - destruct v as [|z|f|b|s|l|m]; cbn; eauto; [|destruct b; eauto]. destruct a; try discriminate V; try (destruct V as [x V]; discriminate V); [now destruct N|destruct V as (m & E & _); discriminate E].
Qed.
Lemma index_sound a b u v : indexed a b -> is_a a u -> is_a b v -> match index_value h u v with Ok _ => True | Err _ => False | _ => True end.
Proof.
  intros I U V. destruct I as [-> | [-> | [-> ->]]].
  - destruct U as [m ->]. cbn. now destruct (mget _ m).
  - destruct U as (m & -> & _). cbn. now destruct (mget _ m).
  - destruct U as [l ->], V as [z ->]. cbn [index_value]. now destruct (_ && _)%bool.
Qed.
Lemma member_sound a f b v : member a f b -> is_a a v -> match field_value v f with Ok x => is_a b x | Err _ => False | _ => True end.
Proof.
  intros M V. inversion M as [|f' I|]; subst; destruct V as (m & -> & (z & A) & (t1 & B) & (t2 & C) & (t3 & D) & (hs & E)); cbn [field_value].
  - rewrite A. cbn. eauto.
  - destruct I as [<-|[<-|[<-|[]]]]; [rewrite B|rewrite C|rewrite D]; cbn; eauto.
  - rewrite E. cbn. eauto.
Qed.

Lemma native_format_ok f ps vs : scan f ps -> length vs = length (holes ps) -> exists t, native_format h (VStr f :: vs) = Ok (VStr t).
Proof.
  intros S L. pose proof (format_spec w (VStr f :: vs)) as F. remember (native_format h (VStr f :: vs)) as o. clear Heqo. inversion F as [f' ps' ? S' L'|f' ps' ? e S' L' X|v ? e N X|]; subst.
  - eauto.
  - exfalso. apply L'. now rewrite <- (scan_unique _ _ S _ S').
  - exfalso. eapply N. reflexivity.
Qed.
Lemma call_native_sound G n vs s (Q : value -> Prop) : mget n reqs = None -> sat G s ->
  (match native_call h n vs s with (Ok v, s') => Q v /\ s_ctx s' = s_ctx s | (Err _, _) => False | _ => True end) ->
  match call n vs s with (Ok a, s') => Q a /\ sat G s' | (Err _, _) => False | _ => True end.
Proof.
  intros N [R T] H. rewrite call_one. unfold ctx_request. rewrite R, N. destruct (native_call h n vs s) as [[v|e| |] s']; auto.
  destruct H as [H E]. split; auto. split; now rewrite E.
Qed.
Lemma asserts_keep es : forall s o s', eval_asserts h (eval_native w) es s = (o, s') -> flat_map let_names es = [] -> c_reqs (s_ctx s) = [] ->
  forall n, mget n (c_vars (s_ctx s')) = mget n (c_vars (s_ctx s)).
Proof.
  assert (ONE : forall e s o s', or_null (eval_native w e) s = (o, s') -> let_names e = [] -> c_reqs (s_ctx s) = [] ->
    c_reqs (s_ctx s') = [] /\ forall n, mget n (c_vars (s_ctx s')) = mget n (c_vars (s_ctx s))).
  { intros e s o s' H L R. assert (X : exists o1, eval_expr w e s = (o1, s')).
    { rewrite <- native_expr by auto. unfold or_null in H. destruct (eval_native w e s) as [[v|er| |] s1]; injection H as _ <-; eauto. }
    destruct X as [o1 X]. destruct (frame _ _ _ _ _ X) as (A & B & _). split; [congruence|]. intros n. apply A. rewrite L. intros []. }
  induction es as [|e es IH]; intros s o s' H L R n; [injection H as _ <-; reflexivity|].
  cbn [flat_map] in L. apply app_eq_nil in L. destruct L as [L0 L].
  destruct e; cbn [eval_asserts] in H; try (eapply IH; eauto; fail).
  cbn [let_names] in L0. apply app_eq_nil in L0. destruct L0 as [La Lb].
  apply bind_inv in H. destruct H as [(a & s1 & E & H)|(o1 & E & _ & _)]; [|destruct (ONE _ _ _ _ E La R) as [_ K]; apply K].
  destruct (ONE _ _ _ _ E La R) as [R1 K1]. rewrite <- K1.
  apply bind_inv in H. destruct H as [(b & s2 & E2 & H)|(o1 & E2 & _ & _)]; [|destruct (ONE _ _ _ _ E2 Lb R1) as [_ K]; apply K].
  destruct (ONE _ _ _ _ E2 Lb R1) as [R2 K2]. rewrite <- K2.
  apply bind_inv in H. destruct H as [(c & s3 & E3 & H)|(o1 & E3 & _ & _)]; [injection H as _ <-|]; eapply IH; eauto.
Qed.
Lemma call_request_sound G n vs template asserts s : mget n reqs = Some (template, asserts) -> sat G s ->
  match call n vs s with
  | (Ok v, s') => (exists m, v = VMap m) /\ (flat_map let_names asserts = [] -> is_a TAnswer v) /\ sat G s'
  | (Err _, _) => False | _ => True end.
Proof.
  intros D [R T]. rewrite call_one. unfold ctx_request. rewrite R, D. unfold request_call. set (msg := substitute _ template). cbv zeta.
  destruct (client_send _ _ msg) as [[[[rq rs] t] er]|e| |] eqn:CS; auto; [|exact (send_no_err _ _ _ _ CS)].
  destruct (to_map h rs) as [m|e| |] eqn:TM; auto; [|exact (to_map_no_err _ _ _ TM)].
  destruct (eval_asserts h (eval_native w) asserts _) as [[as_|e| |] sl] eqn:EA; auto; [|exact (asserts_no_err _ _ _ _ _ _ EA)].
  split; [unfold ctx_into_map; eauto|]. split.
  - intros L. pose proof (asserts_keep _ _ _ _ EA L eq_refl) as K. cbn [s_ctx ctx_from c_vars] in K.
    destruct (to_map_entries _ _ _ TM) as (A & B & C & E & (hm & F & _) & _).
    exists (ctx_into_map (s_ctx sl)). unfold ctx_into_map. rewrite !K. repeat split; eauto.
  - split; auto.
Qed.

Lemma evp_evl ps : forall m s, match evl h call (flatten ps) s with
  | (Ok _, s') => exists m', evp h call m ps s = (Ok m', s') | (Err e, s') => evp h call m ps s = (Err e, s')
  | (Panic, s') => evp h call m ps s = (Panic, s') | (Diverge, s') => evp h call m ps s = (Diverge, s') end.
Proof.
  induction ps as [|[k v] ps IH]; intros m s; [now exists m|]. cbn [flatten flat_map app evl evp fst snd]. fold (flatten ps). unfold bind, ret.
  destruct (eval h call k s) as [[kv|e| |] s1]; auto. destruct (eval h call v s1) as [[vv|e| |] s2]; auto.
  specialize (IH (mset (show_value h kv) vv m) s2). destruct (evl h call (flatten ps) s2) as [[vs|e| |] s3]; auto.
Qed.

Lemma soundness :
  (forall G e T G', typed reqs G e T G' -> sound G (eval h call e) (has T) G') /\
  (forall G es Ts G', typed_all reqs G es Ts G' -> sound G (evl h call es) (Forall2 has Ts) G') /\
  (forall G T es U G', typed_block reqs G T es U G' -> forall v, has T v -> sound G (eval_exprs h call v es) (has U) G').
Proof.
  apply typed_ind3.
  - intros G z. apply sound_ret, has_one. cbn. eauto.
  - intros G z. apply sound_ret, has_one. cbn. eauto.
  - intros G z. apply sound_ret, has_one. cbn. eauto.
  - intros G z. apply sound_ret, has_one. cbn. eauto.
  - intros G es Ts G' _ IH. rewrite eval_arr. eapply sound_bind; [exact IH|]. intros vs _. apply sound_ret, has_one. cbn. eauto.
  - intros G ps Ts G' _ IH. rewrite eval_map. intros s S. specialize (IH s S). pose proof (evp_evl ps [] s) as E. unfold bind.
    destruct (evl h call (flatten ps) s) as [[vs|e| |] s1]; [destruct E as [m' ->]|rewrite E..]; auto. destruct IH as [_ S1]. cbn. split; auto. apply has_one. cbn. eauto.
  - intros G e i T U G1 G2 _ IH _ IH2 X. cbn [eval]. eapply sound_bind; [exact IH|]. intros u (a & Ia & Ha). eapply sound_bind; [exact IH2|]. intros v (b & Ib & Hb).
    apply sound_lift. pose proof (index_sound a b u v (X _ _ Ia Ib) Ha Hb) as Y. destruct (index_value h u v); auto. apply has_anything.
  - intros G e f T G' _ IH I. cbn [eval]. eapply sound_bind; [exact IH|]. intros v (a & Ia & Ha). apply sound_lift. apply I in Ia.
    assert (M : exists m, v = VMap m) by (destruct Ia as [<-|[<-|[]]]; [exact Ha|destruct Ha as (m & -> & _); eauto]). destruct M as [m ->]. cbn. destruct (mget f m); apply has_anything.
  - intros G e f T U G' _ IH X. cbn [eval]. eapply sound_bind; [exact IH|]. intros v (a & Ia & Ha). apply sound_lift. destruct (X _ Ia) as (b & Ib & M).
    pose proof (member_sound _ _ _ _ M Ha) as Y. destruct (field_value v f); auto. exists b. auto.
  - intros G n T E s S. cbn [eval]. destruct (proj2 S n T E) as (v & M & H). unfold ctx_get. rewrite M. auto.
  - intros G n e T G' _ IH. cbn [eval]. eapply sound_bind; [exact IH|]. intros v H s [R S]. split; auto. split; [exact R|].
    intros m U E. unfold upd. cbn [s_ctx ctx_set c_vars]. unfold with_var in E. destruct (list_eq_dec N.eq_dec n m) as [<-|D].
    + injection E as <-. exists v. split; auto. apply mget_mset_same.
    + rewrite mget_mset_other by auto. apply S, E.
  - intros G t e T U G' _ IH X. cbn [eval]. eapply sound_bind; [exact IH|]. intros v (a & Ia & Ha). apply sound_lift. destruct (X _ Ia) as (b & Ib & M).
    pose proof (unary_sound _ _ _ M _ Ha) as Y. destruct (unary_value h t v); auto. exists b. auto.
  - intros G t l r T U V G1 G2 K _ IH _ IH2 X.
    assert (Y : forall u v, has T u -> has U v -> exists f, strict_op h (tkind t) = Some f /\ match f u v with Ok x => has V x | Err _ => False | _ => True end).
    { intros u v (a & Ia & Ha) (b & Ib & Hb). destruct (X _ _ Ia Ib) as (c & Ic & B). destruct (binary_sound _ _ _ _ B _ _ Ha Hb) as (f & E & Z). exists f. split; auto.
      destruct (f u v); auto. exists c. auto. }
    cbn [eval]. destruct (strict_kind h _ K) as [f E]. rewrite E.
    eapply sound_bind; [exact IH|]. intros u Hu. eapply sound_bind; [exact IH2|]. intros v Hv. apply sound_lift. destruct (Y _ _ Hu Hv) as (g & E' & Z).
    rewrite E in E'. injection E' as <-. exact Z.
  - intros G t l r T U G1 G2 G3 K _ IH _ IH2 W1 W2. cbn [eval].
    replace (strict_op h (tkind t)) with (@None (value -> value -> res)) by (now destruct K as [-> | ->]).
    assert (A1 : sound G1 (eval h call r) (has (T ++ U)) G3) by (eapply sound_weaken; [exact IH2| |exact W2]; intros v; apply has_incl; intros x I; apply in_or_app; auto).
    assert (A2 : forall v, has T v -> sound G1 (ret v) (has (T ++ U)) G3) by (intros v Hv; eapply sound_weaken; [apply (sound_ret G1 v (has T) Hv)| |exact W1]; intros x; apply has_incl; intros y I; apply in_or_app; auto).
    destruct K as [-> | ->]; (eapply sound_bind; [exact IH|]); intros v Hv; destruct (falsy v); auto.
  - intros G e T G' _ IH. exact IH.
  - intros G c a b T U V G1 G2 G3 G4 _ IH _ IHa _ IHb W1 W2. rewrite eval_if. eapply sound_bind; [exact IH|]. intros v _.
    assert (N : has [TNull] VNull) by (apply has_one; reflexivity).
    destruct (falsy v); (eapply sound_weaken; [now (apply IHa || apply IHb)| |assumption]); intros x; apply has_incl; intros y I; apply in_or_app; auto.
  - intros G n es Ts G' template asserts _ IH D L. rewrite eval_callx. eapply sound_bind; [exact IH|]. intros vs _ s S.
    pose proof (call_request_sound _ n vs _ _ _ D S) as X. destruct (call n vs s) as [[v|e| |] s']; auto. destruct X as (_ & X & S'). split; auto. apply has_one; auto.
  - intros G n es Ts G' [template asserts] _ IH D. rewrite eval_callx. eapply sound_bind; [exact IH|]. intros vs _ s S.
    pose proof (call_request_sound _ n vs _ _ _ D S) as X. destruct (call n vs s) as [[v|e| |] s']; auto. destruct X as (X & _ & S'). split; auto. apply has_one; auto.
  - intros G n f ps es Ts G' I N Sc L TA IH. rewrite eval_callx. cbn [evl eval].
    eapply (sound_bind _ G'); [eapply sound_bind; [apply (sound_ret G (VStr f) (fun v => v = VStr f)); reflexivity|]; intros v ->; eapply sound_bind; [exact IH|]; intros vs Hvs; apply (sound_ret _ _ (fun x => exists vs, x = VStr f :: vs /\ Forall2 has Ts vs)); eauto|].
    intros x (vs & -> & Hvs) s S. apply call_native_sound; auto. destruct (native_format_ok f ps vs Sc) as [t F]; [rewrite <- L; apply types_length in Hvs; apply all_length in TA; lia|].
    destruct I as [<-|[<-|[]]]; unfold native_call; cbn [str_eqb]; unfold native_println, native_print; rewrite F; cbn; (split; [apply has_one; reflexivity|reflexivity]).
  - intros G f ps es Ts G' N Sc L TA IH. rewrite eval_callx. cbn [evl eval].
    eapply (sound_bind _ G'); [eapply sound_bind; [apply (sound_ret G (VStr f) (fun v => v = VStr f)); reflexivity|]; intros v ->; eapply sound_bind; [exact IH|]; intros vs Hvs; apply (sound_ret _ _ (fun x => exists vs, x = VStr f :: vs /\ Forall2 has Ts vs)); eauto|].
    intros x (vs & -> & Hvs) s S. apply call_native_sound; auto. destruct (native_format_ok f ps vs Sc) as [t F]; [rewrite <- L; apply types_length in Hvs; apply all_length in TA; lia|].
    change (native_call h (lit "format") (VStr f :: vs) s) with (native_format h (VStr f :: vs), s). rewrite F. split; auto. apply has_one. cbn. eauto.
  - intros G e T G' N _ IH I. rewrite eval_callx. cbn [evl].
    eapply (sound_bind _ G'); [eapply sound_bind; [exact IH|]; intros v Hv; apply (sound_ret _ _ (fun x => exists v, x = [v] /\ has T v)); eauto|].
    intros x (v & -> & Hv) s S. apply call_native_sound; auto. change (native_call h (lit "length") [v] s) with (native_length [v], s).
    destruct Hv as (t & J & Hv). apply I in J. destruct J as [<-|[<-|[<-|[<-|[]]]]]; [destruct Hv as [x ->]..|destruct Hv as (x & -> & _)]; cbn; (split; [apply has_one; cbn; eauto|reflexivity]).
  - intros G e es T Ts G1 G2 N _ IH I _ IH2. rewrite eval_callx. cbn [evl].
    eapply (sound_bind _ G2); [eapply sound_bind; [exact IH|]; intros v Hv; eapply sound_bind; [exact IH2|]; intros vs _; apply (sound_ret _ _ (fun x => exists v vs, x = v :: vs /\ has T v)); eauto|].
    intros x (v & vs & -> & Hv) s S. apply call_native_sound; auto. change (native_call h (lit "append") (v :: vs) s) with (native_append (v :: vs), s).
    destruct Hv as (t & J & Hv). apply I in J. destruct J as [<-|[]]. destruct Hv as [l ->]. unfold native_append. rewrite pop_rev. split; auto. apply has_one. cbn. eauto.
  - intros G e T T' G1 G2 _ IH I W. eapply sound_weaken; [exact IH| |exact W]. intros v. now apply has_incl.
  - intros G. apply sound_ret. constructor.
  - intros G e es T Ts G1 G2 _ IH _ IH2. cbn [evl]. eapply sound_bind; [exact IH|]. intros v Hv. eapply sound_bind; [exact IH2|]. intros vs Hvs. apply sound_ret. now constructor.
  - intros G T v Hv. apply sound_ret. exact Hv.
  - intros G T e es U V G1 G2 _ IH _ IH2 v Hv. cbn [eval_exprs]. eapply sound_bind; [exact IH|]. intros u Hu. now apply IH2.
Qed.
End Sound.

Theorem typed_never_errs : forall w reqs G es T G' s, typed_block reqs G [TNull] es T G' -> (forall n, mget n (c_reqs (s_ctx s)) = mget n reqs) -> true_of G (c_vars (s_ctx s)) ->
  match eval_block w es s with
  | (Ok v, s') => has T v /\ true_of G' (c_vars (s_ctx s'))
  | (Err _, _) => False
  | _ => True
  end.
Proof.
  intros w reqs G es T G' s TB R TG. pose proof (proj2 (proj2 (soundness w reqs)) _ _ _ _ _ TB VNull (has_one TNull VNull eq_refl) s (conj R TG)) as H.
  unfold eval_block. destruct (eval_exprs _ _ _ _ s) as [[v|e| |] s']; auto. destruct H as [H [_ X]]. auto.
Qed.
Theorem typed_runs : forall w reqs G es T G' s, typed_block reqs G [TNull] es T G' -> (forall n, mget n (c_reqs (s_ctx s)) = mget n reqs) -> true_of G (c_vars (s_ctx s)) ->
  steady w -> readable_bodies w -> Forall (no_risk (h_checks (e_host w))) es -> no_risk_requests (h_checks (e_host w)) s ->
  exists v s', eval_block w es s = (Ok v, s') /\ has T v /\ true_of G' (c_vars (s_ctx s')).
Proof.
  intros w reqs G es T G' s TB R TG St Rb Nr Nq. pose proof (typed_never_errs w reqs G es T G' s TB R TG) as H. pose proof (returns_always w es s St Rb Nr Nq) as X.
  destruct (eval_block w es s) as [[v|e| |] s']; cbn [fst] in X; try destruct X; try contradiction. exists v, s'. tauto.
Qed.
Theorem typed_repeats : forall w reqs G body T G' c, typed_block reqs G [TNull] body T G' -> weaker G G' -> (forall n, mget n (c_reqs c) = mget n reqs) -> true_of G (c_vars c) ->
  steady w -> readable_bodies w -> Forall (no_risk (h_checks (e_host w))) body -> no_risk_requests (h_checks (e_host w)) (St c []) ->
  never_fails w body c.
Proof.
  intros w reqs G body T G' c TB W R TG Sd Rb Nr Nq k s bs I.
  assert (RQ : forall s, c_reqs (s_ctx s) = c_reqs c -> forall n, mget n (c_reqs (s_ctx s)) = mget n reqs) by (intros x -> ; exact R).
  assert (K : c_reqs (s_ctx s) = c_reqs c /\ true_of G (c_vars (s_ctx s))).
  { clear - I TB W RQ TG. induction I as [|k s bs v s1 I [Q V] E]; [auto|].
    destruct (block_frame _ _ _ _ _ E) as (_ & Q1 & _). cbn [s_ctx c_reqs c_vars]. split; [congruence|].
    pose proof (typed_never_errs w reqs G body T G' s TB (RQ s Q) V) as H. rewrite E in H. eapply weaker_true; [exact W|apply H]. }
  destruct K as [Q V]. destruct (typed_runs w reqs G body T G' s TB (RQ s Q) V Sd Rb Nr) as (v & s1 & E & _); eauto.
  intros n template asserts e D. rewrite Q in D. exact (Nq n template asserts e D).
Qed.

Theorem typed_suite : forall w text src T G, parse text = Ok src -> typed_block (s_requests src) unknown [TNull] (s_exprs src) T G ->
  steady w -> readable_bodies w -> Forall (no_risk (h_checks (e_host w))) (s_exprs src) ->
  (forall n template asserts e, mget n (s_requests src) = Some (template, asserts) -> In e asserts -> no_risk (h_checks (e_host w)) e) ->
  (forall n body, In (n, body) (s_tests src) -> Forall (no_risk (h_checks (e_host w))) body /\ exists U G', typed_block (s_requests src) G [TNull] body U G') ->
  exists c s, test_setup w text = (Ok (Some (s_tests src, c)), s) /\
    forall n body v, In (n, body) (s_tests src) -> steady v -> readable_bodies v -> h_checks (e_host v) = h_checks (e_host w) ->
      (exists x s1, eval_block v body (St (Ctx (c_vars c) (c_reqs c) []) []) = (Ok x, s1)) /\
      (forall U G', typed_block (s_requests src) G [TNull] body U G' -> weaker G G' -> never_fails v body c).
Proof.
  intros w text src T G P TB Sd Rb Nr Nq Te.
  assert (ND : NoDup (map fst (s_requests src))) by (apply collected in P; destruct P as (is & u & _ & _ & _ & _ & _ & N & _); exact N).
  set (s0 := upd (fun c => ctx_extend c (s_requests src)) (St ctx_new [])).
  assert (R0 : forall n, mget n (c_reqs (s_ctx s0)) = mget n (s_requests src)).
  { intros n. cbn. rewrite extend_get by auto. now destruct (mget n (s_requests src)). }
  assert (NQ : no_risk_requests (h_checks (e_host w)) s0) by (intros n template asserts e D; rewrite R0 in D; eauto).
  destruct (typed_runs w _ _ _ _ _ s0 TB R0) as (v & s1 & E & _ & TG); auto; [intros n U X; discriminate X|].
  destruct (block_frame _ _ _ _ _ E) as (_ & Q & _).
  exists (s_ctx s1), s1. unfold test_setup. rewrite P. fold s0. rewrite E. split; [reflexivity|].
  intros n body u I Su Ru Hc.
  assert (R1 : forall n, mget n (c_reqs (s_ctx s1)) = mget n (s_requests src)) by (intros m; rewrite Q; apply R0).
  assert (NQ1 : forall vars recs tr, no_risk_requests (h_checks (e_host u)) (St (Ctx vars (c_reqs (s_ctx s1)) recs) tr)).
  { intros vars recs tr m template asserts e D. cbn [s_ctx c_reqs] in D. rewrite R1 in D. rewrite Hc. eauto. }
  destruct (Te n body I) as [Nb (U & G' & TB')]. rewrite <- Hc in Nb. split.
  - destruct (typed_runs u _ _ _ _ _ (St (Ctx (c_vars (s_ctx s1)) (c_reqs (s_ctx s1)) []) []) TB') as (x & s2 & E2 & _); auto. exists x, s2. exact E2.
  - intros U2 G2 TB2 W. eapply typed_repeats; eauto. intros m template asserts e D. cbn [s_ctx] in D. rewrite R1 in D. rewrite Hc. eauto.
Qed.
