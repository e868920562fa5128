(** Proofs about verdicts. *)
From Verif Require Import TextProofs EvaluatorProofs EvaluatorTop AssertProofs ValidProofs SpecNumber ValueProofs NumberProofs DurationProofs FramingProofs ProcessTop ProcessOnce ProcessRun ProcessProofs ProcessEnds ProcessLaunch LiveProofs GrownProofs SpecVerdict.
From Coq Require Import Lia.
Open Scope N_scope.

Lemma place_lets root ps l : literal l -> let_names (place root ps) = [] /\ let_names l = [].
Proof.
  intros L. split; [|now destruct L]. unfold place.
  assert (A : forall e, let_names e = [] -> let_names (fold_left access ps e) = []).
  { induction ps as [|p ps IH]; cbn [fold_left]; auto. intros e E. apply IH. destruct p; cbn; rewrite ?E; reflexivity. }
  now apply A.
Qed.
Lemma checkable_lets r e : checkable r e -> let_names e = [] /\ comparison_expr e = true.
Proof.
  intros (t & root & ps & l & -> & L & K & _). destruct (place_lets root ps l L) as [A B]. split.
  - cbn [let_names]. rewrite A, B. reflexivity.
  - cbn [comparison_expr]. now destruct (in_dec kind_dec (tkind t) comparison_kinds).
Qed.
Lemma said_true r e b : checkable r e -> says r e b -> (b = true <-> true_of r e).
Proof.
  intros (t & root & ps & l & A) S. split.
  - intros B. exists t, root, ps, l. split; auto. destruct A as (E & L & K & J). destruct (S t root ps l E L J) as (S1 & S2 & S3).
    cbn in K. decompose [or] K; try contradiction; match goal with H : _ = tkind t |- _ => symmetry in H; rename H into Kt end;
      try (left; split; [exact Kt|now apply S1]); try (right; left; split; [exact Kt|now apply S2]); right; right; apply S3; auto; rewrite Kt; cbn; tauto.
  - intros (t' & root' & ps' & l' & (E & L & K & J) & T). destruct (S t' root' ps' l' E L J) as (S1 & S2 & S3).
    destruct T as [[Kt T]|[[Kt T]|T]]; [now apply S1|now apply S2|]. apply S3; auto.
    destruct T as (x & c & _ & _ & M). cbn. destruct (tkind t'); cbn in M; try contradiction; tauto.
Qed.
Lemma results_true r asserts as_ : Forall (checkable r) asserts -> Forall2 (fun e a => says r e (a_result a)) asserts as_ ->
  ((forall a, In a as_ -> a_result a = true) <-> Forall (true_of r) asserts).
Proof.
  intros C F. induction F as [|e a es as_ S F IH]; [split; [constructor|intros _ a []]|]. inversion C; subst. pose proof (said_true _ _ _ H1 S) as T. specialize (IH H2). split.
  - intros A. constructor; [apply T, A; now left|apply IH; intros x X; apply A; now right].
  - intros A x [<-|X]; inversion A; subst; [now apply T|]. now apply IH.
Qed.
Lemma filter_all {A} (f : A -> bool) l : (forall x, In x l -> f x = true) -> filter f l = l.
Proof. induction l as [|x l IH]; cbn; auto. intros H. rewrite (H x) by auto. f_equal. auto. Qed.
Lemma last_parts (a b : str) : forall u v, a ++ u = b ++ v -> length u = length v -> a = b /\ u = v.
Proof.
  intros u v E L. assert (La : length a = length b). { apply (f_equal (@length char)) in E. rewrite !app_length in E. lia. }
  clear L. revert b La E. induction a as [|x a IH]; intros [|y b] La E; cbn in *; try lia; auto. inversion E; subst. destruct (IH b) as [-> ->]; auto; lia.
Qed.
Lemma duration_no_paren ns d : duration_text ns d -> ~ In 40 d.
Proof.
  intros (p & x & u & k & -> & D & _ & I & _) J. apply in_app_or in J. destruct J as [J|J].
  - apply (proj2 (decimal_chars _ _ D)) in J. destruct J as [J|J]; [unfold digit in J; lia|discriminate].
  - assert (U : u = lit "ns" \/ u = 181 :: lit "s" \/ u = lit "ms" \/ u = lit "s").
    { cbn in I. destruct I as [I|[I|[I|[I|[]]]]]; apply (f_equal fst) in I; cbn [fst] in I; subst u; auto. }
    destruct U as [-> |[-> |[-> | ->]]]; cbn in J; intuition discriminate.
Qed.
Lemma last_paren (x y a b : list N) : ~ In 40 x -> ~ In 40 y -> a ++ 40 :: x = b ++ 40 :: y -> a = b.
Proof.
  intros X Y. revert b. induction a as [|c a IH]; intros [|d b] E; cbn [app] in E; auto.
  - exfalso. injection E as _ ->. apply X. apply in_or_app. right. now left.
  - exfalso. injection E as _ <-. apply Y. apply in_or_app. right. now left.
  - injection E as -> E. f_equal. now apply IH.
Qed.
Lemma reported_one r : reported r (lit "PASS") -> reported r (lit "FAIL") -> False.
Proof.
  intros (b1 & d1 & E1 & D1 & _) (b2 & d2 & E2 & D2 & _). rewrite E1 in E2. apply duration_no_paren in D1, D2.
  assert (Q : forall v (b d : str), b ++ lit "--- " ++ v ++ lit "  " ++ r_name r ++ lit " (" ++ d ++ lit ")" = (b ++ lit "--- " ++ v ++ lit "  " ++ r_name r ++ [32]) ++ 40 :: (d ++ [41])).
  { intros v b d. rewrite <- !app_assoc. reflexivity. }
  rewrite !Q in E2. apply last_paren in E2; [|rewrite in_app_iff; cbn; intuition discriminate|rewrite in_app_iff; cbn; intuition discriminate].
  apply last_parts in E2; [|rewrite !app_length; reflexivity]. destruct E2 as [_ E2]. discriminate E2.
Qed.
Lemma judged r asserts : Forall (checkable (r_response r)) asserts ->
  Forall2 (fun e a => says (r_response r) e (a_result a)) (filter comparison_expr asserts) (r_asserts r) -> judged_rightly r asserts.
Proof.
  intros C F. rewrite filter_all in F by (intros e I; rewrite Forall_forall in C; apply C in I; now apply checkable_lets in I).
  pose proof (results_true _ _ _ C F) as T. destruct (verdict r) as (v & d & D & S & P & N).
  assert (V : forall v0, v = v0 -> reported r v0).
  { intros v0 <-. match type of S with _ = _ ++ _ ++ _ ++ ?x ++ _ => exists (lit "=== TEST  " ++ r_name r ++ [10] ++ x), d end. split; [|split; [exact D|eexists; reflexivity]]. rewrite S. rewrite <- !app_assoc. reflexivity. }
  assert (Z : v = lit "PASS" \/ v = lit "FAIL").
  { destruct (existsb (fun a => negb (a_result a)) (r_asserts r)) eqn:X.
    - right. apply N. apply existsb_exists in X. destruct X as (a & I & X). exists a. split; auto. now destruct (a_result a).
    - left. apply P. intros a I. destruct (a_result a) eqn:R; auto. assert (Y : existsb (fun a => negb (a_result a)) (r_asserts r) = true) by (apply existsb_exists; exists a; rewrite R; auto). congruence. }
  split; [|split].
  - intros A. apply V, P, T, A.
  - intros A. destruct Z as [Z|Z]; [|now apply V]. destruct A. now apply T, P.
  - intros R. destruct Z as [Z|Z]; [now apply T, P|]. destruct (reported_one r R). now apply V.
Qed.

(** ** a call *)
Lemma checkable_asserted w r m : response_text r -> to_map (e_host w) r = Ok m -> forall asserts s, (forall n, mget n (c_vars (s_ctx s)) = mget n m) ->
  Forall (checkable r) asserts -> exists as_, asserted w asserts s as_ s.
Proof.
  intros T M. induction asserts as [|e es IH]; intros s I C; [eexists; constructor|]. inversion C as [|? ? (t & root & ps & l & -> & L & K & J) C']; subst.
  destruct (IH s I C') as [as_ A]. destruct (place_value w r m s T M I root ps J) as (u & O & _).
  assert (B : exists b, binop w (tkind t) u (literal_value l) = Ok (VBool b)).
  { clear -K. cbn [In comparison_kinds] in K. destruct K as [<-|[<-|[<-|[<-|[<-|[<-|[]]]]]]]; unfold binop; vm_compute (lit _); cbn; eauto. }
  destruct B as [b B].
  eexists. eapply at_comparison; eauto. left. now apply literal_reads.
Qed.
Theorem call_judged w n args s vs s1 template asserts msg rq rs t er m :
  in_order w args s vs s1 -> mget n (c_reqs (s_ctx s1)) = Some (template, asserts) -> message_of w (s_ctx s1) template msg ->
  client_send (e_prepare w) (e_net w (s_trace s1) msg) msg = Ok (rq, rs, t, er) -> to_map (e_host w) rs = Ok m -> Forall (checkable rs) asserts ->
  exists v r tr, eval_expr w (ECall n args) s = (Ok v, St (Ctx (c_vars (s_ctx s1)) (c_reqs (s_ctx s1)) (c_recs (s_ctx s1) ++ [r])) tr) /\
    r_name r = n /\ r_response r = rs /\ judged_rightly r asserts.
Proof.
  intros A G M S TM C. pose proof (send_text _ _ _ _ _ _ _ S) as T.
  destruct (checkable_asserted w rs m T TM asserts (St (Ctx m [] []) (s_trace s1 ++ [Sent msg]))) as [as_ As]; auto.
  assert (L : forall e, In e asserts -> let_names e = []).
  { intros e I. rewrite Forall_forall in C. apply C in I. now apply checkable_lets in I. }
  pose proof (asserted_says w rs m T TM _ _ _ _ As ltac:(auto) L) as F.
  do 2 eexists; exists (s_trace s1 ++ [Sent msg]). split; [apply (call_reports w n args s vs s1 template asserts msg _ _ A G M); exists rq, rs, t, er, m, as_; eexists; repeat split; try eassumption; reflexivity|].
  cbn [r_name r_response]. split; [reflexivity|]. split; [reflexivity|]. apply judged; auto.
Qed.
Theorem reply_heard p x msg rq rs t er d line version status reason hs body : client_send p x msg = Ok (rq, rs, t, er) ->
  x_connect x = inl d -> x_write x = None -> x_reply x = Reader (opening line hs ++ utf8 body) None ->
  status_line line version status reason -> Forall field hs -> scalars body -> rs = Response version status reason hs body /\ er = [].
Proof.
  intros S X W R L F B. pose proof (framed _ _ _ _ _ _ L F B) as E. revert S. unfold client_send. destruct (request_from p msg) as [q c]. rewrite X, W, R, E.
  repeat match goal with |- context [match dur_sub ?a ?b with _ => _ end] => destruct (dur_sub a b); [|discriminate] end.
  intros [= <- <- <- <-]. auto.
Qed.

(** ** runs *)
Lemma iterated_judged w body c k s bs : iterated w body c k s bs -> Forall (fun r => In (Printed (show_record r ++ [10])) (s_trace s) /\ exists template asserts, mget (r_name r) (c_reqs c) = Some (template, asserts) /\
  (Forall (checkable (r_response r)) asserts -> judged_rightly r asserts)) (List.concat bs).
Proof.
  induction 1 as [|k s bs v s1 It IH E]; [constructor|]. rewrite concat_app. cbn [List.concat]. rewrite app_nil_r. apply Forall_app. split.
  - eapply Forall_impl; [|exact IH]. cbn beta. intros r [P Q]. split; auto. cbn [s_trace]. destruct (block_frame _ _ _ _ _ E) as (_ & _ & _ & tr & ->). rewrite !in_app_iff. auto.
  - destruct (iterated_keeps _ _ _ _ _ _ It) as (Rq & Rc & _). apply Forall_forall. intros r I. split; [cbn [s_trace]; apply in_or_app; right; apply in_map_iff; eauto|].
    destruct (assertions_run _ _ _ _ _ E Rc r I) as (tp & as_ & G & Y). rewrite Rq in G. exists tp, as_. split; auto. intros C. apply judged; auto. apply Y. intros e J. rewrite Forall_forall in C. apply C in J. now apply checkable_lets in J.
Qed.
Theorem run_judged iter w root name threads duration number record pod d g src s1 body p :
  loads w root src s1 -> mget name (s_tests src) = Some body -> threads <> 0 ->
  goes g (launch iter w root (Some name) threads duration number record pod d) p -> p_main p = Gone true ->
  exists bss, length bss = N.to_nat threads /\
  forall id bs, nth_error bss (N.to_nat id) = Some bs ->
    done_with (g_world g id) body (s_ctx s1) (share duration number threads) (negb (p_flag p)) bs (events_of (Tester id) (p_log p)) /\
    Forall (fun r => In (Printed (show_record r ++ [10])) (events_of (Tester id) (p_log p)) /\
      exists template asserts, mget (r_name r) (s_requests src) = Some (template, asserts) /\
        (Forall (checkable (r_response r)) asserts -> judged_rightly r asserts)) (List.concat bs).
Proof.
  intros L M Z H G. destruct (named_end _ _ _ _ _ _ _ _ _ _ _ _ _ _ _ L M Z H G) as (bss & A & B & _). exists bss. split; auto. intros id bs N. destruct (B _ _ N) as [D _]. split; auto.
  destruct D as (s & It & _ & D). apply iterated_judged in It. eapply Forall_impl; [|exact It]. cbn beta. intros r (P & tp & as_ & Q & Y). split.
  - destruct D as [[-> _]|(_ & o & s2 & E & _ & ->)]; auto. destruct (block_frame _ _ _ _ _ E) as (_ & _ & _ & tr & ->). rewrite !in_app_iff. auto.
  - exists tp, as_. split; auto. rewrite <- Q. symmetry. apply (loads_reqs _ _ _ _ L).
Qed.
