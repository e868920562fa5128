(** Renaming, reordering, dropping and inlining in concrete scripts *)
From Verif Require Import TextProofs SyntaxProofs TemplateProofs EvaluatorTop EvalExamples RenameProofs RefactorProofs InlineProofs SpecReads SpecRename SpecRefactor.
Open Scope nat_scope.

Definition exprs_of (text : str) : list expr := match parse text with Ok src => s_exprs src | _ => [] end.
Definition reqs_of (text : str) : amap (str * list expr) := match parse text with Ok src => s_requests src | _ => [] end.
Lemma holes_are t ps : scan t ps -> holes ps = map (placeholder_name t) (find_iter t).
Proof. intros S. destruct (ranges_spec _ _ S []) as [A _]. symmetry. exact A. Qed.

(** ** renaming *)
Definition mine (n : str) : str := lit "my_" ++ n.
Definition ours (n : str) : str := if existsb (str_eqb n) native_names then n else lit "our_" ++ n.
Lemma mine_one : one_to_one mine.
Proof. intros a b. unfold mine. apply app_inv_head. Qed.
Lemma known n : existsb (str_eqb n) native_names = true <-> In n native_names.
Proof. rewrite existsb_exists. split; [intros (m & J & E); apply str_eqb_eq in E; now subst|intros J; exists n; split; auto; now apply str_eqb_eq]. Qed.
Lemma our_other n : ~ In (lit "our_" ++ n) native_names.
Proof. intros K. cbn in K. repeat (destruct K as [K|K]; [discriminate K|]). exact K. Qed.
Lemma ours_natives : keeps_natives ours.
Proof.
  intros n. unfold ours. destruct (existsb (str_eqb n) native_names) eqn:J; auto. intros [K|K]; [apply known in K; congruence|].
  exfalso. now apply our_other in K.
Qed.
Lemma ours_one : one_to_one ours.
Proof.
  intros a b. unfold ours. destruct (existsb (str_eqb a) native_names) eqn:J, (existsb (str_eqb b) native_names) eqn:K; auto.
  - intros ->. exfalso. apply known in J. now apply our_other in J.
  - intros <-. exfalso. apply known in K. now apply our_other in K.
  - apply app_inv_head.
Qed.
Lemma mine_identifier n : identifier n -> identifier (mine n).
Proof.
  intros (c & s & -> & L & F). exists 109%N, (lit "y_" ++ c :: s). split; [reflexivity|].
  assert (Y : forall x, In x (lit "my_") -> letter x) by (intros x J; apply is_ident_start_iff; vm_compute in J; destruct J as [<-|[<-|[<-|[]]]]; reflexivity).
  split; [apply Y; now left|]. apply Forall_app. split; [|constructor; auto].
  constructor; [left; apply Y; cbn; auto|]. constructor; [left; apply Y; cbn; auto|constructor].
Qed.
Definition before : str := lit "request get`GET http://{host}/{ id }`[status == 200] let host = ""h""; let id = 1; println(""x""); get().json.n + id".
Definition after : str := lit "request our_get`GET http://{my_host}/{my_id}`[status == 200] let my_host = ""h""; let my_id = 1; println(""x""); our_get().json.n + my_id".
Lemma retold_by_holes v t t' ps : scan t ps -> scan t' (map (rename_piece v) ps) -> retold v t t'.
Proof. intros A B. exists ps. auto. Qed.
(** The pieces of a text, read by the function of Template.v *)
Fixpoint pieces_of (n : nat) (t : str) : list piece :=
  match n, t with
  | S n, c :: t' =>
      match match_here t with
      | Some k => Hole (trim (slice t 1 (k - 1))) :: pieces_of n (skipn k t)
      | None => Lit c :: pieces_of n t'
      end
  | _, _ => []
  end.
Lemma scan_of n : forall t, length t <= n -> scan t (pieces_of n t).
Proof.
  induction n as [|n IH]; intros [|c t] L; try apply sc_nil; [cbn in L; lia|]. cbn [pieces_of].
  destruct (match_here (c :: t)) as [k|] eqn:M.
  - destruct (match_some _ _ M) as (p & m & r & H & E & K). rewrite E in *. subst k.
    replace (trim (slice (p ++ r) 1 (length p - 1))) with m.
    + rewrite skipn_app, skipn_all, Nat.sub_diag. cbn [app skipn]. apply sc_hole; auto. apply IH.
      pose proof (hole_length _ _ H). rewrite app_length in L. lia.
    + pose proof (hole_name [] p m r H) as N. cbn [app length] in N. rewrite <- N. unfold placeholder_name. cbn [fst snd].
      pose proof (slice_mid [] p r) as S. cbn [app length] in S. rewrite Nat.add_0_l in *. rewrite S. f_equal.
      pose proof (hole_length _ _ H). unfold slice. rewrite skipn_app, firstn_app, skipn_length.
      replace (length p - 1 - 1 - (length p - 1)) with 0 by lia. cbn [firstn]. now rewrite app_nil_r.
  - apply sc_lit; [|apply IH; cbn in L; lia]. intros p m r H E. rewrite E in M. rewrite (match_hole _ _ _ H) in M. discriminate.
Qed.
Lemma renames : one_to_one mine /\ one_to_one ours /\ keeps_natives ours /\ exprs_of after = map (rename mine ours) (exprs_of before) /\
  Forall2 (fun a b => fst b = ours (fst a) /\ snd (snd b) = snd (snd a) /\ retold mine (fst (snd a)) (fst (snd b))) (reqs_of before) (reqs_of after) /\
  length (exprs_of before) = 4 /\ length (reqs_of before) = 1 /\
  view (script online before) = Some (Some (VInt 8), [(lit "host", VStr (lit "h")); (lit "id", VInt 1)], lit "x" ++ [10%N], 1, 1) /\
  view (script online after) = Some (Some (VInt 8), [(lit "my_host", VStr (lit "h")); (lit "my_id", VInt 1)], lit "x" ++ [10%N], 1, 1) /\
  sent_messages (script online after) = [lit "GET http://h/1"].
Proof.
  split; [exact mine_one|]. split; [exact ours_one|]. split; [exact ours_natives|]. split; [vm_compute; reflexivity|]. split; [|vm_compute; repeat split].
  replace (reqs_of before) with [(lit "get", (lit "GET http://{host}/{ id }", [EBin (Tok KEq (lit "==")) (EIdent (lit "status")) (EInt 200)]))] by (vm_compute; reflexivity).
  replace (reqs_of after) with [(lit "our_get", (lit "GET http://{my_host}/{my_id}", [EBin (Tok KEq (lit "==")) (EIdent (lit "status")) (EInt 200)]))] by (vm_compute; reflexivity).
  constructor; [|constructor]. cbn [fst snd]. split; [reflexivity|]. split; [reflexivity|].
  match goal with |- retold ?v ?t ?t' => pose proof (scan_of 100 t ltac:(cbn; lia)) as A; pose proof (scan_of 100 t' ltac:(cbn; lia)) as B end.
  eapply retold_by_holes; [exact A|]. vm_compute in B. exact B.
Qed.
(** Names must stay different *)
Lemma renames_clash : exists w v r es s, keeps_natives r /\ ~ one_to_one v /\ renamed v r s s /\
  exists o o', fst (eval_block w es s) = Ok o /\ fst (eval_block w (map (rename v r) es) s) = Ok o' /\ o <> o'.
Proof.
  exists online, (fun _ => lit "c"), (fun n => n), (exprs_of (lit "let a = 1; let b = 2; a")), empty_state.
  split; [intros n _; reflexivity|]. split; [intros H; discriminate (H (lit "a") (lit "b") eq_refl)|].
  split; [unfold renamed, redefined; cbn; auto|]. exists (VInt 1), (VInt 2). vm_compute. repeat split. discriminate.
Qed.
(** The names in assertions are those of the response *)
Lemma renames_asserts : asserts_of (script online (lit "request get`GET http://h/`[status == 200] get()")) = [[(lit "status == 200", lit "200", lit "200", true)]] /\
  asserts_of (script online (lit "request get`GET http://h/`[my_status == 200] get()")) = [[(lit "my_status == 200", lit "null", lit "200", false)]].
Proof. vm_compute. repeat split. Qed.

(** ** reordering, dropping, inlining *)
Definition there : st := St (Ctx [(lit "y", VInt 3); (lit "host", VStr (lit "h"))] [(lit "get", (lit "GET http://{host}/", []))] []) [].
Definition one (text : str) : expr := match exprs_of text with [e] => e | _ => EBool false end.
Definition doubling : expr := one (lit "let x = y * 2").
Definition asking : expr := one (lit "let r = get().status").
Lemma host_only r t as_ ps n : mget r (c_reqs (s_ctx there)) = Some (t, as_) -> scan t ps -> In n (holes ps) -> n = lit "host".
Proof.
  intros E S J. unfold there in E. cbn [s_ctx c_reqs mget] in E. destruct (str_eqb r (lit "get")); [|discriminate E]. inversion E; subst.
  rewrite (holes_are _ _ S) in J. vm_compute in J. destruct J as [<-|[]]. reflexivity.
Qed.
Lemma apart : independent (c_reqs (s_ctx there)) doubling asking.
Proof.
  split; intros n J; vm_compute in J; destruct J as [<-|[]]; split.
  - intros [K|(r & t & as_ & ps & K & G & S & H)]; [exact K|]. pose proof (host_only _ _ _ _ _ G S H) as E. discriminate E.
  - intros K. vm_compute in K. destruct K as [K|[]]. discriminate K.
  - intros [K|(r & t & as_ & ps & K & _)]; [|exact K]. vm_compute in K. destruct K as [K|[]]. discriminate K.
  - intros K. vm_compute in K. destruct K as [K|[]]. discriminate K.
Qed.
Lemma swaps : called doubling = [] /\ independent (c_reqs (s_ctx there)) doubling asking /\ (exists s', in_order online [doubling; asking] there [VInt 6; VInt 200] s') /\
  (exists s', in_order online [asking; doubling] there [VInt 200; VInt 6] s').
Proof.
  split; [reflexivity|]. split; [exact apart|].
  split; eexists; (econstructor; [vm_compute; reflexivity|]; econstructor; [vm_compute; reflexivity|]; constructor).
Qed.
(** When both make calls the order can be told *)
Lemma swaps_printing : exists w a b s va vb s', independent (c_reqs (s_ctx s)) a b /\ in_order w [a; b] s [va; vb] s' /\
  ~ exists s'', in_order w [b; a] s [vb; va] s'' /\ same_state s' s''.
Proof.
  exists online, (one (lit "print(""1"")")), (one (lit "print(""2"")")), empty_state, VNull, VNull, (St ctx_new [Printed (lit "1"); Printed (lit "2")]).
  split; [split; intros n J; vm_compute in J; destruct J|]. split.
  - econstructor; [vm_compute; reflexivity|]. econstructor; [vm_compute; reflexivity|]. constructor.
  - intros (s'' & H & (_ & _ & _ & T)). apply two_inv in H. destruct H as (va & s1 & vb & A & B & _).
    vm_compute in A. inversion A; subst s1. vm_compute in B. inversion B; subst s''. vm_compute in T. discriminate T.
Qed.
Lemma drops : called doubling = [] /\ fst (eval_expr online doubling there) = Ok (VInt 6) /\ let_names doubling = [lit "x"] /\
  (forall e n, In e [asking] -> In n (let_names doubling) -> ~ reads (c_reqs (s_ctx there)) e n) /\
  fst (eval_block online [doubling; asking] there) = Ok (VInt 200) /\ fst (eval_block online [asking] there) = Ok (VInt 200).
Proof.
  split; [reflexivity|]. split; [vm_compute; reflexivity|]. split; [reflexivity|].
  split; [|split; vm_compute; reflexivity]. intros e n [<-|[]] J. exact (proj1 (proj1 apart n J)).
Qed.
(** A statement that fails stops the program *)
Lemma drops_failing : exists w a es s, es <> [] /\ called a = [] /\ (forall e n, In e es -> In n (let_names a) -> ~ reads (c_reqs (s_ctx s)) e n) /\
  exists v, fst (eval_block w es s) = Ok v /\ fst (eval_block w (a :: es) s) <> Ok v.
Proof.
  exists online, (one (lit "let x = z")), [asking], there. split; [discriminate|]. split; [reflexivity|].
  split; [intros e n [<-|[]] J; vm_compute in J; now apply apart|]. exists (VInt 200). split; vm_compute; [reflexivity|discriminate].
Qed.
Definition body_x : list expr := exprs_of (lit "get(); let z = [x, if (x < 7) { x + 1 }]; z").
Lemma inlines : called (one (lit "y * 2")) = [] /\ let_names (one (lit "y * 2")) = [] /\ fst (eval_expr online (one (lit "y * 2")) there) = Ok (VInt 6) /\ length body_x = 3 /\
  (forall a, In a body_x -> ~ In (lit "x") (let_names a) /\ (forall n, In n (idents (one (lit "y * 2"))) -> ~ In n (let_names a)) /\ not_in_templates (c_reqs (s_ctx there)) (lit "x") a) /\
  map (inline (lit "x") (one (lit "y * 2"))) body_x = exprs_of (lit "get(); let z = [(y * 2), if ((y * 2) < 7) { (y * 2) + 1 }]; z") /\
  fst (eval_block online (doubling :: body_x) there) = Ok (VArr [VInt 6; VInt 7]).
Proof.
  split; [reflexivity|]. split; [reflexivity|]. split; [vm_compute; reflexivity|]. split; [reflexivity|]. split; [|split; vm_compute; reflexivity].
  intros a J. split; [|split].
  - vm_compute in J. destruct J as [<-|[<-|[<-|[]]]]; intros K; vm_compute in K; firstorder discriminate.
  - intros n I K. vm_compute in I. destruct I as [<-|[]]. vm_compute in J. destruct J as [<-|[<-|[<-|[]]]]; vm_compute in K; firstorder discriminate.
  - intros r t as_ ps _ G S H. pose proof (host_only _ _ _ _ _ G S H) as E. discriminate E.
Qed.
(** A placeholder reads the variable itself *)
Lemma inlines_template : exists w x e es s v s1, es <> [] /\ called e = [] /\ let_names e = [] /\ eval_expr w e s = (Ok v, s1) /\
  (forall a, In a es -> ~ In x (let_names a) /\ (forall n, In n (idents e) -> ~ In n (let_names a))) /\
  s_trace (snd (eval_block w (ELet x e :: es) s)) <> s_trace (snd (eval_block w (map (inline x e) es) s)).
Proof.
  exists online, (lit "host"), (EStr (lit "k")), [one (lit "get()")], there, (VStr (lit "k")), there.
  split; [discriminate|]. split; [reflexivity|]. split; [reflexivity|]. split; [reflexivity|].
  split; [intros a [<-|[]]; split; [intros []|intros n []]|]. vm_compute. discriminate.
Qed.
