(** Concrete runs with map entries in various orders *)
From Verif Require Import SpecOrder SpecShow OrderProofs AgreeProofs EvalExamples.

Definition exprs_of (text : str) : list expr := match parse text with Ok src => s_exprs src | _ => [] end.
Definition key_text : str := lit "let m = {{""a"": 1}: 2}; m[{""a"": 1}]".
Definition twin_text : str := lit "{{""a"": 1, ""b"": 2}: 3}[{""a"": 1, ""b"": 2}]".

Ltac any_dbg := first
  [ apply da_null | apply da_int | apply da_float | apply da_bool | apply da_str
  | apply da_arr; repeat (constructor; [any_dbg|]); constructor
  | eapply da_map; [apply Permutation_refl|]; repeat (constructor; [do 2 eexists; split; [reflexivity|split; [any_dbg|reflexivity]]|]); constructor ].
Ltac any_show := first
  [ apply sa_null | apply sa_int | apply sa_float | apply sa_bool | apply sa_str
  | apply sa_arr; repeat (constructor; [any_dbg|]); constructor
  | eapply sa_map; [apply Permutation_refl|]; repeat (constructor; [do 2 eexists; split; [reflexivity|split; [any_dbg|reflexivity]]|]); constructor ].
Ltac do_ := split; [reflexivity|reflexivity].
Ltac shows := split; [reflexivity|split; [reflexivity|eexists; split; [any_show|reflexivity]]].
Ltac then_ := left; do 4 eexists; split; [|split; [|reflexivity]].


Ltac calm_ := repeat (constructor; cbn; try exact I; try (intros _)); repeat constructor.
Lemma calm_settled l : Forall (calm true) l -> settled l.
Proof. intros F v [H|H]; rewrite Forall_forall in F; apply F in H; cbn in H; auto. Qed.
Lemma calm_kept l : Forall (calm false) l -> kept_settled l.
Proof. intros F v H; rewrite Forall_forall in F; apply F in H; cbn in H; auto. Qed.
Lemma two_entries k v j u m : ~ orderless (VMap ((k, v) :: (j, u) :: m)).
Proof. intros H. inversion H. Qed.

(** A map with one entry as a key, found again *)
Lemma key_run : exists log s1, may_run online (exprs_of key_text) empty_state log (Ok (VInt 2)) s1 /\ settled log /\ In (ToKeep (VMap [(lit "a", VInt 1)])) log.
Proof.
  do 2 eexists. split; [|split].
  - change (exprs_of key_text) with [ELet (lit "m") (EMap [(EMap [(EStr (lit "a"), EInt 1)], EInt 2)]); EIndex (EIdent (lit "m")) (EMap [(EStr (lit "a"), EInt 1)])].
    unfold may_run. cbn [may_exprs may_eval]. repeat first [do_ | shows | then_].
  - apply calm_settled. repeat constructor.
  - cbn [app]. repeat first [now left | right].
Qed.

(** A map with two entries as a key: it may be found again, or not *)
Definition two (a b : str) : value := VMap [(a, VInt 1); (b, VInt 2)].
Lemma twin_found : exists log s1, may_run online (exprs_of twin_text) empty_state log (Ok (VInt 3)) s1.
Proof.
  do 2 eexists. change (exprs_of twin_text) with [EIndex (EMap [(EMap [(EStr (lit "a"), EInt 1); (EStr (lit "b"), EInt 2)], EInt 3)]) (EMap [(EStr (lit "a"), EInt 1); (EStr (lit "b"), EInt 2)])].
  unfold may_run. cbn [may_exprs may_eval]. repeat first [do_ | shows | then_].
Qed.
Ltac swapped := split; [reflexivity|split; [reflexivity|eexists; split; [eapply sa_map; [apply perm_swap|]; repeat (constructor; [do 2 eexists; split; [reflexivity|split; [any_dbg|reflexivity]]|]); constructor|reflexivity]]].
Lemma twin_lost : exists log s1, may_run online (exprs_of twin_text) empty_state log (Ok VNull) s1.
Proof.
  do 2 eexists. change (exprs_of twin_text) with [EIndex (EMap [(EMap [(EStr (lit "a"), EInt 1); (EStr (lit "b"), EInt 2)], EInt 3)]) (EMap [(EStr (lit "a"), EInt 1); (EStr (lit "b"), EInt 2)])].
  unfold may_run. cbn [may_exprs may_eval]. then_; [then_; [repeat first [do_ | shows | then_]|then_; [repeat first [do_ | shows | then_]|then_; [swapped|do_]]]|do_].
Qed.

(** Maps compared in an assertion *)
Definition maps_text : str := lit "request get`GET http://h/`[{""a"": 1, ""b"": 2} == {""b"": 2, ""a"": 1}, json.n == 7]get()".
Definition maps_state : st := match parse maps_text with Ok src => St (ctx_extend ctx_new (s_requests src)) [] | _ => empty_state end.
Lemma online_unaware : unaware online.
Proof. now intros tr tr' m _. Qed.

Ltac dov := split; [reflexivity|match goal with |- ?l = _ => let y := eval vm_compute in l in transitivity y; [vm_cast_no_check (eq_refl y)|reflexivity] end].
Ltac side := left; split; [cbn [may_eval]; repeat first [do_ | shows | then_]|discriminate].
Ltac compared := match goal with |- context [compare_op ?a] => let y := eval hnf in (compare_op a) in change (compare_op a) with y end; cbv iota beta; repeat first [shows | then_]; do_.
Ltac asked :=
  unfold may_run; cbn [may_exprs may_eval]; then_; [|do_];
  then_; [do_|]; unfold may_call at 1;
  match goal with |- context [ctx_request ?a ?b] => let y := eval vm_compute in (ctx_request a b) in change (ctx_request a b) with y end; cbv iota beta;
  unfold may_request; then_;
  [ unfold may_message; cbv zeta; match goal with |- context [rev ?a] => let y := eval vm_compute in (rev a) in change (rev a) with y end; cbn [map may_texts combine]; repeat first [do_|then_]
  | then_; [dov|]; cbv iota beta; then_;
    [ unfold may_to_map; cbv zeta; match goal with |- context [parse ?a] => let y := eval vm_compute in (parse a) in change (parse a) with y end; cbn [s_exprs may_json]; repeat first [do_ | shows | then_]
    | unfold may_checks; do 2 eexists; split; [cbn [may_asserts]|] ] ].
Lemma maps_run : exists log v s1, may_run online (exprs_of maps_text) maps_state log (Ok v) s1 /\ kept_settled log /\ ~ settled log /\
  map (fun r => map a_result (r_asserts r)) (c_recs (s_ctx s1)) = [[true; true]].
Proof.
  do 3 eexists. split; [|split; [|split]].
  - change (exprs_of maps_text) with [ECall (lit "get") []]. asked.
    then_; [side|]. then_; [side|]. then_; [compared|]. then_; [|do_]. cbn [may_asserts]. then_; [side|]. then_; [side|]. then_; [compared|]. then_; [|do_]. do_. split; reflexivity.
  - apply calm_kept. cbn [app]. repeat (constructor; [cbn; try discriminate; repeat constructor|]). constructor.
  - intros S. eapply two_entries. apply S. right. cbn [app]. repeat first [now left | right].
  - reflexivity.
Qed.

(** The assertion that a map with two entries is found again: it passes, or fails *)
Definition find_text : str := lit "request get`GET http://h/`[{{""a"": 1, ""b"": 2}: 3}[{""a"": 1, ""b"": 2}] == 3]get()".
Definition find_state : st := match parse find_text with Ok src => St (ctx_extend ctx_new (s_requests src)) [] | _ => empty_state end.
Definition verdicts (s : st) : list (list bool) := map (fun r => map a_result (r_asserts r)) (c_recs (s_ctx s)).
Lemma find_passes : exists log v s1, may_run online (exprs_of find_text) find_state log (Ok v) s1 /\ verdicts s1 = [[true]].
Proof.
  do 3 eexists. split.
  - change (exprs_of find_text) with [ECall (lit "get") []]. asked. then_; [side|]. then_; [side|]. then_; [compared|]. then_; [|do_]. do_. split; reflexivity.
  - reflexivity.
Qed.
Lemma find_fails : exists log v s1, may_run online (exprs_of find_text) find_state log (Ok v) s1 /\ verdicts s1 = [[false]].
Proof.
  do 3 eexists. split.
  - change (exprs_of find_text) with [ECall (lit "get") []]. asked.
    then_; [left; split; [|discriminate]|].
    { cbn [may_eval]. then_; [repeat first [do_ | shows | then_]|]. then_; [repeat first [do_ | shows | then_]|]. then_; [swapped|do_]. }
    then_; [side|]. then_; [compared|]. then_; [|do_]. do_. split; reflexivity.
  - reflexivity.
Qed.
Lemma order_matters : exists log o s1 log' o' s1', may_run online (exprs_of twin_text) empty_state log o s1 /\ may_run online (exprs_of twin_text) empty_state log' o' s1' /\ o <> o'.
Proof. destruct twin_found as (l & s & A). destruct twin_lost as (l' & s' & B). exists l, (Ok (VInt 3)), s, l', (Ok VNull), s'. split; [exact A|]. split; [exact B|discriminate]. Qed.
Lemma verdict_matters : exists log v s1 log' v' s1', may_run online (exprs_of find_text) find_state log (Ok v) s1 /\ may_run online (exprs_of find_text) find_state log' (Ok v') s1' /\
  verdicts s1 = [[true]] /\ verdicts s1' = [[false]].
Proof. destruct find_passes as (l & v & s & A & P). destruct find_fails as (l' & v' & s' & B & F). exists l, v, s, l', v', s'. exact (conj A (conj B (conj P F))). Qed.

(** The text of C103: what it prints *)
Lemma key_printed : exists log s1, may_command online key_text empty_state log (Ok tt) s1 /\ settled log /\ s_trace s1 = [Printed (lit "2" ++ [10%N])].
Proof.
  do 2 eexists. split; [|split].
  - unfold may_command. match goal with |- context [parse ?a] => let y := eval vm_compute in (parse a) in change (parse a) with y end. cbv iota beta.
    left. do 5 eexists. split; [cbn [s_exprs]; unfold may_run; cbn [may_exprs may_eval]; repeat first [do_ | shows | then_]|].
    split; [shows|]. split; [reflexivity|]. split; reflexivity.
  - apply calm_settled. cbn [app]. repeat (constructor; [cbn; try (intros _); repeat constructor|]). constructor.
  - reflexivity.
Qed.
Lemma online_orders : orders (e_host (reseeded online (@rev str))).
Proof. intros ks. apply Permutation_sym, Permutation_rev. Qed.
