(** Cases of blocks that read what they have set *)
From Verif Require Import EvalExamples ValueExamples ReadsProofs TemplateProofs LiveProofs RefactorExamples SpecEval SpecLive.

Definition fetch : amap (str * list expr) := [(lit "get", (lit "GET http://h/{n}", []))].
(** let r = get(); let code = r.status *)
Definition steady_body : list expr := [ELet (lit "r") (ECall (lit "get") []); ELet (lit "code") (EField (EIdent (lit "r")) (lit "status"))].
(** let n = n + 1; get() *)
Definition counting_body : list expr := [ELet (lit "n") (EBin (Tok KAdd (lit "+")) (EIdent (lit "n")) (EInt 1)); ECall (lit "get") []].
Lemma fetch_needs f n : needs fetch (ECall f []) n -> n = lit "n".
Proof.
  intros H. inversion H; subst.
  - match goal with E : ?a ++ _ :: _ = [] |- _ => destruct a; discriminate E end.
  - match goal with M : mget _ _ = Some _, S : scan _ _, J : In _ (holes _) |- _ => rename M into M0; rename S into S0; rename J into J0 end.
    rewrite (holes_are _ _ S0) in J0. unfold fetch in M0. cbn [mget] in M0. destruct (str_eqb f (lit "get")) in M0; [|discriminate M0]. injection M0 as <- <-.
    vm_compute in J0. destruct J0 as [<-|[]]. reflexivity.
Qed.
Lemma one_needs R e n : needs_block R [e] n -> needs R e n.
Proof. intros (a & x & b & E & N & _). destruct a as [|y [|]]; inversion E; subst; auto. Qed.
Lemma two_needs R d e n : needs_block R [d; e] n -> needs R d n \/ needs R e n /\ ~ In n (sure d).
Proof.
  intros (a & x & b & E & N & J). destruct a as [|y [|z [|]]]; inversion E; subst; [auto| ].
  right. split; auto. cbn in J. rewrite app_nil_r in J. auto.
Qed.
Lemma steady_needs n : needs_block fetch steady_body n -> n = lit "n".
Proof.
  intros H. apply two_needs in H. destruct H as [H|[H J]].
  - inversion H; subst. eapply fetch_needs; eauto.
  - inversion H as [|? ? ? N| | | | | | | | | | | | | | |]; subst. inversion N as [| |? ? ? N'| | | | | | | | | | | | | |]; subst. inversion N'; subst. destruct J. cbn. auto.
Qed.
Lemma online_memoryless : memoryless online. Proof. intros t1 t2 m. reflexivity. Qed.
(** [n] iterations *)
Fixpoint runs (w : env) (body : list expr) (c : ctx) (n : nat) : option (st * list (list record)) :=
  match n with
  | O => Some (St (Ctx (c_vars c) (c_reqs c) []) [], [])
  | S n => match runs w body c n with
           | Some (s, bs) => match eval_block w body s with
                             | (Ok _, s1) => Some (St (Ctx (c_vars (s_ctx s1)) (c_reqs (s_ctx s1)) []) (s_trace s1 ++ map (fun r => Printed (show_record r ++ [10%N])) (c_recs (s_ctx s1))), bs ++ [c_recs (s_ctx s1)])
                             | _ => None
                             end
           | None => None
           end
  end.
Lemma runs_iterated w body c n : forall s bs, runs w body c n = Some (s, bs) -> iterated w body c (N.of_nat n) s bs.
Proof.
  induction n as [|n IH]; cbn [runs]; intros s bs E; [injection E as <- <-; constructor|].
  destruct (runs w body c n) as [[s0 bs0]|]; [|discriminate E]. destruct (eval_block w body s0) as [[v| | |] s1] eqn:EV; try discriminate E. injection E as <- <-.
  replace (N.of_nat (S n)) with (N.of_nat n + 1)%N by lia. eapply it_next; eauto.
Qed.
Lemma steady_example : carries_nothing fetch steady_body /\ memoryless online /\
  exists s bs, iterated online steady_body (Ctx [(lit "n", VInt 7)] fetch []) 2 s bs /\ mget (lit "code") (c_vars (s_ctx s)) = Some (VInt 200) /\ map (@length _) bs = [1; 1]%nat.
Proof.
  split; [|split; [apply online_memoryless|]].
  - intros n H. apply steady_needs in H. subst. cbn. intros [H|[H|[]]]; discriminate H.
  - destruct (runs online steady_body (Ctx [(lit "n", VInt 7)] fetch []) 2) as [[s bs]|] eqn:E; [|vm_compute in E; discriminate E].
    exists s, bs. split; [exact (runs_iterated _ _ _ _ _ _ E)|].
    assert (C : option_map (fun x => (mget (lit "code") (c_vars (s_ctx (fst x))), map (@length _) (snd x))) (runs online steady_body (Ctx [(lit "n", VInt 7)] fetch []) 2) = Some (Some (VInt 200), [1; 1]%nat)) by (vm_compute; reflexivity).
    rewrite E in C. cbn [option_map fst snd] in C. injection C as C1 C2. auto.
Qed.
Lemma counting_differs : exists w body c s a b, memoryless w /\ iterated w body c 2 s [a; b] /\ map (fun r => u_path (rq_url (r_request r))) a = [lit "/8"] /\ map (fun r => u_path (rq_url (r_request r))) b = [lit "/9"].
Proof.
  exists online, counting_body, (Ctx [(lit "n", VInt 7)] fetch []).
  destruct (runs online counting_body (Ctx [(lit "n", VInt 7)] fetch []) 2) as [[s bs]|] eqn:E; [|vm_compute in E; discriminate E].
  assert (C : option_map (fun x => map (map (fun r => u_path (rq_url (r_request r)))) (snd x)) (runs online counting_body (Ctx [(lit "n", VInt 7)] fetch []) 2) = Some [[lit "/8"]; [lit "/9"]]) by (vm_compute; reflexivity).
  rewrite E in C. cbn [option_map snd] in C. apply runs_iterated in E.
  destruct bs as [|a [|b [|]]]; try discriminate C. exists s, a, b. injection C as C1 C2. split; [apply online_memoryless|]. auto.
Qed.
Lemma counting_needs : needs_block fetch counting_body (lit "n") /\ In (lit "n") (flat_map let_names counting_body).
Proof. split; [|cbn; auto]. exists [], (ELet (lit "n") (EBin (Tok KAdd (lit "+")) (EIdent (lit "n")) (EInt 1))), [ECall (lit "get") []]. split; [reflexivity|]. split; [repeat constructor|intros []]. Qed.
Lemma live_example : let es := [ELet (lit "a") (EInt 1); EBin (Tok KAdd (lit "+")) (EIdent (lit "a")) (ELet (lit "b") (EInt 2))] in
  (forall n, ~ needs_block [] es n) /\ flat_map sure es = [lit "a"; lit "b"] /\
  fst (eval_block online es (St ctx_new [])) = Ok (VInt 3) /\ fst (eval_block online es (St (Ctx [(lit "a", VInt 9)] [] []) [])) = Ok (VInt 3).
Proof.
  cbv zeta. split; [|split; [reflexivity|split; vm_compute; reflexivity]].
  intros n H. apply two_needs in H. destruct H as [H|[H J]].
  - inversion H as [|x e n' N| | | | | | | | | | | | | | |]; subst. inversion N.
  - inversion H as [| | | | | | | | | |t a b n' N|t a b n' N K| | | | |]; subst.
    + inversion N; subst. apply J. cbn. auto.
    + inversion N as [|x e n' N'| | | | | | | | | | | | | | |]; subst. inversion N'.
Qed.
(** setting in one branch only is not enough *)
Lemma branch_example : let es := [EIf (EIdent (lit "c")) [ELet (lit "a") (EInt 1)] []; EIdent (lit "a")] in
  needs_block [] es (lit "a") /\
  fst (eval_block online es (St (Ctx [(lit "c", VBool false); (lit "a", VInt 5)] [] []) [])) = Ok (VInt 5).
Proof.
  cbv zeta. split; [|vm_compute; reflexivity]. exists [EIf (EIdent (lit "c")) [ELet (lit "a") (EInt 1)] []], (EIdent (lit "a")), []. split; [reflexivity|].
  split; [constructor|]. intros H. vm_compute in H. exact H.
Qed.
