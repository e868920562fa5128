(** Concrete readings *)
From Verif Require Import Parser SpecReading ReadComplete.
Open Scope N_scope.

Lemma one_digit k z l : l <> [] -> Forall digit l -> (Z.of_N (decimal l) < 2 ^ 63)%Z -> z = Z.of_N (decimal l) -> reads k (EInt z) [Tok KInteger l].
Proof. intros A B C ->. now constructor. Qed.

Lemma nothing_carries k : k = KSemi \/ k = KEof \/ k = KIdent -> carries k -> False.
Proof.
  intros K [[n R]|I].
  - destruct R as (l & E & R). destruct K as [-> | [-> | ->]]; do 10 (destruct n as [|n]; [injection E as <-; cbn in R; decompose [or] R; try discriminate; auto|]); destruct n; discriminate.
  - cbn in I. destruct K as [-> | [-> | ->]]; decompose [or] I; try discriminate; auto.
Qed.

Ltac int := apply one_digit; [discriminate|constructor; [vm_compute; split; discriminate|constructor]|reflexivity|reflexivity].

(** A [let] in the middle of an operation: its [;] ends it, and the [*] after
    that is applied to the whole sum *)
Lemma let_operand_reading : exists w, segment (lit "1 + let x = 2; * 3") = w ++ [Tok KEof []] /\
  reads_items [IExpr (EBin (op KMul "*") (EBin (op KAdd "+") (EInt 1) (ELet (lit "x") (EInt 2))) (EInt 3))] w.
Proof.
  exists [Tok KInteger (lit "1"); op KAdd "+"; op KLet "let"; Tok KIdent (lit "x"); op KAssign "="; Tok KInteger (lit "2"); op KSemi ";";
          op KMul "*"; Tok KInteger (lit "3")].
  split; [vm_compute; reflexivity|].
  rewrite <- app_nil_r. apply rs_next; [|constructor]. apply rt_expr; [|intros C; exfalso; apply nothing_carries in C; auto].
  apply (rd_bin KEof (op KMul "*") _ [Tok KInteger (lit "1"); op KAdd "+"; op KLet "let"; Tok KIdent (lit "x"); op KAssign "="; Tok KInteger (lit "2"); op KSemi ";"]
           _ [Tok KInteger (lit "3")]).
  - exists 9%nat. eexists. split; [reflexivity|]. cbn. auto.
  - apply (rd_bin (tkind (op KMul "*")) (op KAdd "+") _ [Tok KInteger (lit "1")]
             _ [op KLet "let"; Tok KIdent (lit "x"); op KAssign "="; Tok KInteger (lit "2"); op KSemi ";"]).
    + exists 8%nat. eexists. split; [reflexivity|]. cbn. auto.
    + int.
    + apply (rd_let_semi _ _ _ [Tok KInteger (lit "2")]). int.
    + intros C. inversion C.
    + intros t' a b C. inversion C.
    + intros t' [].
  - int.
  - intros C. inversion C.
  - intros t' a b C L. inversion C; subst. constructor.
  - intros t' [].
Qed.

(** No [;] is needed before [-]'s operand ends, and an index after a [let]
    applies to what the [let] stands in *)
Lemma no_semi_reading : exists w, segment (lit "a; -let x = b; [0] c") = w ++ [Tok KEof []] /\
  reads_items [IExpr (EIdent (lit "a")); IExpr (EIndex (EUn (op KSub "-") (ELet (lit "x") (EIdent (lit "b")))) (EInt 0)); IExpr (EIdent (lit "c"))] w.
Proof.
  exists [Tok KIdent (lit "a"); op KSemi ";"; op KSub "-"; op KLet "let"; Tok KIdent (lit "x"); op KAssign "="; Tok KIdent (lit "b"); op KSemi ";";
          op KLs "["; Tok KInteger (lit "0"); op KRs "]"; Tok KIdent (lit "c")].
  split; [vm_compute; reflexivity|].
  assert (N : forall e, over KIdent e) by (intros e C; exfalso; apply nothing_carries in C; auto).
  assert (N' : forall k e, (k = KSemi \/ k = KEof) -> over k e) by (intros k e [-> | ->] C; exfalso; apply nothing_carries in C; auto).
  apply (rs_semi _ [Tok KIdent (lit "a")]); [apply rt_expr; [constructor|auto]|].
  apply (rs_next _ [op KSub "-"; op KLet "let"; Tok KIdent (lit "x"); op KAssign "="; Tok KIdent (lit "b"); op KSemi ";";
          op KLs "["; Tok KInteger (lit "0"); op KRs "]"] _ [Tok KIdent (lit "c")]).
  - apply rt_expr; [|apply N].
    apply (rd_index _ _ [op KSub "-"; op KLet "let"; Tok KIdent (lit "x"); op KAssign "="; Tok KIdent (lit "b"); op KSemi ";"] _ [Tok KInteger (lit "0")]).
    + apply rd_un; [now right| |reflexivity]. apply (rd_let_semi _ _ _ [Tok KIdent (lit "b")]). constructor.
    + constructor.
    + int.
  - rewrite <- (app_nil_r [Tok KIdent (lit "c")]). apply rs_next; [|constructor]. apply rt_expr; [constructor|apply N'; auto].
Qed.

(** A [let] of its own is not carried on by a [.] after its [;]: nothing reads
    these tokens *)
Lemma unread : ~ exists is w, segment (lit "let x = b; . c") = w ++ [Tok KEof []] /\ reads_items is w.
Proof. intros H. apply accepted in H. destruct H as [src H]. vm_compute in H. discriminate. Qed.
