(** How much concrete texts take, and what becomes of them *)
From Verif Require Import Work SpecWork SpecStack SpecSyntax SpecLex SpecEval TextProofs SyntaxProofs LexOneProofs LexerProofs ParserBase ParserSound ParserProgram EvaluatorProofs WorkProofs EvalWorkProofs ValueExamples EvalExamples StackExamples.
Open Scope nat_scope.

(** ** doubling a text *)
Definition twice : str := lit "let a=a+a;".
Definition doubling (n : nat) : str := lit "let a=""x"";" ++ concat (repeat twice n).
Definition twice_toks : list token := [op KLet "let"; Tok KIdent (lit "a"); op KAssign "="; Tok KIdent (lit "a"); op KAdd "+"; Tok KIdent (lit "a")].
Definition twice_expr : expr := ELet (lit "a") (EBin (op KAdd "+") (EIdent (lit "a")) (EIdent (lit "a"))).
Definition first_toks : list token := [op KLet "let"; Tok KIdent (lit "a"); op KAssign "="; Tok KString (lit "x")].
Definition first_expr : expr := ELet (lit "a") (EStr (lit "x")).
Lemma ws_space : ws 32%N.
Proof. do 5 right. now left. Qed.
Ltac seg := first [rewrite (segment_ws 32%N _ ws_space) | erewrite segment_one; [|reflexivity|lazy -[segment]; reflexivity]].
Lemma segment_twice rest : segment (twice ++ rest) = twice_toks ++ op KSemi ";" :: segment rest.
Proof.
  change (twice ++ rest) with ([108; 101; 116; 32; 97; 61; 97; 43; 97; 59] ++ rest)%N. cbn [app]. repeat seg. reflexivity.
Qed.
Lemma segment_first rest : segment (lit "let a=""x"";" ++ rest) = first_toks ++ op KSemi ";" :: segment rest.
Proof.
  change (lit "let a=""x"";" ++ rest) with ([108; 101; 116; 32; 97; 61; 34; 120; 34; 59] ++ rest)%N. cbn [app]. repeat seg. reflexivity.
Qed.
Definition doubling_exprs (n : nat) : list expr := first_expr :: repeat twice_expr n.
Lemma twice_program n : program (map IExpr (repeat twice_expr n)) (concat (repeat (twice_toks ++ [op KSemi ";"]) n)).
Proof.
  induction n as [|n IH]; [apply pg_nil|]. cbn [repeat map concat]. rewrite <- app_assoc. apply pg_semi; [|exact IH]. apply si_expr. apply sx_let.
  apply (sx_bin true (op KAdd "+") _ [Tok KIdent (lit "a")] _ [Tok KIdent (lit "a")]); [|apply sx_ident..]. exists 8, [KAdd; KSub]. split; [reflexivity|now left].
Qed.
Lemma doubling_program n : program (map IExpr (doubling_exprs n)) (first_toks ++ op KSemi ";" :: concat (repeat (twice_toks ++ [op KSemi ";"]) n)).
Proof. apply (pg_semi (IExpr first_expr) first_toks); [|apply twice_program]. apply si_expr. apply sx_let, sx_str. Qed.
Lemma segment_doubling n : segment (doubling n) = (first_toks ++ op KSemi ";" :: concat (repeat (twice_toks ++ [op KSemi ";"]) n)) ++ [Tok KEof []].
Proof.
  unfold doubling. rewrite segment_first. rewrite <- app_assoc. f_equal. cbn [app]. f_equal. induction n as [|n IH]; [reflexivity|]. cbn [repeat concat]. rewrite segment_twice, IH, <- !app_assoc. reflexivity.
Qed.
Lemma doubling_parsed n : exists src, parse (doubling n) = Ok src /\ s_exprs src = doubling_exprs n /\ forall m, mget m (s_requests src) = None.
Proof.
  destruct (parses (doubling n) _ _ (segment_doubling n) (doubling_program n)) as (src & P & E & R & _).
  - intros i e J Ie. apply in_map_iff in J. destruct J as (x & <- & J). cbn [in_item] in Ie. subst x. destruct J as [<-|J]; [split; cbn; auto|].
    apply repeat_spec in J. subst e. split; [cbn; auto|]. refine (conj I (conj (conj _ (conj _ _)) (conj (conj I I) (conj I I)))); [cbn; auto|discriminate..].
  - exists src. split; [exact P|]. assert (X : forall es, item_exprs (map IExpr es) = es /\ item_requests (map IExpr es) = []) by (induction es as [|e es [A B]]; [split; reflexivity|]; split; [cbn; f_equal; exact A|exact B]).
    rewrite (proj1 (X _)) in E. split; [exact E|]. intros m. destruct (mget m (s_requests src)) as [d|] eqn:G; [|reflexivity]. apply R in G. rewrite (proj2 (X _)) in G. destruct G as (a & b & G & _). now destruct a.
Qed.
Lemma doubling_length n : length (doubling n) = 10 + 10 * n.
Proof.
  unfold doubling. rewrite app_length. change (length (lit "let a=""x"";")) with 10. f_equal. induction n as [|n IH]; [reflexivity|]. cbn [repeat concat]. rewrite app_length, IH. change (length twice) with 10. lia.
Qed.
Lemma double_text w call n : forall x s, ctx_get (s_ctx s) (lit "a") = Some (VStr x) ->
  exists y, fst (eval_exprs (e_host w) call (VStr x) (repeat twice_expr n) s) = Ok (VStr y) /\ length y = 2 ^ n * length x.
Proof.
  induction n as [|n IH]; intros x s G; [exists x; cbn; split; [reflexivity|lia]|]. cbn [repeat eval_exprs].
  assert (E : eval (e_host w) call twice_expr s = (Ok (VStr (x ++ x)), upd (fun c => ctx_set c (lit "a") (VStr (x ++ x))) s)).
  { unfold twice_expr. cbn [eval]. change (strict_op (e_host w) (tkind (op KAdd "+"))) with (strict_op (e_host w) KAdd). cbn [strict_op]. unfold bind. rewrite G. cbv beta iota. rewrite G. reflexivity. }
  unfold bind at 1. rewrite E. destruct (IH (x ++ x) (upd (fun c => ctx_set c (lit "a") (VStr (x ++ x))) s)) as (y & Y1 & Y2).
  - destruct s as [[vs rq rc] tr]. unfold upd, ctx_set, ctx_get. cbn [s_ctx c_vars]. apply mget_mset_same.
  - exists y. split; [exact Y1|]. rewrite Y2, app_length. cbn [Nat.pow]. lia.
Qed.
(** a text of ten more characters makes a text twice as long *)
Theorem doubling_grows n : exists src, parse (doubling n) = Ok src /\ length (doubling n) = 10 + 10 * n /\
  forall w s, exists x, fst (eval_block w (s_exprs src) s) = Ok (VStr x) /\ length x = 2 ^ n.
Proof.
  destruct (doubling_parsed n) as (src & P & E & _). exists src. split; [exact P|]. split; [apply doubling_length|]. intros w s. rewrite E. unfold eval_block, doubling_exprs. cbn [eval_exprs].
  destruct (double_text w (call_at w 1) n (lit "x") (upd (fun c => ctx_set c (lit "a") (VStr (lit "x"))) s)) as (y & Y1 & Y2).
  - destruct s as [[vs rq rc] tr]. unfold upd, ctx_set, ctx_get. cbn [s_ctx c_vars]. apply mget_mset_same.
  - exists y. split; [exact Y1|]. rewrite Y2. change (length (lit "x")) with 1. lia.
Qed.

(** ** what some texts take *)
Definition work_script (w : env) (text : str) : option (nat * nat) :=
  match parse text with
  | Ok src => Some (parse_work text, snd (work_eval_block w (s_exprs src) (St (ctx_extend ctx_new (s_requests src)) [])))
  | _ => None
  end.
Lemma parse_works : parse_work (lit "[[1],[2,[3]]]") = 26 /\ length (segment (lit "[[1],[2,[3]]]")) = 14 /\ parse_work (lit "[1 2") = 5 /\ length (segment (lit "[1 2")) = 4 /\
  parse (lit "[[1],[2,[3]]]") <> Diverge /\ (exists e, parse (lit "[1 2") = Err e) /\ exists src, parse (lit "1+2*(3+4)") = Ok src /\ sizes (s_exprs src) = 8 /\ parse_work (lit "1+2*(3+4)") = 15.
Proof. vm_compute. repeat split; try discriminate; eexists; repeat split. Qed.
Lemma eval_works : work_script online (lit "1+2*(3+4)") = Some (15, 8) /\ work_script online (lit "true || (1 + (2 + 3))") = Some (17, 2) /\
  work_script online (lit "request r`GET http://h/`[json[""n""] == 7, status < 300] [r(), r()]") = Some (32, 41) /\ body_work (lit "{""n"":7}") = 13.
Proof. vm_compute. repeat split. Qed.

(** ** an endless loop *)
Lemma spinning n p l ts t : (negb (peek_is KSemi ts) && (p <? peek_precedence ts)%N)%bool = true -> peek ts = Some t -> is_binop (tkind t) = false ->
  tkind t <> KLp -> tkind t <> KLs -> tkind t <> KDot -> snd (work_loop n p l ts) = n.
Proof.
  intros C P B K1 K2 K3. induction n as [|n IH]; [reflexivity|]. cbn [work_loop]. rewrite C, P, B. unfold counted. cbn [snd]. destruct (tkind t); try (f_equal; exact IH); congruence.
Qed.
Theorem spinning_on n : n <= snd (work_top n (Source [] [] []) (segment (lit "a!b"))).
Proof.
  change (segment (lit "a!b")) with [Tok KIdent (lit "a"); Tok KNot (lit "!"); Tok KIdent (lit "b"); Tok KEof []].
  destruct n as [|n]; [cbn; lia|]. cbn [work_top current tkind]. unfold counted at 1. cbn [snd]. apply le_n_S. unfold wbind. destruct n as [|n]; [cbn; lia|]. cbn [work_expr current tkind tlit]. unfold counted at 1.
  pose proof (spinning n prec_min (EIdent (lit "a")) [Tok KIdent (lit "a"); Tok KNot (lit "!"); Tok KIdent (lit "b"); Tok KEof []] (Tok KNot (lit "!")) eq_refl eq_refl eq_refl ltac:(discriminate) ltac:(discriminate) ltac:(discriminate)) as E.
  pose proof (loop_spins n prec_min (EIdent (lit "a")) [Tok KIdent (lit "a"); Tok KNot (lit "!"); Tok KIdent (lit "b"); Tok KEof []] (Tok KNot (lit "!")) eq_refl eq_refl eq_refl ltac:(discriminate) ltac:(discriminate) ltac:(discriminate)) as F.
  unfold counted. cbn [fst snd]. rewrite F. cbn [snd]. rewrite E. lia.
Qed.
