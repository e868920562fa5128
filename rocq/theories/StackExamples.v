(** How deep concrete texts and servers make calls nest *)
From Verif Require Import Deep SpecStack SpecSyntax SpecLex SpecHttp SpecText SpecValue TextProofs TextMore SyntaxProofs LexOneProofs LexerProofs ParserBase ParserSound ParserProgram ResponseProofs DeepProofs EvalDepthProofs ValueExamples EvalExamples.
Open Scope nat_scope.

(** ** a long sum *)
Definition plus_ones (n : nat) : str := concat (repeat (lit "+1") n).
Definition long_sum (n : nat) : str := lit "1" ++ plus_ones n.
Definition one : token := Tok KInteger (lit "1").
Fixpoint sum_expr (n : nat) : expr := match n with O => EInt 1 | S n => EBin (op KAdd "+") (sum_expr n) (EInt 1) end.
Lemma segment_one_plus n : segment (49%N :: plus_ones n) = one :: segment (plus_ones n).
Proof. apply segment_one; [reflexivity|]. destruct n; reflexivity. Qed.
Lemma segment_plus n : segment (plus_ones n) = concat (repeat [op KAdd "+"; one] n) ++ [Tok KEof []].
Proof.
  induction n as [|n IH]; [reflexivity|]. transitivity (op KAdd "+" :: segment (49%N :: plus_ones n)).
  - apply (segment_one 43%N (49%N :: plus_ones n) KAdd (lit "+") (49%N :: plus_ones n)); reflexivity.
  - rewrite segment_one_plus, IH. reflexivity.
Qed.
Lemma segment_sum n : segment (long_sum n) = (one :: concat (repeat [op KAdd "+"; one] n)) ++ [Tok KEof []].
Proof. etransitivity; [apply segment_one_plus|]. now rewrite segment_plus. Qed.
Lemma sum_syntax n : syntax true (sum_expr n) (one :: concat (repeat [op KAdd "+"; one] n)).
Proof.
  assert (I : syntax true (EInt 1) [one]) by (apply (sx_int true [49%N]); [discriminate|apply Forall_cons; [unfold digit; lia|apply Forall_nil]|reflexivity]).
  induction n as [|n IH]; [exact I|]. replace (one :: concat (repeat [op KAdd "+"; one] (S n))) with ((one :: concat (repeat [op KAdd "+"; one] n)) ++ [op KAdd "+"; one]).
  - cbn [sum_expr]. apply (sx_bin true (op KAdd "+") (sum_expr n) _ (EInt 1) [one]); auto. exists 8, [KAdd; KSub]. split; [reflexivity|now left].
  - cbn [app]. f_equal. change (repeat [op KAdd "+"; one] (S n)) with ([op KAdd "+"; one] :: repeat [op KAdd "+"; one] n). rewrite repeat_cons, concat_app. cbn [concat]. now rewrite app_nil_r.
Qed.

Lemma sum_wellformed n : no_let_operand (sum_expr n) /\ prec_ok (sum_expr n).
Proof.
  induction n as [|n [A B]]; [cbn; auto|]. split.
  - exact (conj (fun x : False => x) (conj A (conj I I))).
  - refine (conj (conj _ (conj _ _)) (conj B (conj I I))).
    + destruct n; cbn; auto.
    + intros t a b E. destruct n; [discriminate E|]. injection E as <- _ _. rewrite looser_iff. intros (_ & _ & L). now apply N.lt_irrefl in L.
    + discriminate.
Qed.
Lemma sum_parsed n : exists src, parse (long_sum n) = Ok src /\ s_exprs src = [sum_expr n].
Proof.
  destruct (parses (long_sum n) [IExpr (sum_expr n)] _ (segment_sum n)) as (src & P & E & _).
  - apply pg_last. apply si_expr. apply sum_syntax.
  - intros i e [<-|[]] ->. apply sum_wellformed.
  - eauto.
Qed.
Lemma sum_flat n : let ts := segment (long_sum n) in rise ts = 0 /\ lets ts = 0 /\ runs ts = 0.
Proof. cbv zeta. rewrite segment_sum. induction n as [|n (A & B & C)]; [repeat split|]. repeat split; [exact A|exact B|exact C]. Qed.
Lemma sum_nests n h call s : S n <= snd (deep_eval h call (sum_expr n) s).
Proof.
  induction n as [|n IH]; [cbn; lia|]. cbn [sum_expr]. etransitivity; [|apply chain_depth; eexists; reflexivity]. lia.
Qed.
(** accepted with at most twelve nested calls, evaluated with one more than there are operators *)
Theorem sum_depth n : exists src, parse (long_sum n) = Ok src /\ parse_depth (long_sum n) <= 12 /\
  forall w s, S n <= snd (deep_eval_block w (s_exprs src) s).
Proof.
  destruct (sum_parsed n) as (src & P & E). exists src. split; [exact P|]. split.
  - unfold parse_depth. etransitivity; [apply parse_depth_brackets|]. destruct (sum_flat n) as (-> & -> & ->). lia.
  - intros w s. rewrite E. unfold deep_eval_block. cbn [deep_exprs]. etransitivity; [|apply snd_ebind]. apply sum_nests.
Qed.

(** ** a server that answers with brackets *)
Definition brackets_reply (k : nat) : bytes := utf8 (lit "HTTP/1.1 200 OK") ++ 10%N :: 10%N :: utf8 (repeat 91%N k).
Definition brackets_server (k : nat) : env :=
  Env (some_host true) (fun _ => true) (fun _ _ => Exchange 0 0 (inl 1%N) 3 None 4 5 (Reader (brackets_reply k) None) 9 10 11).
Lemma scalars_all l : forallb is_scalar l = true -> scalars l.
Proof. intros H. unfold scalars. rewrite forallb_forall in H. apply Forall_forall. intros c I. now apply H. Qed.
Lemma brackets_response k : response_from (Reader (brackets_reply k) None) = inl (Response (lit "HTTP/1.1") 200 (lit "OK") [] (repeat 91%N k)).
Proof.
  apply response_iff. apply (rsp_full (lit "HTTP/1.1 200 OK") [lit "HTTP/1.1"; lit "200"; lit "OK"] (10%N :: utf8 (repeat 91%N k)) 200%N [] (utf8 (repeat 91%N k)) (repeat 91%N k)).
  - cbv. intuition discriminate.
  - apply scalars_all. reflexivity.
  - apply words_iff. reflexivity.
  - left. exists (lit "200"). split; [reflexivity|]. exists (lit "200"). split; [now left|]. split; [discriminate|]. split; [unfold digit; cbn; repeat (apply Forall_cons; [lia|]); apply Forall_nil|]. split; [reflexivity|discriminate].
  - apply (rh_blank [] (utf8 (repeat 91%N k))); [easy|constructor|constructor].
  - apply scalars_all. induction k; auto.
  - reflexivity.
Qed.

(** however deep calls may nest, a short request and such an answer nest deeper *)
Theorem brackets_overflow k : exists src rs, parse (lit "request r`GET http://h/` r()") = Ok src /\ rs_body rs = repeat 91%N k /\
  (exists rq t, client_send (e_prepare (brackets_server k)) (e_net (brackets_server k) [] (lit "GET http://h/")) (lit "GET http://h/") = Ok (rq, rs, t, [])) /\
  k < snd (deep_eval_block (brackets_server k) (s_exprs src) (St (ctx_extend ctx_new (s_requests src)) [])).
Proof.
  eexists. exists (Response (lit "HTTP/1.1") 200 (lit "OK") [] (repeat 91%N k)). split; [vm_compute; reflexivity|]. split; [reflexivity|].
  assert (C : exists rq t, client_send (e_prepare (brackets_server k)) (e_net (brackets_server k) [] (lit "GET http://h/")) (lit "GET http://h/") =
    Ok (rq, Response (lit "HTTP/1.1") 200 (lit "OK") [] (repeat 91%N k), t, [])).
  { unfold client_send. destruct (request_from _ _) as [rq c]. cbn [e_net brackets_server x_connect x_connected x_start x_write x_reply x_wall0 x_wall1 x_first x_read x_read_done x_done rd_bytes rd_end].
    rewrite brackets_response. exists rq. eexists. vm_compute. reflexivity. }
  split; [exact C|]. destruct C as (rq & t & C). pose proof (brackets_depth k []) as B. rewrite app_nil_r in B. pose proof (body_parse (repeat 91%N k)) as D.
  eapply Nat.lt_le_trans; [|eapply (call_depth (brackets_server k) (lit "r")); [vm_compute; reflexivity|]].
  2: { exact C. }
  cbn [rs_body]. lia.
Qed.

(** ** examples *)
Lemma parse_depths : parse_depth (lit "[[1],[2,[3]]]") = 4 /\ rise (segment (lit "[[1],[2,[3]]]")) = 3 /\ parse_depth (lit "1+2*3") = 3 /\ parse_depth (lit "!-!-x") = 5 /\
  parse_depth (lit "let a = let b = 1") = 3 /\ parse_depth (lit "[[[") = 4 /\ lets (segment (lit "let a = let b = 1")) = 2 /\ runs (segment (lit "1 + !-!-x")) = 4 /\
  exists src, parse (lit "[[1],[2,[3]]]") = Ok src.
Proof. vm_compute. repeat split. eexists. reflexivity. Qed.
Lemma online_answers : answers online 7.
Proof.
  intros tr m rq rs t er. unfold client_send. destruct (request_from _ _) as [q c]. change (e_net online tr m) with up.
  assert (X : response_from (x_reply up) = inl (Response (lit "HTTP/1.1") 200 (lit "OK") [(lit "Server", lit "x")] (lit "{""n"":7}"))) by (vm_compute; reflexivity).
  rewrite X. cbn [x_connect up x_connected x_start x_write x_wall0]. intros E. vm_compute in E. injection E as _ <- _ _. vm_compute. repeat constructor.
Qed.
Definition deep_script (w : env) (text : str) : option nat :=
  match parse text with Ok src => Some (snd (deep_eval_block w (s_exprs src) (St (ctx_extend ctx_new (s_requests src)) []))) | _ => None end.
Lemma eval_depths : deep_script online (lit "1+2*(3+x)") = Some 5 /\ deep_script online (lit "request r`GET http://h/`[json[""n""] == 7] r()") = Some 3 /\
  deep_script online (lit "true || (1 + (2 + 3))") = Some 2 /\ everywhere eager1 (sum_expr 3) /\ fst (eval_block online [sum_expr 3] (St ctx_new [])) = Ok (VInt 4).
Proof. vm_compute. repeat split; discriminate. Qed.
