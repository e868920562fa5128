(** C80-C85 *)
From Verif Require Import SpecReject SpecShow SpecBlame SpecNumber SpecDoom Parser RejectProofs ShowProofs BlameProofs NumberProofs DurationProofs DoomProofs TemplateProofs ValueExamples EvalExamples NewExamples DoomExamples.
Open Scope N_scope.

(** C80 *)

Theorem C80_reason : forall text e, parse text = Err e -> exists p t q, segment text = p ++ t :: q /\ reason (perr_text e) p t /\
  forall text' q', segment text' = p ++ t :: q' -> parse text' = Err e.
Proof. exact rejected_reason. Qed.
Print Assumptions C80_reason.
Example C80_example : (exists e, parse (lit "let 5 = 1") = Err e /\ perr_text e = lit "token expect Ident but found Integer" /\
    reason (perr_text e) [op KLet "let"] (Tok KInteger (lit "5"))) /\
  (exists e, parse (lit "f(1 2)") = Err e /\ perr_text e = lit "token expect Comma but found Integer") /\
  (exists e, parse (lit "1 + )") = Err e /\ perr_text e = lit "parse expr error: )") /\
  (exists e, parse (lit "5(1)") = Err e /\ perr_text e = lit "parse call expr error: 5") /\
  (exists e, parse (lit "9223372036854775808") = Err e /\ perr_text e = lit "parse integer error: 9223372036854775808").
Proof.
  repeat split; eexists; (split; [vm_compute; reflexivity|]); try reflexivity. split; [reflexivity|].
  apply (re_lacks KIdent [op KLet "let"] _ (lit "Ident") (lit "Integer")); [apply (lk_ident [] (op KLet "let")); [now left|discriminate]|vm_compute; auto 50..].
Qed.

(** C81 *)

Theorem C81_shown : forall h v, orders h -> valid v -> shows (h_plain h) v (show_value h v).
Proof. exact value_shown. Qed.
Print Assumptions C81_shown.
Theorem C81_debug : forall h v, orders h -> valid v -> debugs (h_plain h) v (debug_value h v).
Proof. exact debug_shown. Qed.
Print Assumptions C81_debug.
Theorem C81_debug_tells : forall h v w x y, orders h -> valid v -> valid w ->
  debug_value h v ++ x = debug_value h w ++ y -> alike v w /\ x = y.
Proof. exact debug_tells. Qed.
Print Assumptions C81_debug_tells.
Theorem C81_show_tells : forall h v w, orders h -> valid v -> valid w ->
  match v, w with VArr _, VArr _ | VMap _, VMap _ | VFloat _, VFloat _ => show_value h v = show_value h w -> alike v w | _, _ => True end.
Proof. exact show_tells. Qed.
Print Assumptions C81_show_tells.
(** C81, printed text does not tell a number from a text *)

Theorem C81_show_tells_refuted : forall h, exists v w, show_value h v = show_value h w /\ ~ alike v w.
Proof. exact show_ambiguous. Qed.
Print Assumptions C81_show_tells_refuted.
Example C81_example : orders reversing /\ match parse_f64 (lit "0.1") with
  | Some f => debug_value reversing (VArr [VMap [(lit "a""b", VInt (-5)); (lit "c", VFloat f)]; VStr [955; 10]]) =
      lit "Array([Map({""c"": Float(0.1), ""a\""b"": Integer(-5)}), String(""\u{3bb}\n"")])"
  | None => False
  end.
Proof. split; [exact reversing_orders|exact show_example]. Qed.

(** C82 *)

Theorem C82_cause : forall w e s m s', (exists er, eval_expr w e s = (Err er, s') /\ everr_text (e_host w) er = m) <->
  exists e' t, comes_to w e s e' t /\ fault w e' t m s'.
Proof. exact blame. Qed.
Print Assumptions C82_cause.
Theorem C82_first : forall w es s m s', (exists er, eval_block w es s = (Err er, s') /\ everr_text (e_host w) er = m) <->
  exists a x b vs s1 e' t, es = a ++ x :: b /\ in_order w a s vs s1 /\ comes_to w x s1 e' t /\ fault w e' t m s'.
Proof. exact blame_block. Qed.
Print Assumptions C82_first.
Example C82_example : forall w, exists src e s1 s2, parse (lit "let x = [1]; if (x) { x.y }") = Ok src /\
  in_order w [ELet (lit "x") (EArr [EInt 1])] (St ctx_new []) [VArr [VInt 1]] s1 /\
  s_exprs src = [ELet (lit "x") (EArr [EInt 1]); e] /\
  comes_to w e s1 (EField (EIdent (lit "x")) (lit "y")) s2 /\
  fault w (EField (EIdent (lit "x")) (lit "y")) s2 (lit "field operator not support: Array([Integer(1)])") s2 /\
  exists er, eval_block w (s_exprs src) (St ctx_new []) = (Err er, s2) /\ everr_text (e_host w) er = lit "field operator not support: Array([Integer(1)])".
Proof.
  intros w. eexists _, _, _, _. split; [vm_compute; reflexivity|]. split; [repeat econstructor|]. split; [reflexivity|]. split; [|split].
  - eapply (ct_then w (EIdent (lit "x")) [EField (EIdent (lit "x")) (lit "y")] [] [] _ []); [reflexivity|intros [?|?]; discriminate|reflexivity|constructor|constructor].
  - apply (fa_field w (EIdent (lit "x")) (lit "y") _ (VArr [VInt 1])); [reflexivity|discriminate].
  - eexists. split; reflexivity.
Qed.

(** C83.  Printed and inside of arrays and maps *)

Theorem C83_shown : forall f, binary64 f -> shown_float f (show_f64 f).
Proof. exact show_f64_shown. Qed.
Print Assumptions C83_shown.
Theorem C83_debug : forall f, binary64 f -> debugged_float f (debug_f64 f).
Proof. exact debug_f64_debugged. Qed.
Print Assumptions C83_debug.
Theorem C83_shown_tells : forall f g t, shown_float f t -> shown_float g t -> f = g.
Proof. exact shown_inj. Qed.
Print Assumptions C83_shown_tells.
Theorem C83_debug_tells : forall f g t, debugged_float f t -> debugged_float g t -> f = g.
Proof. exact debugged_inj. Qed.
Print Assumptions C83_debug_tells.
Example C83_example : (forall h f, show_value h (VFloat f) = show_f64 f /\ debug_value h (VFloat f) = lit "Float(" ++ debug_f64 f ++ lit ")") /\
  map (fun t => match parse_f64 t with Some f => (show_f64 f, debug_f64 f) | None => ([], []) end) [lit "0.1"; lit "100.0"; lit "0.00001"; lit "123456789012345678.0"; lit "0.30000000000000004"] =
  [(lit "0.1", lit "0.1"); (lit "100", lit "100.0"); (lit "0.00001", lit "1e-5"); (lit "123456789012345680", lit "1.2345678901234568e17"); (lit "0.30000000000000004", lit "0.30000000000000004")].
Proof. split; [intros; split; reflexivity|]. vm_compute. reflexivity. Qed.

(** C84 *)

Theorem C84_shown : forall ns, duration_text ns (show_duration ns).
Proof. exact show_duration_text. Qed.
Print Assumptions C84_shown.
Theorem C84_tells : forall a b t, duration_text a t -> duration_text b t -> a = b.
Proof. exact duration_inj. Qed.
Print Assumptions C84_tells.
Example C84_example : map show_duration [0; 999; 1500; 20000000; 61000000001] =
  [lit "0ns"; lit "999ns"; lit "1.5" ++ [181] ++ lit "s"; lit "20ms"; lit "61.000000001s"].
Proof. vm_compute. reflexivity. Qed.

(** C85 *)

Theorem C85_cause : forall w e s o s', steady w -> o = Panic \/ o = Diverge ->
  (eval_expr w e s = (o, s') <-> exists e' t, comes_to w e s e' t /\ doomed w e' t o s').
Proof. exact doom. Qed.
Print Assumptions C85_cause.
Theorem C85_first : forall w es s o s', steady w -> o = Panic \/ o = Diverge ->
  (eval_block w es s = (o, s') <->
   exists a x b vs s1 e' t, es = a ++ x :: b /\ in_order w a s vs s1 /\ comes_to w x s1 e' t /\ doomed w e' t o s').
Proof. exact doom_block. Qed.
Print Assumptions C85_first.
Example C85_example : steady online /\
  let e := EIf (EIdent (lit "a")) [EBin (op KDiv "/") (EInt 10) (EBin (op KSub "-") (EIdent (lit "a")) (EInt 1))] [] in
  let d := EBin (op KDiv "/") (EInt 10) (EBin (op KSub "-") (EIdent (lit "a")) (EInt 1)) in
  let s := St (Ctx [(lit "a", VInt 1)] [] []) [] in
  comes_to online e s d s /\ doomed online d s Panic s /\ eval_expr online e s = (Panic, s).
Proof. exact doom_division. Qed.

Example C85_body_example : steady loud /\ doomed loud (ECall (lit "get") []) (get_state []) Diverge (St (s_ctx (get_state [])) [Sent (lit "GET http://h/")]) /\
  eval_expr loud (ECall (lit "get") []) (get_state []) = (Diverge, St (s_ctx (get_state [])) [Sent (lit "GET http://h/")]).
Proof. exact doom_body. Qed.

Example C85_assert_example : let e := EBin (op KRem "%") (EIdent (lit "status")) (EInt 0) in
  let s := get_state [EBin (op KEq "==") (EIdent (lit "nope")) (EParen e)] in
  exists s', doomed online (ECall (lit "get") []) s Panic s' /\ eval_expr online (ECall (lit "get") []) s = (Panic, s').
Proof. exact doom_assert. Qed.

