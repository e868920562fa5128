(** Concrete sessions, as bytes arriving in pieces *)
From Verif Require Import SpecSession EvalExamples Utf8Proofs.
Open Scope N_scope.

Definition piece (s : str) : arrival := match s with c :: cs => Piece c cs | [] => Interrupt [] end.
Definition shows (r : session_end * st) : session_end * list event := (fst r, s_trace (snd r)).
(** a line that ends with a carriage return and arrives in two pieces, one that is not
    UTF-8, a blank one, one that uses the variable of the first, and exit *)
Definition typed (e : ending) : incoming :=
  Incoming [piece (lit "let x ="); piece (lit " 1"); Piece 13 [10]; Piece 255 [10; 32; 10]; piece (lit "x + 1"); Piece 10 (lit "exit")] e.
Lemma typed_inputs : inputs (arrived (w_arrivals (typed Closed))) Closed [Some (lit "let x = 1"); None; Some (lit " "); Some (lit "x + 1"); Some (lit "exit")].
Proof.
  assert (S : forall t, utf8_decode (utf8 t) = Some t -> scalars t) by (intros t H; now apply decode_iff in H).
  eapply (in_closed _ _ [utf8 (lit "let x = 1") ++ [13]; [255]; utf8 (lit " "); utf8 (lit "x + 1")] (utf8 (lit "exit")) [Some (lit "let x = 1"); None; Some (lit " "); Some (lit "x + 1")] (Some (lit "exit"))).
  - change (arrived (w_arrivals (typed Closed))) with ((utf8 (lit "let x = 1") ++ [13]) ++ 10 :: [255] ++ 10 :: utf8 (lit " ") ++ 10 :: utf8 (lit "x + 1") ++ 10 :: utf8 (lit "exit")).
    repeat (apply cl_line; [cbn; intuition discriminate|]). apply cl_rest. cbn. intuition discriminate.
  - repeat constructor.
    + intros t St E. assert (D : utf8_decode [255] = Some t) by (apply decode_iff; auto). vm_compute in D. discriminate.
    + intros t'. destruct t' as [|a [|b t']]; discriminate.
    + intros t' E. apply (f_equal (@rev _)) in E. rewrite rev_app_distr in E. discriminate.
  - reflexivity.
  - discriminate.
  - constructor. now apply S.
Qed.
Lemma typed_session : shows (repl_main online (typed Closed)) = (Exited, [Printed (lit "1" ++ [10]); Printed (lit "2" ++ [10])]).
Proof. vm_compute. reflexivity. Qed.
(** the same, but the user has not completed the last line, or the terminal fails *)
Lemma typed_waits : shows (repl_main online (typed Silent)) = (Waiting, [Printed (lit "1" ++ [10]); Printed (lit "2" ++ [10])]).
Proof. vm_compute. reflexivity. Qed.
Lemma typed_fails : shows (repl_main online (typed (Broke OtherKind (lit "Input/output error")))) = (Spins, [Printed (lit "1" ++ [10]); Printed (lit "2" ++ [10])]).
Proof. vm_compute. reflexivity. Qed.
(** exit with a space does not exit *)
Lemma exit_space : shows (repl_main online (Incoming [Piece 101 (tl (lit "exit "))] Closed)) = (Spins, [Printed (lit "ident:exit not found" ++ [10])]).
Proof. vm_compute. reflexivity. Qed.
Lemma eval_example : eval_main online (lit "1 + 2 * 3") = (Some true, [Printed (lit "7" ++ [10])]) /\ eval_main online (lit "let") = (Some true, [Printed (lit "token expect Ident but found Eof" ++ [10])]) /\
  fst (eval_main online (lit "1 / 0")) = Some false.
Proof. vm_compute. auto. Qed.
(** later input comes after a wait *)
Definition typed_on : incoming := Incoming (w_arrivals (typed Silent) ++ [Piece 10 (lit "3")]) Closed.
Lemma typed_on_early : fst (repl_main online (typed Silent)) = Waiting /\ arrived (w_arrivals typed_on) = arrived (w_arrivals (typed Silent)) ++ 10 :: lit "3" /\
  fst (repl_main online typed_on) = Exited.
Proof. vm_compute. auto. Qed.
Lemma typed_waiting : exists ts, inputs (arrived (w_arrivals (typed Silent))) Silent ts /\ length ts = 4%nat.
Proof.
  exists [Some (lit "let x = 1"); None; Some (lit " "); Some (lit "x + 1")]. split; [|reflexivity].
  assert (S : forall t, utf8_decode (utf8 t) = Some t -> scalars t) by (intros t H; now apply decode_iff in H).
  eapply (in_open _ _ [utf8 (lit "let x = 1") ++ [13]; [255]; utf8 (lit " "); utf8 (lit "x + 1")] (utf8 (lit "exit"))).
  - change (arrived (w_arrivals (typed Silent))) with ((utf8 (lit "let x = 1") ++ [13]) ++ 10 :: [255] ++ 10 :: utf8 (lit " ") ++ 10 :: utf8 (lit "x + 1") ++ 10 :: utf8 (lit "exit")).
    repeat (apply cl_line; [cbn; intuition discriminate|]). apply cl_rest. cbn. intuition discriminate.
  - repeat constructor.
    + intros t St E. assert (D : utf8_decode [255] = Some t) by (apply decode_iff; auto). vm_compute in D. discriminate.
    + intros t'. destruct t' as [|a [|b t']]; discriminate.
    + intros t' E. apply (f_equal (@rev _)) in E. rewrite rev_app_distr in E. discriminate.
  - left. discriminate.
Qed.
