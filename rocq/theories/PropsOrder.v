(** C103, C104 *)
From Verif Require Import SpecOrder SpecShow AgreeProofs EvalExamples OrderExamples.
Open Scope Z_scope.

(** C103.  The order of map entries matters only where a map with several of them is made into text *)

Theorem C103_possible : forall w es s, orders (e_host w) -> exists log, may_run w es s log (fst (eval_block w es s)) (snd (eval_block w es s)).
Proof. exact order_possible. Qed.
Print Assumptions C103_possible.
Theorem C103_possible_text : forall w text s, orders (e_host w) -> exists log, may_command w text s log (fst (command_eval w text s)) (snd (command_eval w text s)).
Proof. exact order_possible_text. Qed.
Print Assumptions C103_possible_text.
Theorem C103_only : forall w es s log o s1, may_run w es s log o s1 -> settled log -> forall log' o' s1', may_run w es s log' o' s1' -> o' = o /\ s1' = s1.
Proof. exact order_only. Qed.
Print Assumptions C103_only.
Theorem C103_same : forall w order es s log o s1, orders (e_host (reseeded w order)) -> may_run w es s log o s1 -> settled log -> eval_block (reseeded w order) es s = (o, s1).
Proof. exact order_same. Qed.
Print Assumptions C103_same.
Example C103_example : exists log s1, may_run online (exprs_of key_text) empty_state log (Ok (VInt 2)) s1 /\ settled log /\ In (ToKeep (VMap [(lit "a", VInt 1)])) log.
Proof. exact key_run. Qed.

Example C103_orders_example : orders (e_host (reseeded online (@rev str))).
Proof. exact online_orders. Qed.

Theorem C103_only_text : forall w text s log o s1, may_command w text s log o s1 -> settled log -> forall log' o' s1', may_command w text s log' o' s1' -> o' = o /\ s1' = s1.
Proof. exact order_only_text. Qed.
Print Assumptions C103_only_text.
Theorem C103_same_text : forall w order text s log o s1, orders (e_host (reseeded w order)) -> may_command w text s log o s1 -> settled log -> command_eval (reseeded w order) text s = (o, s1).
Proof. exact order_same_text. Qed.
Print Assumptions C103_same_text.
Example C103_text_example : exists log s1, may_command online key_text empty_state log (Ok tt) s1 /\ settled log /\ s_trace s1 = [Printed (lit "2" ++ [10%N])].
Proof. exact key_printed. Qed.

(** C103 without the condition: a map may not be found under itself *)

Theorem C103_order_refuted : exists log o s1 log' o' s1', may_run online (exprs_of twin_text) empty_state log o s1 /\ may_run online (exprs_of twin_text) empty_state log' o' s1' /\ o <> o'.
Proof. exact order_matters. Qed.
Print Assumptions C103_order_refuted.
(** C104.  It never changes a verdict where such a map is only written for reading *)

Theorem C104_verdict : forall w es s log o s1, unaware w -> may_run w es s log o s1 -> kept_settled log ->
  forall t log' o' t1, same_state s t -> may_run w es t log' o' t1 -> o' = o /\ same_state s1 t1.
Proof. exact order_verdict. Qed.
Print Assumptions C104_verdict.
Theorem C104_seed : forall w order es s log o s1, unaware w -> orders (e_host (reseeded w order)) -> may_run w es s log o s1 -> kept_settled log ->
  forall t, same_state s t -> fst (eval_block (reseeded w order) es t) = o /\ same_state s1 (snd (eval_block (reseeded w order) es t)).
Proof. exact order_verdict_seed. Qed.
Print Assumptions C104_seed.
Example C104_unaware_example : unaware online.
Proof. exact online_unaware. Qed.

Example C104_example : exists log v s1, may_run online (exprs_of maps_text) maps_state log (Ok v) s1 /\ kept_settled log /\ ~ settled log /\
  map (fun r => map a_result (r_asserts r)) (c_recs (s_ctx s1)) = [[true; true]].
Proof. exact maps_run. Qed.

(** C104 without the condition *)

Theorem C104_verdict_refuted : exists log v s1 log' v' s1', may_run online (exprs_of find_text) find_state log (Ok v) s1 /\ may_run online (exprs_of find_text) find_state log' (Ok v') s1' /\
  verdicts s1 = [[true]] /\ verdicts s1' = [[false]].
Proof. exact verdict_matters. Qed.
Print Assumptions C104_verdict_refuted.
