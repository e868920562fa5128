(** Runs that repeat one round *)
From Coq Require Export Permutation.
From Verif Require Export SpecLive SpecProcess.
Open Scope N_scope.

(** a list several times in a row *)
Definition times {A} (k : nat) (l : list A) : list A := List.concat (repeat l k).
(** the first round of a test: what its body does from the start, and the reports or
    the error message after it *)
Definition first_round (w : env) (body : list expr) (c : ctx) (o : out everr value) (s0 : st) (round : list event) : Prop :=
  eval_block w body (St (Ctx (c_vars c) (c_reqs c) []) []) = (o, s0) /\ round = s_trace s0 ++ afterwards w o s0.
(** whole rounds and a beginning of one more, at most [m] in all; only one unless it succeeds *)
Definition repeating (round : list event) (again : Prop) (m : N) (own : list event) : Prop :=
  exists k part, own = times k round ++ part /\ starts_with part round /\ N.of_nat k <= m /\ (N.of_nat k = m -> part = []) /\ (k <> 0%nat -> again).
