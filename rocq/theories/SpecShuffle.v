(** In which orders the doings of the threads may come *)
From Verif Require Export SpecAside.
Open Scope N_scope.

(** first what is done before the threads are started, then the doings of the threads *)
Definition threads_after (first : list event) (l : list (who * event)) : Prop :=
  exists rest, l = map (pair Main) first ++ rest /\ Forall (fun x => exists id, fst x = Tester id) rest.
(** [l'] is [l] in another order, in which every thread does what it does in the same order *)
Definition reordered (l l' : list (who * event)) : Prop :=
  threads_after (events_of Main l) l' /\ forall id, events_of (Tester id) l' = events_of (Tester id) l.
(** when all tests are run, there are not too many to number them *)
Definition numbered_apart (iter : list (str * list expr) -> list (str * list expr)) (w : env) (root : str * node) (name : option str) : Prop :=
  name = None -> forall src s1, loads w root src s1 -> N.of_nat (length (iter (s_tests src))) <= 2 ^ 32.
