(** Servers that all threads share *)
From Verif Require Export SpecCausal.
Open Scope N_scope.

(** how a server deals with a request of a thread, given all that was done before, by whichever thread *)
Definition server := list (who * event) -> N -> str -> exchange.
(** every request that was made was answered by this server *)
Definition answered_by (v : server) (g : setting) (l : list (who * event)) : Prop :=
  forall l1 id msg l2, tests_part l = l1 ++ (Tester id, Sent msg) :: l2 -> e_net (g_world g id) (events_of (Tester id) l1) msg = v l1 id msg.
(** the same setting but for the networks *)
Definition other_networks (g g' : setting) : Prop :=
  g_stat g' = g_stat g /\ g_dir g' = g_dir g /\ g_creates g' = g_creates g /\ g_accepts g' = g_accepts g /\ g_order g' = g_order g /\ g_heeds g' = g_heeds g /\ forall id, same_machine (g_world g id) (g_world g' id).
