(** Connection attempts and time, as users see them *)
From Verif Require Export HttpRace.
Open Scope N_scope.

(** executions *)
Inductive racing (timeout : option N) (net : addr -> N -> reply) (addrs : list addr) : contest -> Prop :=
| racing_start : racing timeout net addrs (race_start addrs)
| racing_step r r' : racing timeout net addrs r -> race_step timeout net r r' -> racing timeout net addrs r'.
(** the attempts made *)
Definition attempts (r : contest) : list try :=
  match r with Alone a => [(a, 0)] | Races _ _ _ _ tr => tr | Drains _ _ _ tr => tr | Over _ _ tr => tr end.
(** 200 ms *)
Definition delay : N := 200000000.
(** an attempt at [a] started at [s] is accepted, refused, or neither, by the time [t] *)
Definition accepted (timeout : option N) (net : addr -> N -> reply) (x : try) (t : N) : Prop :=
  exists d, net (fst x) (snd x) = Some (d, true) /\ t = snd x + d /\ match timeout with Some l => d < l | None => True end.
Definition refused (timeout : option N) (net : addr -> N -> reply) (x : try) (t : N) : Prop :=
  (exists d, net (fst x) (snd x) = Some (d, false) /\ t = snd x + d /\ match timeout with Some l => d < l | None => True end) \/
  (exists l, timeout = Some l /\ t = snd x + l /\ match net (fst x) (snd x) with Some (d, _) => l <= d | None => True end).
(** it never answers *)
Definition silent (timeout : option N) (net : addr -> N -> reply) (x : try) : Prop := timeout = None /\ net (fst x) (snd x) = None.
(** the first attempt starts at once, the others 200 ms after the one before or, earlier,
    when one of those before is refused *)
Definition paced (timeout : option N) (net : addr -> N -> reply) (tr : list try) : Prop :=
  (forall a s, nth_error tr 0 = Some (a, s) -> s = 0) /\
  (forall k a s b s', nth_error tr k = Some (a, s) -> nth_error tr (S k) = Some (b, s') ->
    s <= s' <= s + delay /\ (s' = s + delay \/ exists x, In x (firstn (S k) tr) /\ refused timeout net x s')).
