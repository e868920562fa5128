(** C90 *)
From Verif Require Import SpecRace RaceProofs RaceExamples.
From Coq Require Import Permutation.
Open Scope N_scope.

(** C90.  When attempts start, which connection is returned when, and failures *)

Theorem C90_pace : forall timeout net addrs r, racing timeout net addrs r ->
  (exists rest, map fst (attempts r) ++ rest = attempt_order addrs) /\ paced timeout net (attempts r).
Proof. exact race_pace. Qed.
Print Assumptions C90_pace.
Theorem C90_start : forall timeout net tr k a s, paced timeout net tr -> nth_error tr k = Some (a, s) -> s <= N.of_nat k * delay.
Proof. exact paced_by. Qed.
Print Assumptions C90_start.
Theorem C90_connected : forall timeout net addrs t a tr, racing timeout net addrs (Over t (inl a) tr) ->
  (exists s, In (a, s) tr /\ accepted timeout net (a, s) t) /\ (forall y u, In y tr -> accepted timeout net y u -> t <= u) /\ (forall y, In y tr -> snd y <= t).
Proof. exact race_connected. Qed.
Print Assumptions C90_connected.
Theorem C90_failed : forall timeout net addrs t e tr, racing timeout net addrs (Over t (inr e) tr) ->
  map fst tr = attempt_order addrs /\ (forall y, In y tr -> exists u, u <= t /\ refused timeout net y u) /\
  (addrs = [] -> e = NoConnectionAvailable /\ t = 0) /\ (addrs <> [] -> e = TcpConnectFailed /\ exists y, In y tr /\ refused timeout net y t).
Proof. exact race_failed. Qed.
Print Assumptions C90_failed.
Theorem C90_deadline : forall timeout net addrs t r tr k a d, racing timeout net addrs (Over t r tr) -> nth_error (attempt_order addrs) k = Some a ->
  (forall s, exists u, accepted timeout net (a, s) u /\ u <= s + d) -> (exists b, r = inl b) /\ t <= N.of_nat k * delay + d.
Proof. exact race_deadline. Qed.
Print Assumptions C90_deadline.
Theorem C90_first : forall timeout net addrs r a rest d, racing timeout net addrs r -> attempt_order addrs = a :: rest -> accepted timeout net (a, 0) d -> d < delay ->
  (attempts r = [] \/ attempts r = [(a, 0)]) /\ (forall t x tr, r = Over t x tr -> x = inl a /\ t = d).
Proof. exact race_first. Qed.
Print Assumptions C90_first.
Theorem C90_timeout : forall l net addrs t r tr, racing (Some l) net addrs (Over t r tr) -> t <= N.of_nat (length addrs - 1) * delay + l.
Proof. exact race_timeout. Qed.
Print Assumptions C90_timeout.
Theorem C90_onward : forall timeout net addrs r, racing timeout net addrs r -> (exists r', race_step timeout net r r') \/ (exists t x tr, r = Over t x tr) \/
  map fst (attempts r) = attempt_order addrs /\ (forall x, In x (attempts r) -> silent timeout net x \/ exists t, refused timeout net x t) /\ exists x, In x (attempts r) /\ silent timeout net x.
Proof. exact race_onward. Qed.
Print Assumptions C90_onward.
Theorem C90_finite : forall timeout net r, Acc (fun r' r => race_step timeout net r r') r.
Proof. exact race_finite. Qed.
Print Assumptions C90_finite.
Theorem C90_untimed : forall net addrs ok r, (forall a s d b, net a s = Some (d, b) -> b = ok a) -> racing None net addrs r -> SpecHttp.steps ok (conn_start ok addrs) (untimed ok r).
Proof. exact race_untimed. Qed.
Print Assumptions C90_untimed.
Example C90_silent_example : racing None (broken None) [four; six] (Over (230 * ms) (inl four) [(six, 0); (four, 200 * ms)]).
Proof. exact silent_example. Qed.

Example C90_refused_example : racing None (broken (Some (ms, false))) [four; six] (Over (31 * ms) (inl four) [(six, 0); (four, ms)]).
Proof. exact refused_example. Qed.

Example C90_deadline_example : forall b, forall s, exists u, accepted None (broken b) (four, s) u /\ u <= s + 30 * ms.
Proof. exact four_accepts. Qed.

Example C90_stuck_example : exists r, racing None (fun _ _ => None) [four; six] r /\ map fst (attempts r) = [six; four] /\ forall r', ~ race_step None (fun _ _ => None) r r'.
Proof. exact stuck_example. Qed.

