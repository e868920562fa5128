(** Concrete contests: an IPv6 address that is unreachable in some way and a working IPv4 address *)
From Verif Require Import SpecRace RaceProofs.
From Coq Require Import Lia.
Open Scope N_scope.

Definition six : addr := Addr 6 true.
Definition four : addr := Addr 4 false.
Definition ms : N := 1000000.
(** [six] does what [b] says, [four] accepts after 30 ms *)
Definition broken (b : reply) (a : addr) (s : N) : reply := if a_v6 a then b else Some (30 * ms, true).
Lemma six_first : attempt_order [four; six] = [six; four].
Proof. reflexivity. Qed.
Lemma step_to l net addrs r1 r2 r : racing l net addrs r1 -> race_step l net r1 r2 -> r2 = r -> racing l net addrs r.
Proof. intros R S <-. eapply racing_step; eauto. Qed.
Lemma start_is l net : racing l net [four; six] (Races 0 [six; four] [] None []).
Proof. apply racing_start. Qed.
(** nothing comes back: 200 ms are lost *)
Lemma silent_example : racing None (broken None) [four; six] (Over (230 * ms) (inl four) [(six, 0); (four, 200 * ms)]).
Proof.
  eapply step_to; [eapply (step_to _ _ _ _ _ (Races (200 * ms) [four] [(six, 0)] None [(six, 0)])); [apply start_is|apply rs_timeout|reflexivity]| |].
  - intros y t r [<-|[]] H. discriminate.
  - apply (rs_ok None (broken None) _ four [] [(six, 0)] None [(six, 0)] [(six, 0)] (four, 200 * ms) [] (230 * ms)); [reflexivity| |vm_compute; discriminate].
    split; [vm_compute; reflexivity|]. intros y t r [<-|[<-|[]]] H; [discriminate|]. vm_compute in H. injection H as <- _. vm_compute. discriminate.
  - reflexivity.
Qed.
(** it is refused at once: nothing is lost *)
Lemma refused_example : racing None (broken (Some (ms, false))) [four; six] (Over (31 * ms) (inl four) [(six, 0); (four, ms)]).
Proof.
  eapply step_to; [eapply (step_to _ _ _ _ _ (Races ms [four] [] (Some TcpConnectFailed) [(six, 0)])); [apply start_is| |]| |].
  - apply (rs_err None _ 0 six [four] [] None [] [] (six, 0) [] ms); [reflexivity| |vm_compute; discriminate].
    split; [vm_compute; reflexivity|]. intros y t r [<-|[]] H. vm_compute in H. injection H as <- _. vm_compute. discriminate.
  - reflexivity.
  - apply (rs_ok None _ _ four [] [] _ [(six, 0)] [] (four, ms) [] (31 * ms)); [reflexivity| |vm_compute; discriminate].
    split; [vm_compute; reflexivity|]. intros y t r [<-|[]] H. vm_compute in H. injection H as <- _. vm_compute. discriminate.
  - reflexivity.
Qed.
(** the hypothesis of the deadline *)
Lemma four_accepts b : forall s, exists u, accepted None (broken b) (four, s) u /\ u <= s + 30 * ms.
Proof. intros s. exists (s + 30 * ms). split; [exists (30 * ms); repeat split|lia]. Qed.
(** two silent addresses without a timeout: stuck *)
Lemma stuck_example : exists r, racing None (fun _ _ => None) [four; six] r /\ map fst (attempts r) = [six; four] /\ forall r', ~ race_step None (fun _ _ => None) r r'.
Proof.
  exists (Drains (400 * ms) [(six, 0); (four, 200 * ms)] None [(six, 0); (four, 200 * ms)]). split; [|split; [reflexivity|]].
  - eapply step_to; [eapply (step_to _ _ _ _ _ (Races (400 * ms) [] [(six, 0); (four, 200 * ms)] None [(six, 0); (four, 200 * ms)]));
      [eapply (step_to _ _ _ _ _ (Races (200 * ms) [four] [(six, 0)] None [(six, 0)])); [apply start_is|apply rs_timeout|]|apply rs_timeout|]|apply rs_drain|];
      try reflexivity; intros; discriminate.
  - intros r' H. inversion H as [| | | | |? ? ? l1 x l2 t [X _] E|? ? ? l1 x l2 t [X _] E|]; discriminate X.
Qed.
