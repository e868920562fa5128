(** lib/src/http/stream.rs:14, 61-125 with a clock: when connection attempts start and
    when a connection is returned.  Times are nanoseconds since the addresses are
    known.  Starting a thread, sending a message and the code between take no time;
    a message sent at the very end of a wait may or may not be received in it. *)
From Verif Require Export HttpStream.
Open Scope N_scope.

(** stream.rs:14 *)
Definition race_delay : N := 200 * 1000000.

(** what the network makes of a connection attempt: after how long it answers and
    whether it accepts; [None]: it never does; stream.rs:119-123 *)
Definition reply := option (N * bool).
(** stream.rs:119-125; a timeout of zero is an error at once *)
Definition attempt (timeout : option N) (net : reply) : reply :=
  match timeout with
  | None => net
  | Some t =>
      match net with
      | Some (d, r) => if d <? t then Some (d, r) else Some (t, false)
      | None => Some (t, false)
      end
  end.

(** an attempt: the address and when it started; stream.rs:90-94 *)
Notation try := (addr * N)%type.
(** when it answers and what, [net] telling what happens to an attempt at an address
    that starts at a time; stream.rs:92 *)
Definition answer (timeout : option N) (net : addr -> N -> reply) (x : try) : option (N * bool) :=
  match attempt timeout (net (fst x) (snd x)) with Some (d, r) => Some (snd x + d, r) | None => None end.

(** stream.rs:61-117; [tried] are all attempts so far, [flying] those without an
    answer received *)
Inductive contest :=
| Alone (a : addr)                                                                        (* 62-65 *)
| Races (now : N) (todo : list addr) (flying : list try) (error : option http_err) (tried : list try)   (* 89-100 *)
| Drains (now : N) (flying : list try) (error : option http_err) (tried : list try)          (* 109-113 *)
| Over (now : N) (r : addr + http_err) (tried : list try).

(** the queue delivers messages in the order in which they were sent; stream.rs:69 *)
Definition next_answer (timeout : option N) (net : addr -> N -> reply) (fl : list try) (x : try) (t : N) (r : bool) : Prop :=
  answer timeout net x = Some (t, r) /\ forall y t' r', In y fl -> answer timeout net y = Some (t', r') -> t <= t'.

(** stream.rs:61-117 *)
Inductive race_step (timeout : option N) (net : addr -> N -> reply) : contest -> contest -> Prop :=
| rs_alone a t r : answer timeout net (a, 0) = Some (t, r) ->  (* 62-65 *)
    race_step timeout net (Alone a) (Over t (if r then inl a else inr TcpConnectFailed) [(a, 0)])
| rs_timeout now a todo fl e tr : (forall y t r, In y (fl ++ [(a, now)]) -> answer timeout net y = Some (t, r) -> now + race_delay <= t) ->  (* 89-95 *)
    race_step timeout net (Races now (a :: todo) fl e tr) (Races (now + race_delay) todo (fl ++ [(a, now)]) e (tr ++ [(a, now)]))
| rs_ok now a todo fl e tr l1 x l2 t : fl ++ [(a, now)] = l1 ++ x :: l2 -> next_answer timeout net (fl ++ [(a, now)]) x t true -> t <= now + race_delay ->  (* 95-98 *)
    race_step timeout net (Races now (a :: todo) fl e tr) (Over (N.max now t) (inl (fst x)) (tr ++ [(a, now)]))
| rs_err now a todo fl e tr l1 x l2 t : fl ++ [(a, now)] = l1 ++ x :: l2 -> next_answer timeout net (fl ++ [(a, now)]) x t false -> t <= now + race_delay ->  (* 95-99 *)
    race_step timeout net (Races now (a :: todo) fl e tr) (Races (N.max now t) todo (l1 ++ l2) (keep e TcpConnectFailed) (tr ++ [(a, now)]))
| rs_drain now fl e tr :  (* 104 *)
    race_step timeout net (Races now [] fl e tr) (Drains now fl e tr)
| rs_drain_ok now e tr l1 x l2 t : next_answer timeout net (l1 ++ x :: l2) x t true ->  (* 109-112 *)
    race_step timeout net (Drains now (l1 ++ x :: l2) e tr) (Over (N.max now t) (inl (fst x)) tr)
| rs_drain_err now e tr l1 x l2 t : next_answer timeout net (l1 ++ x :: l2) x t false ->
    race_step timeout net (Drains now (l1 ++ x :: l2) e tr) (Drains (N.max now t) (l1 ++ l2) (keep e TcpConnectFailed) tr)
| rs_give_up now e tr :  (* 116 *)
    race_step timeout net (Drains now [] e tr) (Over now (inr (match e with Some e => e | None => NoConnectionAvailable end)) tr).

(** stream.rs:61-72 *)
Definition race_start (addrs : list addr) : contest :=
  match addrs with
  | [a] => Alone a
  | _ => Races 0 (attempt_order addrs) [] None []
  end.
