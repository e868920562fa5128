(** lib/src/http/stream.rs:61-125 and 193-210: choosing a connection.  TCP, TLS
    and name resolution themselves are not modelled. *)
From Verif Require Export HttpResponse.

(** stream.rs:193-210: the state of the iterator is what is left of the two
    inputs and the element put aside; [None] ends the iteration *)
Definition rotate_next {T} (s : list T * list T * option T) : option (T * (list T * list T * option T)) :=
  match s with
  | (a, b, Some c) => Some (c, (a, b, None))
  | (x :: a, y :: b, None) => Some (x, (a, b, Some y))
  | (x :: a, [], None) => Some (x, (a, [], None))
  | ([], y :: b, None) => Some (y, ([], b, None))
  | ([], [], None) => None
  end.
(** the for loop stream.rs:89 draining it; every step removes an element *)
Fixpoint rotate_all {T} (fuel : nat) (s : list T * list T * option T) : list T :=
  match fuel with
  | O => []
  | S f => match rotate_next s with None => [] | Some (x, s') => x :: rotate_all f s' end
  end.
(** stream.rs:193-211 *)
Definition rotate {T} (a b : list T) : list T := rotate_all (S (length a + length b)) (a, b, None).

(** A socket address with the attributes the code looks at; stream.rs:51-68 *)
Record addr := Addr { a_id : N; a_v6 : bool }.

(** stream.rs:68: partition keeps the order within each half *)
Definition attempt_order (addrs : list addr) : list addr :=
  rotate (filter a_v6 addrs) (filter (fun a => negb (a_v6 a)) addrs).

(** stream.rs:61-117 *)
Inductive conn :=
| Racing (todo flying : list addr) (error : option http_err)   (* the loop 89-100 *)
| Draining (flying : list addr) (error : option http_err)      (* the loop 109-113 *)
| Returned (r : addr + http_err).

(** stream.rs:73-85: handle_result keeps the first error *)
Definition keep (error : option http_err) (e : http_err) : option http_err :=
  match error with None => Some e | _ => error end.

(** stream.rs:61-117 as a transition system over the schedules of the attempt
    threads: [ok a] tells whether connecting to [a] succeeds.  An attempt that
    never answers is one whose answer is never received. *)
Inductive conn_step (ok : addr -> bool) : conn -> conn -> Prop :=
| step_timeout a todo fl e :  (* 90-95, recv_timeout expires *)
    conn_step ok (Racing (a :: todo) fl e) (Racing todo (fl ++ [a]) e)
| step_race_ok a todo fl e l1 x l2 :  (* 95-97 *)
    fl ++ [a] = l1 ++ x :: l2 -> ok x = true ->
    conn_step ok (Racing (a :: todo) fl e) (Returned (inl x))
| step_race_err a todo fl e l1 x l2 :  (* 95-99 *)
    fl ++ [a] = l1 ++ x :: l2 -> ok x = false ->
    conn_step ok (Racing (a :: todo) fl e) (Racing todo (l1 ++ l2) (keep e TcpConnectFailed))
| step_drain fl e :  (* 104 *)
    conn_step ok (Racing [] fl e) (Draining fl e)
| step_drain_ok e l1 x l2 :  (* 109-112 *)
    ok x = true ->
    conn_step ok (Draining (l1 ++ x :: l2) e) (Returned (inl x))
| step_drain_err e l1 x l2 :
    ok x = false ->
    conn_step ok (Draining (l1 ++ x :: l2) e) (Draining (l1 ++ l2) (keep e TcpConnectFailed))
| step_give_up e :  (* 116 *)
    conn_step ok (Draining [] e)
              (Returned (inr (match e with Some e => e | None => NoConnectionAvailable end))).

(** stream.rs:62-65: a single address is tried directly *)
Definition conn_start (ok : addr -> bool) (addrs : list addr) : conn :=
  match addrs with
  | [a] => Returned (if ok a then inl a else inr TcpConnectFailed)
  | _ => Racing (attempt_order addrs) [] None
  end.
