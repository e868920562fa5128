(** What the order of map entries may not change *)
From Verif Require Export AnyOrder.

(** Values whose text cannot depend on it: no map with more than one entry inside *)
Inductive orderless : value -> Prop :=
| ol_null : orderless VNull
| ol_int z : orderless (VInt z)
| ol_float f : orderless (VFloat f)
| ol_bool b : orderless (VBool b)
| ol_str s : orderless (VStr s)
| ol_arr l : Forall orderless l -> orderless (VArr l)
| ol_empty : orderless (VMap [])
| ol_one k v : orderless v -> orderless (VMap [(k, v)]).

(** no shown value has a text that depends on it *)
Definition settled (log : list shown) : Prop := forall v, In (ToKeep v) log \/ In (ToRead v) log -> orderless v.
(** none that is kept in a value or sent *)
Definition kept_settled (log : list shown) : Prop := forall v, In (ToKeep v) log -> orderless v.

(** the same world with another order of map entries *)
Definition reseeded (w : env) (order : list str -> list str) : env :=
  Env (Host (h_plain (e_host w)) order (h_checks (e_host w))) (e_prepare w) (e_net w).

(** the messages sent, oldest first as in the trace *)
Fixpoint messages (tr : list event) : list str :=
  match tr with
  | [] => []
  | Sent m :: tr' => m :: messages tr'
  | Printed _ :: tr' => messages tr'
  end.
(** the servers cannot see what is printed *)
Definition unaware (w : env) : Prop := forall tr tr' m, messages tr = messages tr' -> e_net w tr m = e_net w tr' m.

(** Assertions and records equal in everything but how the two sides are written *)
Definition same_check (a b : assertion) : Prop := a_expr a = a_expr b /\ a_compare a = a_compare b /\ a_result a = a_result b.
Definition same_record (a b : record) : Prop :=
  r_name a = r_name b /\ r_time a = r_time b /\ r_request a = r_request b /\ r_response a = r_response b /\ r_error a = r_error b /\
  Forall2 same_check (r_asserts a) (r_asserts b).
(** the same message, or both printed *)
Definition same_event (x y : event) : Prop :=
  match x, y with Printed _, Printed _ => True | Sent m, Sent n => m = n | _, _ => False end.
(** states equal in everything but texts written for reading *)
Definition same_state (s t : st) : Prop :=
  c_vars (s_ctx s) = c_vars (s_ctx t) /\ c_reqs (s_ctx s) = c_reqs (s_ctx t) /\ Forall2 same_record (c_recs (s_ctx s)) (c_recs (s_ctx t)) /\
  Forall2 same_event (s_trace s) (s_trace t).
