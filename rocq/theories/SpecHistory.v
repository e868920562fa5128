(** The records of an evaluation as the history of its exchanges *)
From Verif Require Export SpecEval SpecSyntax.

(** [exchange w reqs tr r pr]: after the events [tr], a request of [reqs] was sent,
    the answer was judged by its assertions, which printed [pr], and [r] says so:
    the name, what was sent, what came back, and the result of each assertion *)
Definition exchange (w : env) (reqs : amap (str * list expr)) (tr : list event) (r : record) (msg : str) (pr : list event) : Prop :=
  exists template asserts vars m s,
    mget (r_name r) reqs = Some (template, asserts) /\
    message_of w (Ctx vars reqs []) template msg /\
    client_send (e_prepare w) (e_net w tr msg) msg = Ok (r_request r, r_response r, r_time r, r_error r) /\
    to_map (e_host w) (r_response r) = Ok m /\
    asserted w asserts (St (Ctx m [] []) (tr ++ [Sent msg])) (r_asserts r) s /\
    s_trace s = tr ++ Sent msg :: pr /\ sent pr = 0%nat.

(** [chronicle w reqs tr rs tr' rs']: the events [tr] with records [rs] grow to
    [tr'] and [rs'], each message sent giving the next record and nothing else
    giving one *)
Inductive chronicle (w : env) (reqs : amap (str * list expr)) (tr : list event) (rs : list record) : list event -> list record -> Prop :=
| ch_start : chronicle w reqs tr rs tr rs
| ch_printed t tr' rs' : chronicle w reqs tr rs tr' rs' -> chronicle w reqs tr rs (tr' ++ [Printed t]) rs'
| ch_exchange r msg pr tr' rs' : chronicle w reqs tr rs tr' rs' -> exchange w reqs tr' r msg pr ->
    chronicle w reqs tr rs (tr' ++ Sent msg :: pr) (rs' ++ [r]).
