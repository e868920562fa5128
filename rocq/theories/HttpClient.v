(** lib/src/http/client.rs and time.rs *)
From Verif Require Export HttpResponse.
Open Scope N_scope.

(** time.rs:4-13; durations in nanoseconds (Rust's upper bound on Duration is
    not modelled) *)
Record time := Time {
  t_start : N; t_end : N; t_total : N; t_resolve : N; t_connect : N;
  t_write : N; t_delay : N; t_read : N }.

(** time.rs:15-29, [now] being the wall clock *)
Definition time_default (now : N) : time := Time now now 0 0 0 0 0 0.

(** One execution of Client::send as seen from outside: what connecting, writing
    and reading did, and every clock reading taken.  [x_start], [x_connected],
    [x_read], [x_first], [x_read_done] and [x_done] are readings of the monotone
    clock at client.rs:21, 27, 31, 32 (callback), 36 and 37; [x_wall0] and
    [x_wall1] readings of the wall clock at 20 and 39. *)
Record exchange := Exchange {
  x_wall0 : N;
  x_start : N;
  x_connect : N + http_err;   (* name-resolution duration, or why it failed *)
  x_connected : N;
  x_write : option http_err;  (* why writing the request failed *)
  x_read : N;
  x_first : N;
  x_reply : reader;
  x_read_done : N;
  x_done : N;
  x_wall1 : N
}.

(** Duration - Duration panics on underflow; Instant - Instant and elapsed()
    saturate at zero; client.rs:27, client.rs:36-40 *)
Definition dur_sub (a b : N) : option N := if b <=? a then Some (a - b) else None.

(** client.rs:18-42.  The first [read] of Response::from runs the callback
    (client.rs:32) unless the stream failed before its first byte. *)
Definition client_send (prepare : list part -> bool) (x : exchange) (message : str)
  : out everr (request * response * time * str) :=
  let (rq, _) := request_from prepare message in
  let t0 := time_default (x_wall0 x) in
  match x_connect x with
  | inr e => Ok (rq, response_default, t0, http_err_text e)
  | inl resolve =>
      match dur_sub (x_connected x - x_start x) resolve with
      | None => Panic
      | Some connect =>
          let t1 := Time (t_start t0) (t_end t0) 0 resolve connect 0 0 0 in
          match x_write x with
          | Some e => Ok (rq, response_default, t1, http_err_text e)
          | None =>
              let delay := match rd_bytes (x_reply x), rd_end (x_reply x) with
                           | [], Some _ => 0
                           | _, _ => x_first x - x_read x
                           end in
              let t2 := Time (t_start t0) (t_end t0) 0 resolve connect 0 delay 0 in
              match response_from (x_reply x) with
              | inr e => Ok (rq, response_default, t2, http_err_text e)
              | inl rs =>
                  match dur_sub (x_read_done x - x_read x) delay with
                  | None => Panic
                  | Some read =>
                      let total := x_done x - x_start x in
                      match dur_sub total resolve with
                      | None => Panic
                      | Some a =>
                          match dur_sub a connect with
                          | None => Panic
                          | Some b =>
                              match dur_sub b read with
                              | None => Panic
                              | Some c =>
                                  match dur_sub c delay with
                                  | None => Panic
                                  | Some write =>
                                      Ok (rq, rs, Time (t_start t0) (x_wall1 x) total resolve connect write delay read, [])
                                  end
                              end
                          end
                      end
                  end
              end
          end
      end
  end.
