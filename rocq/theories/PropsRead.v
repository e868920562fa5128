(** C78-C79 *)
From Verif Require Import SpecRead ReadProofs.
Open Scope N_scope.

(** C78.  [cap] is the size of the buffer, [sz] how much each later read asks for. *)

Theorem C78_received : forall t bye cap sz w r, (0 < cap)%nat -> undisturbed w -> ended t bye (w_ending w) None ->
  response_read t bye cap sz w = Some (inl r) <-> response_of (arrived (w_arrivals w)) r.
Proof. exact read_received. Qed.
Print Assumptions C78_received.
Theorem C78_alike : forall t bye cap sz w t' bye' cap' sz' w' e, (0 < cap)%nat -> (0 < cap')%nat -> undisturbed w -> undisturbed w' ->
  ended t bye (w_ending w) e -> ended t' bye' (w_ending w') e -> arrived (w_arrivals w) = arrived (w_arrivals w') ->
  response_read t bye cap sz w = response_read t' bye' cap' sz' w'.
Proof. exact read_alike. Qed.
Print Assumptions C78_alike.
Theorem C78_at_once : forall t bye cap sz w e, (0 < cap)%nat -> undisturbed w -> ended t bye (w_ending w) e ->
  response_read t bye cap sz w = Some (response_from (Reader (arrived (w_arrivals w)) e)).
Proof. exact read_pieces. Qed.
Print Assumptions C78_at_once.
(** C78 for an interrupted first read *)

Theorem C78_interrupted : forall t bye cap sz x l en, response_read t bye cap sz (Incoming (Interrupt x :: l) en) = Some (inr (ReadFailed x)).
Proof. exact read_interrupted. Qed.
Print Assumptions C78_interrupted.
Example C78_example : undisturbed (Incoming cut (Broke UnexpectedEof (lit "eof"))) /\
  ended (Cipher (lit "a.com")) None (Broke UnexpectedEof (lit "eof")) None /\
  response_of (arrived cut) (Response (lit "HTTP/1.1") 200 (lit "OK") [(lit "A", lit "b")] (lit "hi")) /\
  response_read (Cipher (lit "a.com")) None 3 (fun n => n) (Incoming cut (Broke UnexpectedEof (lit "eof"))) =
    Some (inl (Response (lit "HTTP/1.1") 200 (lit "OK") [(lit "A", lit "b")] (lit "hi"))) /\
  response_read Plain None 3 (fun n => n) (Incoming cut (Broke UnexpectedEof (lit "eof"))) = Some (inr (ReadFailed (lit "eof"))).
Proof. exact cut_example. Qed.

(** C79 *)

Theorem C79_ended : forall t bye cap sz w r, (0 < cap)%nat -> response_read t bye cap sz w = Some (inl r) -> ended t bye (w_ending w) None.
Proof. exact read_ends. Qed.
Print Assumptions C79_ended.
Theorem C79_returns : forall t bye cap sz w, (0 < cap)%nat -> w_ending w <> Silent -> response_read t bye cap sz w <> None.
Proof. exact read_returns. Qed.
Print Assumptions C79_returns.
Theorem C79_failed : forall t bye cap sz w x, (0 < cap)%nat -> undisturbed w -> ended t bye (w_ending w) (Some x) ->
  exists u, response_read t bye cap sz w = Some (inr (ReadFailed u)) /\
    (u = x \/ (u = lit "stream did not contain valid UTF-8" /\ forall s, scalars s -> utf8 s <> arrived (w_arrivals w))).
Proof. exact read_broken. Qed.
Print Assumptions C79_failed.
(** C79, a connection kept open: no answer, however complete what has arrived *)

Theorem C79_waits : forall t bye cap sz w s, (0 < cap)%nat -> undisturbed w -> w_ending w = Silent -> scalars s -> utf8 s = arrived (w_arrivals w) ->
  response_read t bye cap sz w = None.
Proof. exact read_waits. Qed.
Print Assumptions C79_waits.
Example C79_example : undisturbed (Incoming cut Silent) /\ scalars (arrived cut) /\ utf8 (arrived cut) = arrived cut /\
  response_read Plain None 3 (fun n => n) (Incoming cut Silent) = None.
Proof. exact kept_open_example. Qed.

