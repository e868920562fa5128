(** C107 *)
From Verif Require Import SpecFraming FramingProofs FramingExamples.
Open Scope N_scope.

(** C107.  How the server marks the end of a response is ignored *)

Theorem C107_body : forall line version status reason hs body, status_line line version status reason -> Forall field hs -> scalars body ->
  response_from (Reader (opening line hs ++ utf8 body) None) = inl (Response version status reason hs body).
Proof. exact framed. Qed.
Print Assumptions C107_body.
Theorem C107_chunked : forall line version status reason hs cs bs, status_line line version status reason -> Forall field hs -> chunked cs bs ->
  (Forall readable cs -> exists body, utf8 body = bs /\
     response_from (Reader (opening line hs ++ bs) None) = inl (Response version status reason hs body) /\
     forall document, utf8 document = concat cs -> body <> document) /\
  (~ Forall readable cs -> exists e, response_from (Reader (opening line hs ++ bs) None) = inr e).
Proof. exact chunked_body. Qed.
Print Assumptions C107_chunked.
Theorem C107_json : forall h r m cs, to_map h r = Ok m -> chunked cs (utf8 (rs_body r)) ->
  mget (lit "json") m = None \/ mget (lit "json") m = Some VNull \/ exists z, mget (lit "json") m = Some (VInt z).
Proof. exact chunked_json. Qed.
Print Assumptions C107_json.
Example C107_example : forall h,
  chunked [lit "{""n"":4}"] one_piece /\ json_of h (opening ok_line [chunk_header] ++ one_piece) = Some (VInt 7) /\
  chunked [lit "{""n"":"; lit "4}"] two_pieces /\ json_of h (opening ok_line [chunk_header] ++ two_pieces) = None /\
  chunked [[195]; [169]] torn /\ response_from (Reader (opening ok_line [chunk_header] ++ torn) None) = inr (ReadFailed (lit "stream did not contain valid UTF-8")) /\
  status_line ok_line (lit "HTTP/1.1") 200 (lit "OK") /\ Forall field [chunk_header].
Proof. exact chunked_cases. Qed.

Theorem C107_document_refuted : exists h document bs r m v, chunked [utf8 document] bs /\ json document (JObj [(lit "n", JInt 4)]) /\
  response_from (Reader (opening ok_line [chunk_header] ++ bs) None) = inl r /\ to_map h r = Ok m /\ mget (lit "json") m = Some v /\ ~ denotes (JObj [(lit "n", JInt 4)]) v.
Proof. exact chunked_document_refuted. Qed.
Print Assumptions C107_document_refuted.
Theorem C107_interim : forall line version status reason hs rest, status_line line version status reason -> Forall field hs -> readable rest ->
  exists body, utf8 body = rest /\ response_from (Reader (opening line hs ++ rest) None) = inl (Response version status reason hs body).
Proof. exact interim. Qed.
Print Assumptions C107_interim.
Example C107_interim_example : exists r, response_from (Reader (opening (lit "HTTP/1.1 100 Continue") [] ++ opening ok_line [length_header "1"] ++ lit "7") None) = inl r /\
  rs_status r = 100 /\ rs_headers r = [] /\ utf8 (rs_body r) = opening ok_line [length_header "1"] ++ lit "7".
Proof. exact interim_case. Qed.

Theorem C107_cut : forall s p q, scalars s -> s = p ++ q -> exists r, response_from (Reader (utf8 p) None) = inl r.
Proof. exact broken_off. Qed.
Print Assumptions C107_cut.
Theorem C107_cut_body : forall line version status reason hs b b', status_line line version status reason -> Forall field hs -> scalars (b ++ b') ->
  exists r r', response_from (Reader (opening line hs ++ utf8 (b ++ b')) None) = inl r /\ response_from (Reader (opening line hs ++ utf8 b) None) = inl r' /\
    rs_status r' = rs_status r /\ rs_headers r' = rs_headers r /\ rs_body r = b ++ b' /\ rs_body r' = b.
Proof. exact broken_body. Qed.
Print Assumptions C107_cut_body.
Example C107_cut_example : exists r, response_from (Reader (opening ok_line [length_header "40"] ++ lit "[1, ") None) = inl r /\ rs_status r = 200 /\ rs_body r = lit "[1, ".
Proof. exact broken_case. Qed.

Theorem C107_closed : response_from (Reader [] None) = inl (Response [] 0 [] [] []).
Proof. exact closed_at_once. Qed.
Print Assumptions C107_closed.
