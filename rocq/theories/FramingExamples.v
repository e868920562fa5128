(** Framed responses: instances *)
From Verif Require Import SpecFraming TextProofs TextMore ResponseProofs FramingProofs.
From Coq Require Import ZifyBool ZifyN ZifyNat.
Open Scope N_scope.

Definition ok_line : str := lit "HTTP/1.1 200 OK".
Definition chunk_header : header := (lit "Transfer-Encoding", lit "chunked").
Definition length_header (n : String.string) : header := (lit "Content-Length", lit n).
Arguments length_header n%string_scope.
(** {"n":4} in one piece and in two *)
Definition one_piece : bytes := lit "7" ++ crlf ++ lit "{""n"":4}" ++ crlf ++ lit "0" ++ crlf ++ crlf.
Definition two_pieces : bytes := lit "5" ++ crlf ++ lit "{""n"":" ++ crlf ++ lit "02" ++ crlf ++ lit "4}" ++ crlf ++ lit "0" ++ crlf ++ crlf.
(** the two bytes of one character in two pieces *)
Definition torn : bytes := lit "1" ++ crlf ++ [195] ++ crlf ++ lit "1" ++ crlf ++ [169] ++ crlf ++ lit "0" ++ crlf ++ crlf.

Lemma status_line_checked line version code rest : forallb (fun c => (c <? 128) && negb (c =? 10)) line = true -> split_whitespace line = version :: code :: rest ->
  forall n, parse_unsigned u16_max code = Some n -> status_line line version n (hd [] rest).
Proof.
  intros L W n P. rewrite forallb_forall in L. split; [|split].
  - intros I. apply L in I. lia.
  - apply Forall_forall. intros c C. apply L in C. unfold is_scalar. lia.
  - exists code, rest. split; [now apply words_iff|]. split; auto. now apply (parse_unsigned_iff u16_max).
Qed.
Lemma ok_status : status_line ok_line (lit "HTTP/1.1") 200 (lit "OK").
Proof. apply (status_line_checked ok_line (lit "HTTP/1.1") (lit "200") [lit "OK"]); reflexivity. Qed.
Lemma trimmed_checked s : trim s = s -> trimmed s s.
Proof. intros E. apply trim_iff. exact E. Qed.
Lemma field_checked n v : forallb (fun c => (c <? 128) && negb (c =? 10)) (n ++ v) = true -> forallb (fun c => negb (c =? 58)) n = true -> trim n = n -> trim v = v -> field (n, v).
Proof.
  intros L C T V. rewrite forallb_forall in L, C. repeat split; cbn [fst snd]; auto using trimmed_checked.
  - intros I. apply C in I. lia.
  - intros I. apply L in I. lia.
  - apply Forall_forall. intros c I. apply L in I. unfold is_scalar. lia.
Qed.
Lemma chunk_field : Forall field [chunk_header].
Proof. constructor; [|constructor]. apply field_checked; reflexivity. Qed.
Lemma hex_0 : hex (lit "0") 0.
Proof. apply hx_one. left. split; [split; vm_compute; discriminate|reflexivity]. Qed.
Lemma one_chunked : chunked [lit "{""n"":4}"] one_piece.
Proof. apply ck_piece; [discriminate| |apply ck_last, hex_0]. apply hx_one. left. split; [split; vm_compute; discriminate|reflexivity]. Qed.
Lemma two_chunked : chunked [lit "{""n"":"; lit "4}"] two_pieces.
Proof.
  apply ck_piece; [discriminate|apply hx_one; left; split; [split; vm_compute; discriminate|reflexivity]|]. apply (ck_piece (lit "02")); [discriminate| |apply ck_last, hex_0].
  apply (hx_more (lit "0") 0 50 2); [apply hex_0|]. left. split; [split; vm_compute; discriminate|reflexivity].
Qed.
Lemma torn_chunked : chunked [[195]; [169]] torn.
Proof.
  apply ck_piece; [discriminate|apply hx_one; left; split; [split; vm_compute; discriminate|reflexivity]|]. apply ck_piece; [discriminate|apply hx_one; left; split; [split; vm_compute; discriminate|reflexivity]|].
  apply ck_last, hex_0.
Qed.

Definition read (bs : bytes) : response := match response_from (Reader bs None) with inl r => r | inr _ => default_response end.
Definition json_of (h : host) (bs : bytes) : option value :=
  match to_map h (read bs) with Ok m => mget (lit "json") m | _ => None end.
(** the number given is the size of the first piece *)
Lemma chunked_cases : forall h,
  chunked [lit "{""n"":4}"] one_piece /\ json_of h (opening ok_line [chunk_header] ++ one_piece) = Some (VInt 7) /\
  chunked [lit "{""n"":"; lit "4}"] two_pieces /\ json_of h (opening ok_line [chunk_header] ++ two_pieces) = None /\
  chunked [[195]; [169]] torn /\ response_from (Reader (opening ok_line [chunk_header] ++ torn) None) = inr (ReadFailed (lit "stream did not contain valid UTF-8")) /\
  status_line ok_line (lit "HTTP/1.1") 200 (lit "OK") /\ Forall field [chunk_header].
Proof.
  intros h. split; [exact one_chunked|]. split; [vm_compute; reflexivity|]. split; [exact two_chunked|]. split; [vm_compute; reflexivity|].
  split; [exact torn_chunked|]. split; [vm_compute; reflexivity|]. split; [exact ok_status|exact chunk_field].
Qed.
(** the document that is sent is not the one that is seen *)
Lemma chunked_document_refuted : exists h document bs r m v, chunked [utf8 document] bs /\ json document (JObj [(lit "n", JInt 4)]) /\
  response_from (Reader (opening ok_line [chunk_header] ++ bs) None) = inl r /\ to_map h r = Ok m /\ mget (lit "json") m = Some v /\ ~ denotes (JObj [(lit "n", JInt 4)]) v.
Proof.
  exists (Host (fun _ => true) (fun l => l) false), (lit "{""n"":4}"), one_piece.
  do 3 eexists. split; [exact one_chunked|]. split; [|split; [vm_compute; reflexivity|split; [vm_compute; reflexivity|split; [vm_compute; reflexivity|]]]].
  - apply (js_object (lit """n"":4")). apply (jm_last [] (lit "n") [] (lit "4")); try constructor.
    + cbn. intuition discriminate.
    + cbn. intuition discriminate.
    + apply (nb_int (lit "4")); [discriminate| |reflexivity]. constructor; [split; vm_compute; discriminate|constructor].
  - intros D. inversion D.
Qed.
Lemma interim_case : exists r, response_from (Reader (opening (lit "HTTP/1.1 100 Continue") [] ++ opening ok_line [length_header "1"] ++ lit "7") None) = inl r /\
  rs_status r = 100 /\ rs_headers r = [] /\ utf8 (rs_body r) = opening ok_line [length_header "1"] ++ lit "7".
Proof. eexists. split; [vm_compute; reflexivity|]. repeat split; vm_compute; reflexivity. Qed.
(** 4 of 40 bytes *)
Lemma broken_case : exists r, response_from (Reader (opening ok_line [length_header "40"] ++ lit "[1, ") None) = inl r /\ rs_status r = 200 /\ rs_body r = lit "[1, ".
Proof. eexists. split; [vm_compute; reflexivity|]. split; reflexivity. Qed.
