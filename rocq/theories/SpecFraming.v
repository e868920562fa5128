(** How servers mark the end of a response (RFC 9112, sections 2.1, 6 and 7.1;
    chunk extensions and trailers are left out) *)
From Verif Require Export SpecHttp.
Open Scope N_scope.

Definition crlf : bytes := [13; 10].
(** A status line, of which only the first word of the reason counts here *)
Definition status_line (line version : str) (status : N) (reason : str) : Prop :=
  ~ In 10 line /\ scalars line /\
  exists code rest, words line (version :: code :: rest) /\ unsigned 65535 code status /\ reason = hd [] rest.
(** A header that can be written on a line *)
Definition field (h : header) : Prop :=
  ~ In 58 (fst h) /\ ~ In 10 (fst h ++ snd h) /\ scalars (fst h ++ snd h) /\
  trimmed (fst h) (fst h) /\ trimmed (snd h) (snd h).
Definition opening (line : str) (hs : list header) : bytes :=
  utf8 line ++ crlf ++ flat_map (fun h => utf8 (fst h ++ lit ": " ++ snd h) ++ crlf) hs ++ crlf.

(** Hexadecimal numerals *)
Definition hex_digit (c : char) (d : N) : Prop :=
  (digit c /\ d = c - 48) \/ (97 <= c <= 102 /\ d = c - 87) \/ (65 <= c <= 70 /\ d = c - 55).
Inductive hex : str -> N -> Prop :=
| hx_one c d : hex_digit c d -> hex [c] d
| hx_more s n c d : hex s n -> hex_digit c d -> hex (s ++ [c]) (16 * n + d).

(** [chunked cs bs]: the bytes [bs] are the pieces [cs] of a body, each with its size
    in front, and the last chunk *)
Inductive chunked : list bytes -> bytes -> Prop :=
| ck_last z : hex z 0 -> chunked [] (z ++ crlf ++ crlf)
| ck_piece s c cs bs : c <> [] -> hex s (N.of_nat (length c)) -> chunked cs bs ->
    chunked (c :: cs) (s ++ crlf ++ c ++ crlf ++ bs).
(** The bytes are UTF-8 text *)
Definition readable (c : bytes) : Prop := exists s, scalars s /\ utf8 s = c.
