(** lib/src/http/response.rs and error.rs *)
From Verif Require Export HttpRequest Value.
Open Scope N_scope.

(** error.rs:1-37; I/O errors are represented by their text *)
Inductive http_err :=
| ReadFailed (t : str) | WriteFailed (t : str)
| InvalidUrlHost | HostNotFound | TcpConnectFailed | NoConnectionAvailable
| TlsHandshakeFailed | WriteFlushFailed | SetReadTimeoutFailed.
(** error.rs:15-25,29-37 *)
Definition http_err_text (e : http_err) : str :=
  match e with
  | ReadFailed t => t
  | WriteFailed t => t
  | InvalidUrlHost => lit "invalid url host"
  | HostNotFound => lit "host not found"
  | TcpConnectFailed => lit "tcp connect failed"
  | NoConnectionAvailable => lit "no connection available"
  | TlsHandshakeFailed => lit "tls handshake failed"
  | WriteFlushFailed => lit "write flush failed"
  | SetReadTimeoutFailed => lit "set read timeout failed"
  end.

(** response.rs:13-25 *)
Record response := Response {
  rs_version : str; rs_status : N; rs_reason : str; rs_headers : list header; rs_body : str }.
(** derived Default; response.rs:13 *)
Definition response_default : response := Response [] 0 [] [] [].

(** What the connection delivers to the reader: the bytes, then either the end
    of the stream or an I/O error (its text); stream.rs:146-171 *)
Record reader := Reader { rd_bytes : bytes; rd_end : option str }.

(** std's text for io::ErrorKind::InvalidData raised by read_line/read_to_string; response.rs:36 *)
Definition invalid_utf8 : str := lit "stream did not contain valid UTF-8".

(** response.rs:36 *)
Definition rres A := (A * reader + http_err)%type.

(** BufRead::read_line: everything up to and including the next line feed, or up
    to the end of the stream; used at response.rs:36-45 *)
Definition read_line (r : reader) : rres str :=
  let (a, b) := span (fun c => negb (c =? 10)) (rd_bytes r) in
  match b with
  | nl :: rest =>
      match utf8_decode (a ++ [nl]) with
      | Some l => inl (l, Reader rest (rd_end r))
      | None => inr (ReadFailed invalid_utf8)
      end
  | [] =>
      match rd_end r with
      | Some e => inr (ReadFailed e)
      | None =>
          match utf8_decode a with
          | Some l => inl (l, Reader [] None)
          | None => inr (ReadFailed invalid_utf8)
          end
      end
  end.

(** response.rs:43-54; each iteration that continues consumes a non-empty line,
    so [S (length bytes)] units of fuel suffice (out of fuel is reported as an
    impossible error and never happens: ResponseProofs.header_fuel_enough) *)
Fixpoint read_header_lines (fuel : nat) (r : reader) : rres (list header) :=
  match fuel with
  | O => inr (ReadFailed [])
  | S f =>
      match read_line r with
      | inr e => inr e
      | inl (line, r') =>
          match trim line with
          | [] => inl ([], r')
          | _ =>
              match read_header_lines f r' with
              | inr e => inr e
              | inl (hs, r'') =>
                  match split_once 58 line with
                  | Some (name, value) => inl ((trim name, trim value) :: hs, r'')
                  | None => inl (hs, r'')
                  end
              end
          end
      end
  end.

(** Read::read_to_string; used at response.rs:56 *)
Definition read_to_string (r : reader) : str + http_err :=
  match rd_end r with
  | Some e => inr (ReadFailed e)
  | None =>
      match utf8_decode (rd_bytes r) with
      | Some s => inl s
      | None => inr (ReadFailed invalid_utf8)
      end
  end.

(** response.rs:91-96 for String and u16 *)
Definition parse_text (s : option str) : str := match s with Some s => s | None => [] end.
(** response.rs:91-96 *)
Definition parse_u16 (s : option str) : N :=
  match s with
  | Some s => match parse_unsigned u16_max s with Some n => n | None => 0 end
  | None => 0
  end.

(** response.rs:29-64.  The initial [read] into an empty buffer (30-31) only
    waits for the first bytes: it consumes nothing, and fails exactly when the
    stream fails before delivering a byte, in which case the first read_line
    fails the same way.  [line] starts empty (35). *)
Definition response_from (r : reader) : response + http_err :=
  match read_line r with
  | inr e => inr e
  | inl (line, r1) =>
      let splits := split_whitespace line in
      match read_header_lines (S (length (rd_bytes r1))) r1 with
      | inr e => inr e
      | inl (hs, r2) =>
          match read_to_string r2 with
          | inr e => inr e
          | inl body =>
              inl (Response (parse_text (nth_error splits 0)) (parse_u16 (nth_error splits 1))
                            (parse_text (nth_error splits 2)) hs body)
          end
      end
  end.

(** response.rs:71-79 *)
Definition header_map (hs : list header) : amap value :=
  fold_left (fun m hd =>
    match mget (fst hd) m with
    | Some (VArr a) => mset (fst hd) (VArr (a ++ [VStr (snd hd)])) m
    | _ => mset (fst hd) (VArr [VStr (snd hd)]) m
    end) hs [].

(** response.rs:66-88; [Diverge] when parsing the body never ends *)
Definition to_map (h : host) (r : response) : out everr (amap value) :=
  let m := mset (lit "version") (VStr (rs_version r)) [] in
  let m := mset (lit "status") (VInt (Z.of_N (rs_status r))) m in
  let m := mset (lit "reason") (VStr (rs_reason r)) m in
  let m := mset (lit "headers") (VMap (header_map (rs_headers r))) m in
  let m := mset (lit "body") (VStr (rs_body r)) m in
  match parse (rs_body r) with
  | Ok src =>
      match s_exprs src with
      | e :: _ => Ok (mset (lit "json") (expr_eval h e) m)
      | [] => Ok m
      end
  | Err _ => Ok m
  | Panic => Panic
  | Diverge => Diverge
  end.
