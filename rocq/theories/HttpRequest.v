(** lib/src/http/request.rs, content.rs, header.rs and the Method and Version
    types of mod.rs:78-98 *)
From Verif Require Export HttpUrl Utf8.
Open Scope N_scope.

(** mod.rs:78-85 *)
Inductive version := Http11 | Http09 | Http10 | Http20 | Http30.
(** mod.rs:87-98 *)
Inductive method := Get | Post | Put | Patch | Delete | Options | Head | Trace | Connect.

(** mod.rs:54-62 (AsRef<str>, also Display) *)
Definition version_text (v : version) : str :=
  match v with
  | Http11 => lit "HTTP/1.1" | Http09 => lit "HTTP/0.9" | Http10 => lit "HTTP/1.0"
  | Http20 => lit "HTTP/2.0" | Http30 => lit "HTTP/3.0"
  end.
(** mod.rs:88-98 *)
Definition method_text (m : method) : str :=
  match m with
  | Get => lit "GET" | Post => lit "POST" | Put => lit "PUT" | Patch => lit "PATCH"
  | Delete => lit "DELETE" | Options => lit "OPTIONS" | Head => lit "HEAD"
  | Trace => lit "TRACE" | Connect => lit "CONNECT"
  end.

(** mod.rs:34-43: exact names, otherwise the first variant *)
Definition version_from (s : str) : version :=
  if str_eqb s (lit "HTTP/1.1") then Http11
  else if str_eqb s (lit "HTTP/0.9") then Http09
  else if str_eqb s (lit "HTTP/1.0") then Http10
  else if str_eqb s (lit "HTTP/2.0") then Http20
  else if str_eqb s (lit "HTTP/3.0") then Http30
  else Http11.
(** mod.rs:34-43 *)
Definition method_from (s : str) : method :=
  if str_eqb s (lit "GET") then Get
  else if str_eqb s (lit "POST") then Post
  else if str_eqb s (lit "PUT") then Put
  else if str_eqb s (lit "PATCH") then Patch
  else if str_eqb s (lit "DELETE") then Delete
  else if str_eqb s (lit "OPTIONS") then Options
  else if str_eqb s (lit "HEAD") then Head
  else if str_eqb s (lit "TRACE") then Trace
  else if str_eqb s (lit "CONNECT") then Connect
  else Get.
(** mod.rs:45-52 *)
Definition version_from_opt (s : option str) : version :=
  match s with Some s => version_from s | None => Http11 end.
(** mod.rs:45-52 *)
Definition method_from_opt (s : option str) : method :=
  match s with Some s => method_from s | None => Get end.

(** header.rs:4-12: a vector of (name, value) *)
Definition header := (str * str)%type.

(** request.rs:12-24 *)
Record request := Request {
  rq_method : method; rq_url : url; rq_version : version;
  rq_headers : list header; rq_body : str }.

(** request.rs:101 (derived Default) *)
Definition request_default : request := Request Get url_default Http11 [] [].

(** A part of a multipart body (request.rs:66-74): text, or a file by path *)
Inductive part := PText (name value : str) | PFile (name path : str).

(** content.rs:4-8; a prepared multipart body is represented by its parts *)
Inductive content := CEmpty | CByte (b : bytes) | CMultipart (ps : list part).

(** request.rs:37-49: header lines up to the first blank line; result: headers,
    first content type seen (trimmed), lines left.  Only a name that lower-cases
    to content-type counts; no non-ASCII letter lower-cases into it, so ASCII
    lower-casing is enough. *)
Fixpoint read_headers (ctype : option str) (ls : list str) : list header * option str * list str :=
  match ls with
  | [] => ([], ctype, [])
  | line :: ls' =>
      match trim line with
      | [] => ([], ctype, ls')
      | t =>
          match split_once 58 t with
          | Some (name, value) =>
              let ctype' :=
                match ctype with
                | None => if str_eqb (map lower (trim name)) (lit "content-type") then Some (trim value) else None
                | Some _ => ctype
                end in
              let '(hs, ct, rest) := read_headers ctype' ls' in
              ((trim name, trim value) :: hs, ct, rest)
          | None => read_headers ctype ls'
          end
      end
  end.

(** request.rs:55-60, 65-75: the lines that are fields, with the untrimmed line *)
Definition field_of (line : str) : option (str * str * str) :=
  match split_once 58 (trim line) with
  | Some (name, value) => Some (name, value, line)
  | None => None
  end.
(** request.rs:55-60, request.rs:65-75 *)
Definition fields (ls : list str) : list (str * str * str) :=
  flat_map (fun l => match field_of l with Some f => [f] | None => [] end) ls.

(** form_urlencoded::byte_serialize (external crate): ASCII letters, digits and
    * - . _ are kept, a space becomes +, every other byte %XX; request.rs:57 *)
Definition hex_digit (n : N) : byte := if n <? 10 then 48 + n else 55 + n.
(** request.rs:57 *)
Definition form_byte (b : byte) : bytes :=
  if is_alpha b || is_digit b || (b =? 42) || (b =? 45) || (b =? 46) || (b =? 95) then [b]
  else if b =? 32 then [43]
  else [37; hex_digit (b / 16); hex_digit (b mod 16)].
(** request.rs:57 *)
Definition form_text (s : str) : bytes := flat_map form_byte (utf8 s).
(** form_urlencoded::Serializer::append_pair, finish; request.rs:54-61 *)
Fixpoint form_pairs (ps : list (str * str)) : bytes :=
  match ps with
  | [] => []
  | [(n, v)] => form_text n ++ [61] ++ form_text v
  | (n, v) :: ps' => form_text n ++ [61] ++ form_text v ++ [38] ++ form_pairs ps'
  end.

(** request.rs:67-72 *)
Definition part_of (name value : str) : part :=
  match trim value with
  | 64 :: path => PFile (trim name) path
  | v => PText (trim name) v
  end.

(** request.rs:28-103.  [prepare ps = false] models a failing
    Multipart::prepare (unreadable file), request.rs:76-79. *)
Definition request_from (prepare : list part -> bool) (message : str) : request * content :=
  match lines (trim message) with
  | [] => (request_default, CEmpty)
  | line :: ls =>
      let splits := split_whitespace line in
      let m := method_from_opt (nth_error splits 0) in
      let u := url_from_opt (nth_error splits 1) in
      let v := version_from_opt (nth_error splits 2) in
      let '(hs, ctype, rest) := read_headers None ls in
      let fs := fields rest in
      let '(body, content) :=
        match ctype with
        | Some ct =>
            if str_eqb ct (lit "application/x-www-form-urlencoded") then
              (concat (map snd fs), CByte (form_pairs (map fst fs)))
            else if str_eqb ct (lit "multipart/form-data") then
              let ps := map (fun f => part_of (fst (fst f)) (snd (fst f))) fs in
              (concat (map snd fs), if prepare ps then CMultipart ps else CEmpty)
            else
              let body := concat rest in
              (body, match trim body with [] => CEmpty | _ => CByte (utf8 body) end)
        | None =>
            let body := concat rest in
            (body, match trim body with [] => CEmpty | _ => CByte (utf8 body) end)
        end in
      (Request m u v hs body, content)
  end.

(** request.rs:107-111 *)
Definition crlf : str := [13; 10].

(** request.rs:107-111 *)
Definition request_head (r : request) : str :=
  method_text (rq_method r) ++ [32] ++ u_path (rq_url r) ++ [32] ++ version_text (rq_version r) ++ crlf
  ++ flat_map (fun hd => fst hd ++ [58; 32] ++ snd hd ++ crlf) (rq_headers r)
  ++ crlf.

(** content.rs:11-20; [encode] is the multipart crate's encoding of the parts *)
Definition content_bytes (encode : list part -> bytes) (c : content) : bytes :=
  match c with
  | CEmpty => []
  | CByte b => b
  | CMultipart ps => encode ps
  end.

(** request.rs:105-115: the bytes put on the connection when no write fails *)
Definition request_bytes (encode : list part -> bytes) (r : request) (c : content) : bytes :=
  utf8 (request_head r) ++ content_bytes encode c.
