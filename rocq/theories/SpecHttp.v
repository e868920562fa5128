(** What URLs, request messages, the bytes on the connection and responses mean *)
From Verif Require Export SpecText HttpRequest HttpResponse HttpClient HttpStream SpecEval.
Open Scope N_scope.

(** ** URLs *)
Definition scheme_sep : str := lit "://".
(** the port written after the host *)
Inductive port_part : str -> option str -> Prop :=
| pp_none : port_part [] None
| pp_some t : ~ In 47 t -> port_part (58 :: t) (Some t).
(** its value: a 16-bit number, otherwise the default of the scheme *)
Definition port_value (s : scheme) (t : option str) (p : N) : Prop :=
  (exists x, t = Some x /\ unsigned 65535 x p) \/
  ((forall x n, t = Some x -> ~ unsigned 65535 x n) /\ p = match s with Http => 80 | Https => 443 end).
Inductive path_part : str -> str -> Prop :=
| pt_none : path_part [] (lit "/")
| pt_some t : path_part (47 :: t) (47 :: t).
(** only the exact lower-case names are known *)
Definition scheme_named (s : str) (x : scheme) : Prop :=
  (s = lit "https" /\ x = Https) \/ (s <> lit "https" /\ x = Http).

(** ** request messages *)
Definition method_name (m : method) : str :=
  match m with
  | Get => lit "GET" | Post => lit "POST" | Put => lit "PUT" | Patch => lit "PATCH" | Delete => lit "DELETE"
  | Options => lit "OPTIONS" | Head => lit "HEAD" | Trace => lit "TRACE" | Connect => lit "CONNECT"
  end.
Definition version_name (v : version) : str :=
  lit "HTTP/" ++ match v with
  | Http09 => lit "0.9" | Http10 => lit "1.0" | Http11 => lit "1.1" | Http20 => lit "2.0" | Http30 => lit "3.0"
  end.
Definition method_named (s : option str) (m : method) : Prop :=
  s = Some (method_name m) \/ ((forall m', s <> Some (method_name m')) /\ m = Get).
Definition version_named (s : option str) (v : version) : Prop :=
  s = Some (version_name v) \/ ((forall v', s <> Some (version_name v')) /\ v = Http11).

(** [header_block ls hs rest]: the lines [ls] start with the headers [hs], up to
    the first blank line; [rest] are the lines after it *)
Inductive header_block : list str -> list header -> list str -> Prop :=
| hb_end : header_block [] [] []
| hb_blank l ls : blank l -> header_block (l :: ls) [] ls
| hb_header n v n' v' ls hs rest : ~ In 58 n -> trimmed n n' -> trimmed v v' -> header_block ls hs rest ->
    header_block ((n ++ 58 :: v) :: ls) ((n', v') :: hs) rest
| hb_other l ls hs rest : ~ blank l -> ~ In 58 l -> header_block ls hs rest -> header_block (l :: ls) hs rest.

(** the name is [content-type] in any case *)
Definition letter_of (x y : char) : Prop := x = y \/ (65 <= x <= 90 /\ y = x + 32).
Definition is_content_type (n : str) : Prop := Forall2 letter_of n (lit "content-type").
(** the first content type given *)
Definition content_type (hs : list header) (t : option str) : Prop :=
  (exists a n v b, hs = a ++ (n, v) :: b /\ is_content_type n /\ Forall (fun h => ~ is_content_type (fst h)) a /\ t = Some v) \/
  (Forall (fun h => ~ is_content_type (fst h)) hs /\ t = None).

(** [field_lines ls fs kept]: the lines [kept] of [ls] are fields name:value, as
    written between the white space at both ends of the line *)
Inductive field_lines : list str -> list (str * str) -> list str -> Prop :=
| fl_nil : field_lines [] [] []
| fl_field l n v ls fs kept : trimmed l (n ++ 58 :: v) -> ~ In 58 n -> field_lines ls fs kept ->
    field_lines (l :: ls) ((n, v) :: fs) (l :: kept)
| fl_other l ls fs kept : ~ In 58 l -> field_lines ls fs kept -> field_lines (l :: ls) fs kept.

(** a multipart part: the text after @ names a file *)
Definition part_for (f : str * str) (p : part) : Prop :=
  exists n v, trimmed (fst f) n /\ trimmed (snd f) v /\
    ((exists path, v = 64 :: path /\ p = PFile n path) \/ ((forall path, v <> 64 :: path) /\ p = PText n v)).

(** application/x-www-form-urlencoded, decoded to bytes *)
Definition hex_value (b : byte) : option N :=
  if (48 <=? b) && (b <=? 57) then Some (b - 48)
  else if (65 <=? b) && (b <=? 70) then Some (b - 55)
  else if (97 <=? b) && (b <=? 102) then Some (b - 87)
  else None.
Fixpoint form_unescape (bs : bytes) : option bytes :=
  match bs with
  | [] => Some []
  | b :: r =>
      if b =? 37 then
        match r with
        | x :: y :: r' =>
            match hex_value x, hex_value y, form_unescape r' with
            | Some h, Some l, Some t => Some (16 * h + l :: t)
            | _, _, _ => None
            end
        | _ => None
        end
      else
        match form_unescape r with
        | Some t => Some ((if b =? 43 then 32 else b) :: t)
        | None => None
        end
  end.
(** [pieces d bs ps]: [bs] split at every [d] *)
Inductive pieces (d : byte) : bytes -> list bytes -> Prop :=
| pc_last s : ~ In d s -> pieces d s [s]
| pc_more s bs ps : ~ In d s -> pieces d bs ps -> pieces d (s ++ d :: bs) (s :: ps).
(** one name=value, split at the first = *)
Definition form_pair (p : bytes) (nv : bytes * bytes) : Prop :=
  exists n v, p = n ++ 61 :: v /\ ~ In 61 n /\ form_unescape n = Some (fst nv) /\ form_unescape v = Some (snd nv).
Definition form_decodes (bs : bytes) (nvs : list (bytes * bytes)) : Prop :=
  (bs = [] /\ nvs = []) \/ exists ps, pieces 38 bs ps /\ Forall2 form_pair ps nvs.

(** the characters an encoded form is made of *)
Definition form_char (b : byte) : Prop := letter b \/ digit b \/ In b (lit "*-._+%=&").

(** what is sent after the headers *)
Inductive body_sent (prepare : list part -> bool) : option str -> list str -> str -> content -> Prop :=
| bs_form ls fs kept b : field_lines ls fs kept -> form_decodes b (map (fun f => (utf8 (fst f), utf8 (snd f))) fs) -> Forall form_char b ->
    body_sent prepare (Some (lit "application/x-www-form-urlencoded")) ls (concat kept) (CByte b)
| bs_multi ls fs kept ps : field_lines ls fs kept -> Forall2 part_for fs ps -> prepare ps = true ->
    body_sent prepare (Some (lit "multipart/form-data")) ls (concat kept) (CMultipart ps)
| bs_unreadable ls fs kept ps : field_lines ls fs kept -> Forall2 part_for fs ps -> prepare ps = false ->
    body_sent prepare (Some (lit "multipart/form-data")) ls (concat kept) CEmpty
| bs_none t ls : t <> Some (lit "application/x-www-form-urlencoded") -> t <> Some (lit "multipart/form-data") ->
    blank (concat ls) -> body_sent prepare t ls (concat ls) CEmpty
| bs_plain t ls : t <> Some (lit "application/x-www-form-urlencoded") -> t <> Some (lit "multipart/form-data") ->
    ~ blank (concat ls) -> body_sent prepare t ls (concat ls) (CByte (utf8 (concat ls))).

(** [request_of prepare message rq c] *)
Inductive request_of (prepare : list part -> bool) : str -> request -> content -> Prop :=
| ro_blank m : blank m -> request_of prepare m (Request Get (Url Http (lit "localhost") 80 (lit "/")) Http11 [] []) CEmpty
| ro_message m t line ls wds me u ve hs rest ct body c :
    trimmed m t -> text_lines t (line :: ls) -> words line wds ->
    method_named (nth_error wds 0) me ->
    (forall w, nth_error wds 1 = Some w -> u = url_from w) ->
    (nth_error wds 1 = None -> u = Url Http (lit "localhost") 80 (lit "/")) ->
    version_named (nth_error wds 2) ve ->
    header_block ls hs rest -> content_type hs ct -> body_sent prepare ct rest body c ->
    request_of prepare m (Request me u ve hs body) c.

(** ** the bytes on the connection, as a server reads them: lines ended by CR LF
    up to an empty one, then the body *)
Inductive wire : bytes -> list bytes -> bytes -> Prop :=
| wr_end body : wire (13 :: 10 :: body) [] body
| wr_line l bs ls body : l <> [] -> ~ In 10 l -> wire bs ls body -> wire (l ++ 13 :: 10 :: bs) (l :: ls) body.

(** a template split at its own line feeds *)
Fixpoint template_lines (ps : list piece) : list (list piece) :=
  match ps with
  | [] => [[]]
  | p :: ps' =>
      match template_lines ps' with
      | l :: ls => match p with
                   | Lit c => if c =? 10 then [] :: l :: ls else (p :: l) :: ls
                   | Hole _ => (p :: l) :: ls
                   end
      | [] => []
      end
  end.

(** ** responses: lines ended by LF (a CR before it is white space), a blank line
    ends the headers, the body is everything up to the end of the stream *)
Inductive response_headers : bytes -> list header -> bytes -> Prop :=
| rh_end : response_headers [] [] []
| rh_blank l rest : ~ In 10 l -> scalars l -> blank l -> response_headers (utf8 l ++ 10 :: rest) [] rest
| rh_header n v n' v' bs hs rest : ~ In 58 n -> ~ In 10 (n ++ v) -> scalars (n ++ v) -> trimmed n n' -> trimmed v v' ->
    response_headers bs hs rest -> response_headers (utf8 (n ++ 58 :: v) ++ 10 :: bs) ((n', v') :: hs) rest
| rh_other l bs hs rest : ~ blank l -> ~ In 58 l -> ~ In 10 l -> scalars l ->
    response_headers bs hs rest -> response_headers (utf8 l ++ 10 :: bs) hs rest
| rh_last_header n v n' v' : ~ In 58 n -> ~ In 10 (n ++ v) -> scalars (n ++ v) -> trimmed n n' -> trimmed v v' ->
    response_headers (utf8 (n ++ 58 :: v)) [(n', v')] []
| rh_last_other l : l <> [] -> ~ In 58 l -> ~ In 10 l -> scalars l -> response_headers (utf8 l) [] [].
Definition status_of (t : option str) (n : N) : Prop :=
  (exists x, t = Some x /\ unsigned 65535 x n) \/ ((forall x m, t = Some x -> ~ unsigned 65535 x m) /\ n = 0).
Definition word_or_empty (t : option str) : str := match t with Some x => x | None => [] end.
Inductive response_of : bytes -> response -> Prop :=
| rsp_full line wds bs status hs rest body : ~ In 10 line -> scalars line -> words line wds ->
    status_of (nth_error wds 1) status -> response_headers bs hs rest -> scalars body -> rest = utf8 body ->
    response_of (utf8 line ++ 10 :: bs)
      (Response (word_or_empty (nth_error wds 0)) status (word_or_empty (nth_error wds 2)) hs body)
| rsp_short line wds status : ~ In 10 line -> scalars line -> words line wds -> status_of (nth_error wds 1) status ->
    response_of (utf8 line) (Response (word_or_empty (nth_error wds 0)) status (word_or_empty (nth_error wds 2)) [] []).

(** ** what a script sees of a response *)
(** the values of all headers named [n], in order *)
Definition values_of (n : str) (hs : list header) : list str :=
  flat_map (fun h => if list_eq_dec N.eq_dec n (fst h) then [snd h] else []) hs.

(** ** JSON *)
Inductive jtree := JNull | JBool (b : bool) | JInt (n : N) | JFrac (f : f64) | JNeg | JStr (s : str)
| JArr (xs : list jtree) | JObj (ps : list (str * jtree)).
Inductive number : str -> jtree -> Prop :=
| nb_int ds : ds <> [] -> Forall digit ds -> (Z.of_N (decimal ds) < 2 ^ 63)%Z -> number ds (JInt (decimal ds))
| nb_frac a b f : a <> [] -> Forall digit a -> b <> [] -> Forall digit b -> float_literal (a ++ 46 :: b) f ->
    number (a ++ 46 :: b) (JFrac f).
(** the text inside quotes: no escapes *)
Definition plain (s : str) : Prop := ~ In 34 s /\ ~ In 92 s.
Inductive json : str -> jtree -> Prop :=
| js_blank a s b x : blank a -> blank b -> json s x -> json (a ++ s ++ b) x
| js_null : json (lit "null") JNull
| js_true : json (lit "true") (JBool true)
| js_false : json (lit "false") (JBool false)
| js_number s x : number s x -> json s x
| js_negative s x : number s x -> json (45 :: s) JNeg
| js_string s : plain s -> json (34 :: s ++ [34]) (JStr s)
| js_empty_array a : blank a -> json (91 :: a ++ [93]) (JArr [])
| js_array s xs : json_items s xs -> json (91 :: s ++ [93]) (JArr xs)
| js_empty_object a : blank a -> json (123 :: a ++ [125]) (JObj [])
| js_object s ps : json_members s ps -> json (123 :: s ++ [125]) (JObj ps)
with json_items : str -> list jtree -> Prop :=
| ji_last s x : json s x -> json_items s [x]
| ji_more s x s' xs : json s x -> json_items s' xs -> json_items (s ++ 44 :: s') (x :: xs)
with json_members : str -> list (str * jtree) -> Prop :=
| jm_last a k b s x : blank a -> plain k -> blank b -> json s x -> json_members (a ++ 34 :: k ++ 34 :: b ++ 58 :: s) [(k, x)]
| jm_more a k b s x s' ps : blank a -> plain k -> blank b -> json s x -> json_members s' ps ->
    json_members (a ++ 34 :: k ++ 34 :: b ++ 58 :: s ++ 44 :: s') ((k, x) :: ps).
(** the value of a document; a negative number has none and counts as null; of
    several members of one name the last counts *)
Inductive denotes : jtree -> value -> Prop :=
| dn_null : denotes JNull VNull
| dn_neg : denotes JNeg VNull
| dn_bool b : denotes (JBool b) (VBool b)
| dn_int n : denotes (JInt n) (VInt (Z.of_N n))
| dn_frac f : denotes (JFrac f) (VFloat f)
| dn_str s : denotes (JStr s) (VStr s)
| dn_arr xs vs : Forall2 denotes xs vs -> denotes (JArr xs) (VArr vs)
| dn_obj ps m : NoDup (map fst m) -> (forall k, In k (map fst m) <-> In k (map fst ps)) ->
    (forall k v, mget k m = Some v -> exists x, last_def k ps x /\ denotes x v) -> denotes (JObj ps) (VMap m).

(** ** connecting *)
(** what is reported for a failure *)
Definition report (e : http_err) : str :=
  match e with
  | ReadFailed t | WriteFailed t => t
  | InvalidUrlHost => lit "invalid url host"
  | HostNotFound => lit "host not found"
  | TcpConnectFailed => lit "tcp connect failed"
  | NoConnectionAvailable => lit "no connection available"
  | TlsHandshakeFailed => lit "tls handshake failed"
  | WriteFlushFailed => lit "write flush failed"
  | SetReadTimeoutFailed => lit "set read timeout failed"
  end.
Definition default_response : response := Response [] 0 [] [] [].
(** clock readings in the order they were taken, name resolution being part of connecting *)
Definition ordered (x : exchange) : Prop :=
  x_start x <= x_connected x <= x_read x /\ x_read x <= x_first x <= x_read_done x /\ x_read_done x <= x_done x /\
  (forall d, x_connect x = inl d -> x_start x + d <= x_connected x).
Inductive steps (ok : addr -> bool) : conn -> conn -> Prop :=
| st_refl c : steps ok c c
| st_step c c1 c2 : conn_step ok c c1 -> steps ok c1 c2 -> steps ok c c2.
Definition is_returned (c : conn) : Prop := exists r, c = Returned r.
