(** lib/src/http/stream.rs:31-59, 127-134, 172-190 and request.rs:105-115: which connection
    is opened and what is put on it, whatever the connection does *)
From Verif Require Export HttpClient HttpStream.
Open Scope N_scope.

(** ** connecting *)
(** stream.rs:16-28: without or with a TLS session for a server name *)
Inductive transport := Plain | Cipher (server : str).

(** what the outside decides: to_socket_addrs, TcpStream::connect, whether rustls
    accepts a server name and a session, set_read_timeout; stream.rs:51-57, stream.rs:119-131 *)
Record network := Network {
  nw_resolve : str -> N -> option (list addr);
  nw_accepts : addr -> bool;
  nw_name_ok : str -> bool;
  nw_session_ok : str -> bool;
  nw_timeout_ok : addr -> bool
}.

(** stream.rs:61-117, a run of the race to its end (HttpStream.conn_step) *)
Inductive race (ok : addr -> bool) : conn -> addr + http_err -> Prop :=
| race_end r : race ok (Returned r) r
| race_step c c' r : conn_step ok c c' -> race ok c' r -> race ok c r.

(** stream.rs:44-59 *)
Inductive connect_tcp (n : network) (host : str) (port : N) : addr + http_err -> Prop :=
| ct_unknown : nw_resolve n host port = None -> connect_tcp n host port (inr HostNotFound)
| ct_failed addrs e : nw_resolve n host port = Some addrs -> race (nw_accepts n) (conn_start (nw_accepts n) addrs) (inr e) ->
    connect_tcp n host port (inr e)
| ct_timeout addrs a : nw_resolve n host port = Some addrs -> race (nw_accepts n) (conn_start (nw_accepts n) addrs) (inl a) ->
    nw_timeout_ok n a = false -> connect_tcp n host port (inr SetReadTimeoutFailed)
| ct_done addrs a : nw_resolve n host port = Some addrs -> race (nw_accepts n) (conn_start (nw_accepts n) addrs) (inl a) ->
    nw_timeout_ok n a = true -> connect_tcp n host port (inl a).

(** stream.rs:31-42 and connect_tls, stream.rs:127-134 *)
Inductive connect (n : network) : url -> (transport * addr) + http_err -> Prop :=
| cn_plain h p path a : connect_tcp n h p (inl a) -> connect n (Url Http h p path) (inl (Plain, a))
| cn_plain_failed h p path e : connect_tcp n h p (inr e) -> connect n (Url Http h p path) (inr e)
| cn_name h p path : nw_name_ok n h = false -> connect n (Url Https h p path) (inr InvalidUrlHost)
| cn_session h p path : nw_name_ok n h = true -> nw_session_ok n h = false -> connect n (Url Https h p path) (inr TlsHandshakeFailed)
| cn_cipher h p path a : nw_name_ok n h = true -> nw_session_ok n h = true -> connect_tcp n h p (inl a) ->
    connect n (Url Https h p path) (inl (Cipher h, a))
| cn_cipher_failed h p path e : nw_name_ok n h = true -> nw_session_ok n h = true -> connect_tcp n h p (inr e) ->
    connect n (Url Https h p path) (inr e).

(** ** writing *)
(** An answer of the connection to one call of [write]: it took the first [n] bytes
    (all of them if there are no more), was interrupted, or failed.  With TLS, where the
    session is negotiated by the first write, these are the answers of rustls; stream.rs:173-181 *)
Inductive answer := Took (n : nat) | Interrupted | Failed (e : str).

(** std::io::BufWriter: bytes kept back, bytes the connection has taken, and the
    answers it will give; when they are used up it blocks; request.rs:106 *)
Record bufwriter := Bw { bw_kept : bytes; bw_taken : bytes; bw_answers : list answer }.
(** request.rs:107-113 *)
Inductive wresult := WDone | WFail (e : str) | WBlocked.

(** io::ErrorKind::WriteZero, as displayed; content.rs:14 *)
Definition write_zero_all : str := lit "failed to write whole buffer".
(** request.rs:113 *)
Definition write_zero_buf : str := lit "failed to write the buffered data".

(** Write::write_all of the connection, and the loop of BufWriter::flush_buf: hand
    over [bs] piece by piece; [zero] is the error when nothing is taken.  Result:
    outcome, what is left, what was taken, answers left; request.rs:106-113 *)
Fixpoint hand_over (zero : str) (bs taken : bytes) (answers : list answer) : wresult * bytes * bytes * list answer :=
  match bs with
  | [] => (WDone, [], taken, answers)
  | _ =>
      match answers with
      | [] => (WBlocked, bs, taken, [])
      | Took n :: rest =>
          match n with
          | O => (WFail zero, bs, taken, rest)
          | _ => hand_over zero (skipn n bs) (taken ++ firstn n bs) rest
          end
      | Interrupted :: rest => hand_over zero bs taken rest
      | Failed e :: rest => (WFail e, bs, taken, rest)
      end
  end.

(** BufWriter::flush_buf; its guard drops exactly the bytes taken; request.rs:113 *)
Definition flush_buf (b : bufwriter) : wresult * bufwriter :=
  let '(r, rem, taken, answers) := hand_over write_zero_buf (bw_kept b) (bw_taken b) (bw_answers b) in
  (r, Bw rem taken answers).

(** BufWriter::write_all with write_all_cold, for a buffer of [cap] bytes;
    request.rs:107-111, content.rs:14 *)
Definition write_all (cap : nat) (bs : bytes) (b : bufwriter) : wresult * bufwriter :=
  let direct b :=
    if (cap <=? length bs)%nat then
      let '(r, _, taken, answers) := hand_over write_zero_all bs (bw_taken b) (bw_answers b) in
      (r, Bw (bw_kept b) taken answers)
    else (WDone, Bw (bw_kept b ++ bs) (bw_taken b) (bw_answers b)) in
  let spare := (cap - length (bw_kept b))%nat in
  if (length bs <? spare)%nat then (WDone, Bw (bw_kept b ++ bs) (bw_taken b) (bw_answers b))
  else if (spare <? length bs)%nat then
    match flush_buf b with
    | (WDone, b') => direct b'
    | x => x
    end
  else direct b.

(** one write_all after the other, up to the first failure; request.rs:107-112 *)
Fixpoint write_pieces (cap : nat) (ps : list bytes) (b : bufwriter) : wresult * bufwriter :=
  match ps with
  | [] => (WDone, b)
  | p :: ps' =>
      match write_all cap p b with
      | (WDone, b') => write_pieces cap ps' b'
      | x => x
      end
  end.

(** request.rs:107-112 and content.rs:14: what is written with write_all, one piece for
    each literal and argument of [write!] *)
Definition request_pieces (r : request) (c : content) : list bytes :=
  map utf8 ([method_text (rq_method r); [32]; u_path (rq_url r); [32]; version_text (rq_version r); [13; 10]]
            ++ flat_map (fun h => [fst h; [58; 32]; snd h; [13; 10]]) (rq_headers r) ++ [[13; 10]])
  ++ match c with CByte b => [b] | _ => [] end.

(** A multipart body as its reader gives it: the chunks of successive reads, then the end
    or a failure of a file; content.rs:15-18 *)
Record copied := Copied { cp_chunks : list bytes; cp_failure : option str }.
(** content.rs:11-20; [encode] is the multipart crate's encoding of the parts *)
Definition request_copied (encode : list part -> copied) (c : content) : option copied :=
  match c with CMultipart ps => Some (encode ps) | _ => None end.

(** std: the default capacity; request.rs:106 *)
Definition buf_capacity : nat := N.to_nat 8192.

(** io::copy into a BufWriter.  If it is large enough, chunks are read right into its free
    space, which must be of the default capacity: otherwise it is flushed before
    reading; content.rs:16 *)
Fixpoint copy_buffered (cap : nat) (chunks : list bytes) (failure : option str) (b : bufwriter) : wresult * bufwriter :=
  let room := if (cap - length (bw_kept b) <? buf_capacity)%nat then flush_buf b else (WDone, b) in
  match room with
  | (WDone, b') =>
      match chunks with
      | c :: cs => copy_buffered cap cs failure (Bw (bw_kept b' ++ c) (bw_taken b') (bw_answers b'))
      | [] => (match failure with Some e => WFail e | None => WDone end, b')
      end
  | x => x
  end.
(** a smaller one gets each chunk by write_all; content.rs:16 *)
Definition copy (cap : nat) (c : copied) (b : bufwriter) : wresult * bufwriter :=
  if (buf_capacity <=? cap)%nat then copy_buffered cap (cp_chunks c) (cp_failure c) b
  else
    match write_pieces cap (cp_chunks c) b with
    | (WDone, b') => (match cp_failure c with Some e => WFail e | None => WDone end, b')
    | x => x
    end.

(** request.rs:107-112 *)
Definition write_all_of (cap : nat) (pieces : list bytes) (body : option copied) (b : bufwriter) : wresult * bufwriter :=
  match write_pieces cap pieces b with
  | (WDone, b') => match body with Some c => copy cap c b' | None => (WDone, b') end
  | x => x
  end.

(** request.rs:105-115.  [flushes] tells whether the connection's own flush
    succeeds.  When the BufWriter is dropped it tries once more to hand over what
    it kept, ignoring failures.  Result: the outcome, None when it blocks, and the
    bytes taken by the connection. *)
Definition request_write (cap : nat) (flushes : bool) (answers : list answer) (pieces : list bytes) (body : option copied)
  : option (option http_err) * bytes :=
  let dropped b := bw_taken (snd (flush_buf b)) in
  match write_all_of cap pieces body (Bw [] [] answers) with
  | (WBlocked, b) => (None, bw_taken b)
  | (WFail e, b) => (Some (Some (WriteFailed e)), dropped b)
  | (WDone, b) =>
      match flush_buf b with
      | (WBlocked, b') => (None, bw_taken b')
      | (WFail _, b') => (Some (Some WriteFlushFailed), dropped b')
      | (WDone, b') => (Some (if flushes then None else Some WriteFlushFailed), bw_taken b')
      end
  end.

(** ** one exchange *)
(** what the outside sees: a connection opened, bytes received on it;
    stream.rs:119-125, stream.rs:173-181 *)
Inductive seen := Opened (t : transport) (a : addr) | Received (bs : bytes).

(** client.rs:22-30: how connecting and writing make up an exchange *)
Inductive happens (n : network) (encode : list part -> copied) (r : request) (c : content) (x : exchange) : list seen -> Prop :=
| hp_unconnected e : connect n (rq_url r) (inr e) -> x_connect x = inr e -> happens n encode r c x []
| hp_written t a answers flushes w bs d : connect n (rq_url r) (inl (t, a)) -> x_connect x = inl d ->
    request_write buf_capacity flushes answers (request_pieces r c) (request_copied encode c) = (Some w, bs) -> x_write x = w ->
    happens n encode r c x [Opened t a; Received bs].
