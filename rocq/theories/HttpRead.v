(** Reading a response off a connection: lib/src/http/stream.rs:146-171 and std's
    BufReader, read_line and read_to_string under response.rs:29-64.
    HttpResponse.v works on all the bytes at once; here they arrive in pieces. *)
From Verif Require Export HttpResponse HttpSend.
Open Scope N_scope.

(** Something that happens on the connection while reading: a piece of data (never
    empty, an empty read is the end), or an interrupted call with its error text;
    stream.rs:147-149 *)
Inductive arrival := Piece (b : byte) (bs : bytes) | Interrupt (e : str).

(** The kinds of error that stream.rs:153-164 tells apart *)
Inductive io_kind := ConnectionAborted | UnexpectedEof | OtherKind.

(** How it goes on after that, for good: the peer has closed, every read fails, or
    nothing ever comes; stream.rs:147-166 *)
Inductive ending := Closed | Broke (k : io_kind) (e : str) | Silent.

(** stream.rs:16-28, 146-148 *)
Record incoming := Incoming { w_arrivals : list arrival; w_ending : ending }.

(** The answer to one read; stream.rs:147 *)
Inductive got := Got (bs : bytes) | Again (e : str) | NotGot (e : str) | Waits.

(** stream.rs:146-171.  [bye] is the error of saying goodbye at 155-156, if that
    fails (an interruption there is not modelled); [n] the size of the buffer *)
Definition stream_read (t : transport) (bye : option str) (n : nat) (w : incoming) : got * incoming :=
  match w_arrivals w with
  | Piece b bs :: rest =>
      let taken := firstn n (b :: bs) in
      match skipn n (b :: bs) with
      | [] => (Got taken, Incoming rest (w_ending w))
      | c :: cs => (Got taken, Incoming (Piece c cs :: rest) (w_ending w))
      end
  | Interrupt e :: rest => (Again e, Incoming rest (w_ending w))
  | [] =>
      (match w_ending w with
       | Closed => Got []
       | Silent => Waits
       | Broke k e =>
           match t with
           | Plain => NotGot e
           | Cipher _ =>
               match k with
               | ConnectionAborted => match bye with None => Got [] | Some e' => NotGot e' end
               | UnexpectedEof => Got []
               | OtherKind => NotGot e
               end
           end
       end, w)
  end.

(** std::io::BufReader, client.rs:32: bytes read ahead, and the connection *)
Record bufreader := Br { br_ahead : bytes; br_wire : incoming }.

(** Outcome of reading: a result, an error, waiting for ever (or, never, out of
    fuel); response.rs:31-56 *)
Inductive rd A := RDone (a : A) (b : bufreader) | RFail (e : str) | RWaits | RFuel.
Arguments RDone {A} a b.
Arguments RFail {A} e.
Arguments RWaits {A}.
Arguments RFuel {A}.

Section Reading.
(** the connection, its goodbye, and the capacity of the BufReader; client.rs:32 *)
Variable t : transport.
Variable bye : option str.
Variable cap : nat.

(** BufReader::fill_buf; used at response.rs:31-45 *)
Definition fill_buf (b : bufreader) : got * bufreader :=
  match br_ahead b with
  | [] =>
      match stream_read t bye cap (br_wire b) with
      | (Got bs, w) => (Got bs, Br bs w)
      | (g, w) => (g, Br [] w)
      end
  | ahead => (Got ahead, b)
  end.

(** BufRead::read_until for the line feed: interrupted calls are repeated; used at response.rs:36-45 *)
Fixpoint read_until (fuel : nat) (acc : bytes) (b : bufreader) : rd bytes :=
  match fuel with
  | O => RFuel
  | S f =>
      match fill_buf b with
      | (Waits, _) => RWaits
      | (NotGot e, _) => RFail e
      | (Again _, b') => read_until f acc b'
      | (Got [], b') => RDone acc b'
      | (Got avail, b') =>
          let (a, rest) := span (fun c => negb (c =? 10)) avail in
          match rest with
          | nl :: rest' => RDone (acc ++ a ++ [nl]) (Br rest' (br_wire b'))
          | [] => read_until f (acc ++ a) (Br [] (br_wire b'))
          end
      end
  end.

(** Enough fuel for every loop below; stream.rs:146-148 *)
Definition arrival_size (a : arrival) : nat := match a with Piece _ bs => S (length bs) | Interrupt _ => 1 end.
(** stream.rs:146-148 *)
Definition left_over (b : bufreader) : nat := length (br_ahead b) + list_sum (map arrival_size (w_arrivals (br_wire b))).

(** BufRead::read_line; used at response.rs:36-45 *)
Definition buf_read_line (b : bufreader) : rd str :=
  match read_until (S (S (left_over b))) [] b with
  | RDone bs b' => match utf8_decode bs with Some s => RDone s b' | None => RFail invalid_utf8 end
  | RFail e => RFail e
  | RWaits => RWaits
  | RFuel => RFuel
  end.

(** response.rs:43-54 *)
Fixpoint buf_read_headers (fuel : nat) (b : bufreader) : rd (list header) :=
  match fuel with
  | O => RFuel
  | S f =>
      match buf_read_line b with
      | RDone line b' =>
          match trim line with
          | [] => RDone [] b'
          | _ =>
              match buf_read_headers f b' with
              | RDone hs b'' =>
                  match split_once 58 line with
                  | Some (name, value) => RDone ((trim name, trim value) :: hs) b''
                  | None => RDone hs b''
                  end
              | x => x
              end
          end
      | RFail e => RFail e
      | RWaits => RWaits
      | RFuel => RFuel
      end
  end.

(** Read::read_to_end of the connection; [size] tells how many bytes more than one
    each call asks for, which std decides; used at response.rs:56 *)
Fixpoint read_rest (size : nat -> nat) (fuel : nat) (acc : bytes) (w : incoming) : rd bytes :=
  match fuel with
  | O => RFuel
  | S f =>
      match stream_read t bye (S (size fuel)) w with
      | (Waits, _) => RWaits
      | (NotGot e, _) => RFail e
      | (Again _, w') => read_rest size f acc w'
      | (Got [], w') => RDone acc (Br [] w')
      | (Got bs, w') => read_rest size f (acc ++ bs) w'
      end
  end.

(** BufReader::read_to_string: first what was read ahead; used at response.rs:56 *)
Definition buf_read_to_string (size : nat -> nat) (b : bufreader) : rd str :=
  match read_rest size (S (S (left_over b))) (br_ahead b) (br_wire b) with
  | RDone bs b' => match utf8_decode bs with Some s => RDone s b' | None => RFail invalid_utf8 end
  | RFail e => RFail e
  | RWaits => RWaits
  | RFuel => RFuel
  end.

(** response.rs:29-64.  The [read] into an empty buffer at 31 fills the BufReader
    once; it does not repeat an interrupted call.  None: the call never returns. *)
Definition response_read (size : nat -> nat) (w : incoming) : option (response + http_err) :=
  match fill_buf (Br [] w) with
  | (Waits, _) => None
  | (NotGot e, _) | (Again e, _) => Some (inr (ReadFailed e))
  | (Got _, b) =>
      match buf_read_line b with
      | RDone line b1 =>
          let splits := split_whitespace line in
          match buf_read_headers (S (S (left_over b1))) b1 with
          | RDone hs b2 =>
              match buf_read_to_string size b2 with
              | RDone body _ =>
                  Some (inl (Response (parse_text (nth_error splits 0)) (parse_u16 (nth_error splits 1))
                                      (parse_text (nth_error splits 2)) hs body))
              | RFail e => Some (inr (ReadFailed e))
              | RWaits | RFuel => None
              end
          | RFail e => Some (inr (ReadFailed e))
          | RWaits | RFuel => None
          end
      | RFail e => Some (inr (ReadFailed e))
      | RWaits | RFuel => None
      end
  end.
End Reading.
