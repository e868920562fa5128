(** lib/src/writer.rs: the Avro object container file *)
From Verif Require Export Context.
Open Scope N_scope.

(** writer.rs:4-57: the two metadata entries.  The schema text is the raw string
    literal of lines 7-54. *)
Definition schema_text : str := lit "
{
    ""name"": ""record"",
    ""type"": ""record"",
    ""fields"": [
        {""name"": ""name"", ""type"": ""string""},
        {""name"": ""thread"", ""type"": ""long""},
        {""name"": ""number"", ""type"": ""long""},
        {""name"": ""order"", ""type"": ""long""},
        {""name"": ""time_start"", ""type"": ""long""},
        {""name"": ""time_end"", ""type"": ""long""},
        {""name"": ""time_total"", ""type"": ""long""},
        {""name"": ""time_resolve"", ""type"": ""long""},
        {""name"": ""time_connect"", ""type"": ""long""},
        {""name"": ""time_write"", ""type"": ""long""},
        {""name"": ""time_delay"", ""type"": ""long""},
        {""name"": ""time_read"", ""type"": ""long""},
        {""name"": ""request_name"", ""type"": ""string""},
        {""name"": ""request_method"", ""type"": ""string""},
        {""name"": ""request_url"", ""type"": ""string""},
        {""name"": ""request_version"", ""type"": ""string""},
        {""name"": ""request_headers"", ""type"": {""type"": ""array"", ""items"": {""type"": ""array"", ""items"": ""string""}}},
        {""name"": ""request_body"", ""type"": ""string""},
        {""name"": ""response_version"", ""type"": ""string""},
        {""name"": ""response_status"", ""type"": ""int""},
        {""name"": ""response_reason"", ""type"": ""string""},
        {""name"": ""response_headers"", ""type"": {""type"": ""array"", ""items"": {""type"": ""array"", ""items"": ""string""}}},
        {""name"": ""response_body"", ""type"": ""string""},
        {""name"": ""asserts"", ""type"":
            {
                ""type"": ""array"",
                ""items"": {
                    ""name"": ""assert"",
                    ""type"": ""record"",
                    ""fields"": [
                        {""name"": ""expr"", ""type"": ""string""},
                        {""name"": ""left"", ""type"": ""string""},
                        {""name"": ""compare"", ""type"": ""string""},
                        {""name"": ""right"", ""type"": ""string""},
                        {""name"": ""result"", ""type"": ""boolean""}
                    ]
                }
            }
        },
        {""name"": ""error"", ""type"": ""string""}
    ]
    }
".
(** writer.rs:4-57 *)
Definition meta : list (str * str) :=
  [(lit "avro.schema", schema_text); (lit "avro.codec", lit "null")].
(** writer.rs:58-59 *)
Definition magic : bytes := [79; 98; 106; 1].
(** writer.rs:59 *)
Definition marker : bytes := lit "afilesyncmarker" ++ [2].

(** writer.rs:153-163; a u64 has at most ten groups of seven bits
    (WriterProofs.variable_fuel) *)
Fixpoint encode_variable_fuel (fuel : nat) (z : N) : bytes :=
  match fuel with
  | O => []
  | S f =>
      if z <=? 127 then [N.land z 127]
      else N.lor 128 (N.land z 127) :: encode_variable_fuel f (N.shiftr z 7)
  end.
(** writer.rs:153-163 *)
Definition encode_variable (z : N) : bytes := encode_variable_fuel 10 z.

(** writer.rs:149-151: << on i64 discards the high bit, >> is arithmetic, [as
    u64] reinterprets *)
Definition zigzag (i : Z) : N :=
  Z.to_N (Z.lxor (wrap64 (Z.shiftl i 1)) (Z.shiftr i 63) mod 2 ^ 64)%Z.
(** writer.rs:149-151 *)
Definition encode_long (i : Z) : bytes := encode_variable (zigzag i).

(** writer.rs:143-147 ([as i64] of a length; a Vec never exceeds i64::MAX bytes) *)
Definition encode_bytes (b : bytes) : bytes := encode_long (Z.of_nat (length b)) ++ b.
(** writer.rs:139-141 *)
Definition encode_bool (b : bool) : bytes := [if b then 1 else 0].

(** writer.rs:74 *)
Definition encode_str (s : str) : bytes := encode_bytes (utf8 s).

(** [as_nanos() as i64]: the u128 truncated to 64 bits; writer.rs:78-85 *)
Definition nanos (d : N) : Z := wrap64 (Z.of_N d).

(** writer.rs:90-95, 100-105 *)
Definition encode_header (hd : header) : bytes :=
  encode_long 2 ++ encode_str (fst hd) ++ encode_str (snd hd).
(** writer.rs:90-95 *)
Definition encode_headers (hs : list header) : bytes :=
  encode_long (Z.of_nat (length hs)) ++ flat_map encode_header hs.
(** writer.rs:107-114 *)
Definition encode_assert (a : assertion) : bytes :=
  encode_str (a_expr a) ++ encode_str (a_left a) ++ encode_str (a_compare a) ++ encode_str (a_right a)
  ++ encode_bool (a_result a).

(** writer.rs:73-116, one iteration of the loop over the records *)
Definition encode_record (name : str) (thread number : N) (order : nat) (r : record) : bytes :=
  let t := r_time r in
  let rq := r_request r in
  let rs := r_response r in
  encode_str name
  ++ encode_long (Z.of_N thread) ++ encode_long (Z.of_N number) ++ encode_long (Z.of_nat order)
  ++ encode_long (nanos (t_start t)) ++ encode_long (nanos (t_end t)) ++ encode_long (nanos (t_total t))
  ++ encode_long (nanos (t_resolve t)) ++ encode_long (nanos (t_connect t)) ++ encode_long (nanos (t_write t))
  ++ encode_long (nanos (t_delay t)) ++ encode_long (nanos (t_read t))
  ++ encode_str (r_name r)
  ++ encode_str (method_text (rq_method rq)) ++ encode_str (url_text (rq_url rq)) ++ encode_str (version_text (rq_version rq))
  ++ encode_headers (rq_headers rq) ++ encode_str (rq_body rq)
  ++ encode_str (rs_version rs) ++ encode_long (Z.of_N (rs_status rs)) ++ encode_str (rs_reason rs)
  ++ encode_headers (rs_headers rs) ++ encode_str (rs_body rs)
  ++ encode_long (Z.of_nat (length (r_asserts r))) ++ flat_map encode_assert (r_asserts r)
  ++ encode_str (r_error r).

(** writer.rs:73-116 *)
Fixpoint encode_records_from (name : str) (thread number : N) (order : nat) (rs : list record) : bytes :=
  match rs with
  | [] => []
  | r :: rs' => encode_record name thread number order r ++ encode_records_from name thread number (S order) rs'
  end.

(** writer.rs:72-121: the buffer handed to the underlying writer *)
Definition block (rs : list record) (name : str) (thread number : N) : bytes :=
  let data := encode_records_from name thread number 0 rs in
  encode_long (Z.of_nat (length rs)) ++ encode_long (Z.of_nat (length data)) ++ data ++ marker.

(** writer.rs:126-137 *)
Definition file_header : bytes :=
  magic ++ encode_long (Z.of_nat (length meta))
  ++ flat_map (fun kv => encode_str (fst kv) ++ encode_str (snd kv)) meta
  ++ [0] ++ marker.

(** A file being written: its content, and how many bytes each future call of
    [Write::write] accepts (None: the call fails).  Both the count and the error
    are ignored by the code (writer.rs:67, 122). *)
Record file := File { f_data : bytes; f_accept : list (option nat) }.

(** one call of Write::write; an exhausted list accepts everything; writer.rs:67, writer.rs:122 *)
Definition file_write (f : file) (b : bytes) : file :=
  match f_accept f with
  | [] => File (f_data f ++ b) []
  | None :: acc => File (f_data f) acc
  | Some n :: acc => File (f_data f ++ firstn n b) acc
  end.

(** writer.rs:66-69 *)
Definition writer_new (acc : list (option nat)) : file := file_write (File [] acc) file_header.
(** writer.rs:71-123 *)
Definition writer_write (f : file) (rs : list record) (name : str) (thread number : N) : file :=
  file_write f (block rs name thread number).
