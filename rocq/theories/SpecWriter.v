(** What an Avro reader makes of a file: the binary encoding and the object
    container format of the Avro specification, written as relations between bytes
    and what they stand for; nothing here mentions the code that writes. *)
From Verif Require Export Writer SpecHttp.
Open Scope N_scope.

(** ** numbers: groups of seven bits, least significant first, the high bit set on
    all but the last; signs folded in by zig-zag *)
Inductive varint : bytes -> N -> Prop :=
| vi_last b : b < 128 -> varint [b] b
| vi_more b bs n : b < 128 -> varint bs n -> varint ((128 + b) :: bs) (b + 128 * n).
Definition signed (n : N) : Z := if N.even n then Z.of_N (n / 2) else (- Z.of_N ((n + 1) / 2))%Z.
Definition long (bs : bytes) (z : Z) : Prop :=
  exists n, varint bs n /\ n < 2 ^ 64 /\ (length bs <= 10)%nat /\ z = signed n.
(** a length followed by that many bytes *)
Definition counted_bytes (bs b : bytes) : Prop := exists a, bs = a ++ b /\ long a (Z.of_nat (length b)).

(** ** data of a type *)
Inductive ty := TLong | TInt | TString | TBool | TArray (t : ty) | TRecord (fs : list (str * ty)).
Inductive datum := DInt (z : Z) | DString (b : bytes) | DBool (b : bool) | DArray (ds : list datum)
| DRecord (fs : list (str * datum)).

(** An Avro array is a series of blocks, each a number of items and the items (a
    negative number is followed by the size in bytes), ended by a block of no items.
    [Counted] is another reader, to which an array is one number and the items,
    without an end mark. *)
Inductive mode := Avro | Counted.
Inductive reads (m : mode) : ty -> bytes -> datum -> Prop :=
| rd_long bs z : long bs z -> reads m TLong bs (DInt z)
| rd_int bs z : long bs z -> (- 2 ^ 31 <= z < 2 ^ 31)%Z -> reads m TInt bs (DInt z)
| rd_string bs b : counted_bytes bs b -> reads m TString bs (DString b)
| rd_bool b : reads m TBool [if b : bool then 1 else 0] (DBool b)
| rd_array t bs ds : m = Avro -> blocks m t bs ds -> reads m (TArray t) bs (DArray ds)
| rd_counted t a b ds : m = Counted -> long a (Z.of_nat (length ds)) -> items m t b ds -> reads m (TArray t) (a ++ b) (DArray ds)
| rd_record fs bs ds : members m fs bs ds -> reads m (TRecord fs) bs (DRecord ds)
with items (m : mode) : ty -> bytes -> list datum -> Prop :=
| it_nil t : items m t [] []
| it_cons t a b d ds : reads m t a d -> items m t b ds -> items m t (a ++ b) (d :: ds)
with members (m : mode) : list (str * ty) -> bytes -> list (str * datum) -> Prop :=
| mb_nil : members m [] [] []
| mb_cons n t fs a b d ds : reads m t a d -> members m fs b ds -> members m ((n, t) :: fs) (a ++ b) ((n, d) :: ds)
with blocks (m : mode) : ty -> bytes -> list datum -> Prop :=
| bl_end t a : long a 0 -> blocks m t a []
| bl_block t a b c ds ds' : ds <> [] -> long a (Z.of_nat (length ds)) -> items m t b ds -> blocks m t c ds' ->
    blocks m t (a ++ b ++ c) (ds ++ ds')
| bl_sized t a s b c ds ds' : ds <> [] -> long a (- Z.of_nat (length ds)) -> long s (Z.of_nat (length b)) -> items m t b ds ->
    blocks m t c ds' -> blocks m t (a ++ s ++ b ++ c) (ds ++ ds').

(** ** the container: magic number, metadata map, synchronisation marker, then
    blocks of a number of objects, a size, that many bytes and the marker *)
Inductive entries : nat -> bytes -> list (bytes * bytes) -> Prop :=
| en_nil : entries 0 [] []
| en_cons n a b k v kvs c : counted_bytes a k -> counted_bytes b v -> entries n c kvs -> entries (S n) (a ++ b ++ c) ((k, v) :: kvs).
Inductive map_blocks : bytes -> list (bytes * bytes) -> Prop :=
| mp_end a : long a 0 -> map_blocks a []
| mp_block n a b c kvs kvs' : n <> O -> long a (Z.of_nat n) -> entries n b kvs -> map_blocks c kvs' -> map_blocks (a ++ b ++ c) (kvs ++ kvs')
| mp_sized n a s b c kvs kvs' : n <> O -> long a (- Z.of_nat n) -> long s (Z.of_nat (length b)) -> entries n b kvs ->
    map_blocks c kvs' -> map_blocks (a ++ s ++ b ++ c) (kvs ++ kvs').
Inductive file_blocks (sync : bytes) : bytes -> list (Z * bytes) -> Prop :=
| fb_nil : file_blocks sync [] []
| fb_cons a n s data rest bs : long a n -> long s (Z.of_nat (length data)) -> file_blocks sync rest bs ->
    file_blocks sync (a ++ s ++ data ++ sync ++ rest) ((n, data) :: bs).
Inductive container : bytes -> list (bytes * bytes) -> bytes -> list (Z * bytes) -> Prop :=
| ct_file m kvs sync rest bs : map_blocks m kvs -> length sync = 16%nat -> file_blocks sync rest bs ->
    container (lit "Obj" ++ [1] ++ m ++ sync ++ rest) kvs sync bs.

(** ** schemas: the type a JSON schema stands for *)
Definition has_member (k : str) (ps : list (str * jtree)) (x : jtree) : Prop :=
  In (k, x) ps /\ forall y, In (k, y) ps -> y = x.
Inductive schema : jtree -> ty -> Prop :=
| sc_long : schema (JStr (lit "long")) TLong
| sc_int : schema (JStr (lit "int")) TInt
| sc_string : schema (JStr (lit "string")) TString
| sc_boolean : schema (JStr (lit "boolean")) TBool
| sc_array ps x t : has_member (lit "type") ps (JStr (lit "array")) -> has_member (lit "items") ps x -> schema x t ->
    schema (JObj ps) (TArray t)
| sc_record ps n xs fs : has_member (lit "type") ps (JStr (lit "record")) -> has_member (lit "name") ps (JStr n) ->
    has_member (lit "fields") ps (JArr xs) -> schema_fields xs fs -> schema (JObj ps) (TRecord fs)
with schema_fields : list jtree -> list (str * ty) -> Prop :=
| sf_nil : schema_fields [] []
| sf_cons ps n x t xs fs : has_member (lit "name") ps (JStr n) -> has_member (lit "type") ps x -> schema x t -> schema_fields xs fs ->
    schema_fields (JObj ps :: xs) ((n, t) :: fs).

(** ** what a record says *)
Definition url_shown (u : url) : str :=
  (match u_scheme u with Http => lit "http" | Https => lit "https" end) ++ lit "://" ++ u_host u ++ u_path u.
Definition d_str (s : str) : datum := DString (utf8 s).
Definition d_num (n : N) : datum := DInt (Z.of_N n).
Definition d_headers (hs : list header) : datum := DArray (map (fun h => DArray [d_str (fst h); d_str (snd h)]) hs).
Definition d_assert (a : assertion) : datum := DRecord
  [(lit "expr", d_str (a_expr a)); (lit "left", d_str (a_left a)); (lit "compare", d_str (a_compare a));
   (lit "right", d_str (a_right a)); (lit "result", DBool (a_result a))].
Definition d_record (name : str) (thread number order : N) (r : record) : datum :=
  let t := r_time r in let rq := r_request r in let rs := r_response r in DRecord
  [(lit "name", d_str name); (lit "thread", d_num thread); (lit "number", d_num number); (lit "order", d_num order);
   (lit "time_start", d_num (t_start t)); (lit "time_end", d_num (t_end t)); (lit "time_total", d_num (t_total t));
   (lit "time_resolve", d_num (t_resolve t)); (lit "time_connect", d_num (t_connect t)); (lit "time_write", d_num (t_write t));
   (lit "time_delay", d_num (t_delay t)); (lit "time_read", d_num (t_read t));
   (lit "request_name", d_str (r_name r));
   (lit "request_method", d_str (method_name (rq_method rq))); (lit "request_url", d_str (url_shown (rq_url rq)));
   (lit "request_version", d_str (version_name (rq_version rq)));
   (lit "request_headers", d_headers (rq_headers rq)); (lit "request_body", d_str (rq_body rq));
   (lit "response_version", d_str (rs_version rs)); (lit "response_status", d_num (rs_status rs));
   (lit "response_reason", d_str (rs_reason rs));
   (lit "response_headers", d_headers (rs_headers rs)); (lit "response_body", d_str (rs_body rs));
   (lit "asserts", DArray (map d_assert (r_asserts r))); (lit "error", d_str (r_error r))].
(** a batch: the records numbered from 0 *)
Definition d_batch (name : str) (thread number : N) (rs : list record) : list datum :=
  map (fun p => d_record name thread number (N.of_nat (fst p)) (snd p)) (combine (seq 0 (length rs)) rs).

(** the type of a record *)
Definition record_ty : ty := TRecord
  [(lit "name", TString); (lit "thread", TLong); (lit "number", TLong); (lit "order", TLong);
   (lit "time_start", TLong); (lit "time_end", TLong); (lit "time_total", TLong); (lit "time_resolve", TLong);
   (lit "time_connect", TLong); (lit "time_write", TLong); (lit "time_delay", TLong); (lit "time_read", TLong);
   (lit "request_name", TString); (lit "request_method", TString); (lit "request_url", TString); (lit "request_version", TString);
   (lit "request_headers", TArray (TArray TString)); (lit "request_body", TString);
   (lit "response_version", TString); (lit "response_status", TInt); (lit "response_reason", TString);
   (lit "response_headers", TArray (TArray TString)); (lit "response_body", TString);
   (lit "asserts", TArray (TRecord [(lit "expr", TString); (lit "left", TString); (lit "compare", TString); (lit "right", TString);
     (lit "result", TBool)]));
   (lit "error", TString)].
Definition no_arrays (r : record) : Prop := rq_headers (r_request r) = [] /\ rs_headers (r_response r) = [] /\ r_asserts r = [].

(** ** batches written to one file *)
Record batch := Batch { b_name : str; b_thread : N; b_number : N; b_records : list record }.
(** the numbers have their Rust types, and durations are below 292 years *)
Definition fits (r : record) : Prop :=
  let t := r_time r in
  Forall (fun d => d < 2 ^ 63)
    [t_start t; t_end t; t_total t; t_resolve t; t_connect t; t_write t; t_delay t; t_read t] /\
  rs_status (r_response r) < 2 ^ 16.
Definition fits_batch (b : batch) : Prop := b_thread b < 2 ^ 32 /\ b_number b < 2 ^ 32 /\ Forall fits (b_records b).
(** the file written when each write accepts what [acc] says *)
Definition written (acc : list (option nat)) (bs : list batch) : file :=
  fold_left (fun f b => writer_write f (b_records b) (b_name b) (b_thread b) (b_number b)) bs (writer_new acc).
(** a block with the records of a batch *)
Definition holds (m : mode) (b : batch) (blk : Z * bytes) : Prop :=
  fst blk = Z.of_nat (length (b_records b)) /\ items m record_ty (snd blk) (d_batch (b_name b) (b_thread b) (b_number b) (b_records b)).
(** the metadata stores a schema of the type [t] and says that blocks are not compressed *)
Definition describes (kvs : list (bytes * bytes)) (t : ty) : Prop :=
  exists text j, kvs = [(utf8 (lit "avro.schema"), utf8 text); (utf8 (lit "avro.codec"), utf8 (lit "null"))] /\ json text j /\ schema j t.
(** what a call of write leaves in the file when the file accepts [a] (None: everything) *)
Definition taken (a : option (option nat)) (full part : bytes) : Prop :=
  match a with
  | None => part = full
  | Some None => part = []
  | Some (Some n) => part = firstn n full
  end.
