(** C46-C51 *)
From Verif Require Import SpecValue SpecWriter WriterProofs AvroProofs RecordProofs ContainerProofs WriterExamples.
Open Scope N_scope.

(** C46 *)

Theorem C46_decoded : forall z rest, (- 2 ^ 63 <= z < 2 ^ 63)%Z -> (1 <= length (encode_long z) <= 10)%nat /\ long (encode_long z) z /\
  forall a y r, encode_long z ++ rest = a ++ r -> long a y -> a = encode_long z /\ y = z /\ r = rest.
Proof. exact long_decoded. Qed.
Print Assumptions C46_decoded.
Theorem C46_distinct : forall y z r r', (- 2 ^ 63 <= y < 2 ^ 63)%Z -> (- 2 ^ 63 <= z < 2 ^ 63)%Z -> encode_long y ++ r = encode_long z ++ r' -> y = z /\ r = r'.
Proof. exact distinct_longs. Qed.
Print Assumptions C46_distinct.
Example C46_example : encode_long 0 = [0] /\ encode_long (-1) = [1] /\ encode_long 64 = [128; 1] /\
  encode_long (- 2 ^ 63) = [255; 255; 255; 255; 255; 255; 255; 255; 255; 1].
Proof. exact long_examples. Qed.

(** C47 *)

Theorem C47_decoded : forall b rest, small b -> counted_bytes (encode_bytes b) b /\
  forall a c r, encode_bytes b ++ rest = a ++ r -> counted_bytes a c -> a = encode_bytes b /\ c = b /\ r = rest.
Proof. exact bytes_decoded. Qed.
Print Assumptions C47_decoded.
Theorem C47_text : forall s rest, scalars s -> small (utf8 s) -> counted_bytes (encode_str s) (utf8 s) /\ utf8_decode (utf8 s) = Some s /\
  forall a c t r, encode_str s ++ rest = a ++ r -> counted_bytes a c -> utf8_decode c = Some t -> t = s /\ r = rest.
Proof. exact text_decoded. Qed.
Print Assumptions C47_text.
Example C47_example : encode_bytes [] = [0] /\ encode_bytes (lit "abc") = [6; 97; 98; 99] /\ encode_str [233] = [4; 195; 169].
Proof. vm_compute. repeat split; reflexivity. Qed.

(** C48.  The only reading of the file is the one with the batches written. *)

Theorem C48_framed : forall bs, Forall fits_batch bs -> small (f_data (written [] bs)) ->
  exists kvs sync blks, container (f_data (written [] bs)) kvs sync blks /\ describes kvs record_ty /\ Forall2 (holds Counted) bs blks.
Proof. exact file_holds. Qed.
Print Assumptions C48_framed.
Theorem C48_unique : forall bs kvs sync blks kvs' sync' blks', container bs kvs sync blks -> container bs kvs' sync' blks' ->
  kvs = kvs' /\ sync = sync' /\ blks = blks'.
Proof. exact container_unique. Qed.
Print Assumptions C48_unique.
Example C48_example : Forall fits_batch batches /\ small (f_data (written [] batches)).
Proof. split; [exact batches_fit|exact batches_small]. Qed.

(** C49.  The stored schema is that of [record_ty].  A block is a series of data of
    this type, namely its records, if and only if the records have no headers and no
    assertions; but the bytes determine every field. *)

Theorem C49_schema : forall bs kvs sync blks, Forall fits_batch bs -> small (f_data (written [] bs)) -> container (f_data (written [] bs)) kvs sync blks ->
  describes kvs record_ty /\ Forall2 (fun b blk => items Avro record_ty (snd blk) (d_batch (b_name b) (b_thread b) (b_number b) (b_records b)) <-> Forall no_arrays (b_records b)) bs blks.
Proof. exact schema_reading. Qed.
Print Assumptions C49_schema.
Theorem C49_nothing_lost : forall bs bs', Forall fits_batch bs -> Forall fits_batch bs' -> small (f_data (written [] bs)) -> f_data (written [] bs) = f_data (written [] bs') ->
  map (fun b => d_batch (b_name b) (b_thread b) (b_number b) (b_records b)) bs = map (fun b => d_batch (b_name b) (b_thread b) (b_number b) (b_records b)) bs'.
Proof. exact nothing_lost. Qed.
Print Assumptions C49_nothing_lost.
Example C49_example : Forall no_arrays [bare] /\ ~ Forall no_arrays [bare; full] /\ encode_headers [(lit "A", lit "b")] = [2; 4; 2; 65; 2; 98] /\
  reads Avro (TArray (TArray TString)) [2; 4; 2; 65; 2; 98; 0; 0] (d_headers [(lit "A", lit "b")]).
Proof.
  split; [constructor; [repeat split|constructor]|]. split; [|exact header_example].
  intros F. inversion F as [|? ? _ F']. inversion F' as [|? ? (X & _) _]. discriminate X.
Qed.

(** C50 *)

Theorem C50_stamped : forall bs kvs sync blks, Forall fits_batch bs -> small (f_data (written [] bs)) -> container (f_data (written [] bs)) kvs sync blks ->
  Forall2 (fun b blk => exists ds, items Counted record_ty (snd blk) ds /\ fst blk = Z.of_nat (length ds) /\ length ds = length (b_records b) /\
    forall i d, nth_error ds i = Some d -> exists fs, d = DRecord fs /\
      nth_error fs 0 = Some (lit "name", DString (utf8 (b_name b))) /\ nth_error fs 1 = Some (lit "thread", DInt (Z.of_N (b_thread b))) /\
      nth_error fs 2 = Some (lit "number", DInt (Z.of_N (b_number b))) /\ nth_error fs 3 = Some (lit "order", DInt (Z.of_nat i))) bs blks.
Proof. exact stamped. Qed.
Print Assumptions C50_stamped.
Example C50_example : exists kvs sync blks, container (f_data (written [] batches)) kvs sync blks /\ length blks = 3%nat.
Proof.
  destruct (file_holds batches batches_fit batches_small) as (k & s & b & C & _ & H). exists k, s, b. split; auto.
  clear -H. unfold batches in H. inversion H; subst. inversion H4; subst. inversion H6; subst. inversion H8; subst. reflexivity.
Qed.

(** C51.  [written acc bs] for the file that accepts [acc], [written [] bs] for one
    that accepts everything *)

Theorem C51_parts : forall acc bs, exists fulls parts, length fulls = S (length bs) /\
  (forall i, (i <= length bs)%nat -> f_data (written [] (firstn i bs)) = concat (firstn (S i) fulls)) /\
  f_data (written acc bs) = concat parts /\
  Forall2 (fun i part => taken (nth_error acc (fst i)) (snd i) part) (combine (seq 0 (length fulls)) fulls) parts.
Proof. exact short_writes. Qed.
Print Assumptions C51_parts.
Theorem C51_lost : forall acc bs kvs sync blks, Forall fits_batch bs -> small (f_data (written [] bs)) -> container (f_data (written [] bs)) kvs sync blks ->
  ((exists blks', container (f_data (written acc bs)) kvs sync blks' /\ Forall2 (holds Counted) bs blks') <-> f_data (written acc bs) = f_data (written [] bs)).
Proof. exact lost_iff. Qed.
Print Assumptions C51_lost.
Example C51_example : f_data (written [Some 3%nat; None; Some 0%nat; Some 1%nat] batches) = lit "Obj" ++ [2].
Proof. exact short_example. Qed.

