(** The file as a container *)
From Verif Require Import SpecValue Utf8Proofs SpecWriter WriterProofs AvroProofs RecordProofs WireProofs TextProofs SpecLex.
From Coq Require Import ZifyBool ZifyN ZifyNat.
Open Scope N_scope.

(** ** reading back is unique *)
Lemma entries_unique n : forall a kvs, entries n a kvs -> forall b kvs' r r', entries n b kvs' -> a ++ r = b ++ r' -> a = b /\ kvs = kvs'.
Proof.
  induction 1 as [|n a b k v kvs c A B E IH]; intros d kvs' r r' E' Q; inversion E'; subst; auto.
  rewrite <- !app_assoc in Q.
  match goal with H : counted_bytes ?x _, H1 : counted_bytes ?y _ |- _ =>
    destruct (counted_prefix _ _ _ _ _ _ A H Q) as (-> & Q1 & ->); destruct (counted_prefix _ _ _ _ _ _ B H1 Q1) as (-> & Q2 & ->) end.
  match goal with H : entries n _ _ |- _ => destruct (IH _ _ _ _ H Q2) as [-> ->] end. auto.
Qed.
Lemma entries_length n a kvs : entries n a kvs -> length kvs = n.
Proof. induction 1; cbn; auto. Qed.
Lemma map_blocks_unique a kvs : map_blocks a kvs -> forall b kvs' r r', map_blocks b kvs' -> a ++ r = b ++ r' -> a = b /\ kvs = kvs'.
Proof.
  induction 1 as [a A|n a b c kvs kvs' NZ A E M IH|n a s b c kvs kvs' NZ A S E M IH]; intros d kws r r' M' Q; inversion M'; subst; rewrite <- ?app_assoc in Q;
    match goal with H : long _ _ |- _ => destruct (long_prefix _ _ _ _ _ _ A H Q) as (-> & Q1 & X) end; try lia; auto.
  - assert (n = n0) by lia. subst n0. match goal with H : entries n _ _ |- _ => destruct (entries_unique _ _ _ E _ _ _ _ H Q1) as [-> ->] end.
    apply app_inv_head in Q1. match goal with H : map_blocks c0 _ |- _ => destruct (IH _ _ _ _ H Q1) as [-> ->] end. auto.
  - assert (n = n0) by lia. subst n0. match goal with H : long s0 _ |- _ => destruct (long_prefix _ _ _ _ _ _ S H Q1) as (-> & Q2 & _) end.
    match goal with H : entries n _ _ |- _ => destruct (entries_unique _ _ _ E _ _ _ _ H Q2) as [-> ->] end.
    apply app_inv_head in Q2. match goal with H : map_blocks c0 _ |- _ => destruct (IH _ _ _ _ H Q2) as [-> ->] end. auto.
Qed.
Lemma same_length_app {A} (a b : list A) r r' : length a = length b -> a ++ r = b ++ r' -> a = b /\ r = r'.
Proof.
  revert b. induction a as [|x a IH]; intros [|y b] L E; cbn in *; try discriminate; auto. injection E as -> E. destruct (IH b ltac:(lia) E) as [-> ->]. auto.
Qed.
Lemma file_blocks_unique sync : length sync = 16%nat -> forall a bs, file_blocks sync a bs -> forall bs', file_blocks sync a bs' -> bs = bs'.
Proof.
  intros L a bs F. induction F as [|a n s data rest bs A S F IH]; intros bs' F'; inversion F'; subst; auto.
  - exfalso. match goal with H : _ = _, LA : long _ _ |- _ => apply (f_equal (@length _)) in H; rewrite !app_length in H; apply long_pos in LA; cbn [length] in H; lia end.
  - exfalso. match goal with H : _ = a ++ _ |- _ => apply (f_equal (@length _)) in H; rewrite !app_length in H; apply long_pos in A; cbn [length] in H; lia end.
  - match goal with H : a0 ++ _ = a ++ _, LA : long a0 _, LS : long s0 _ |- _ =>
      destruct (long_prefix _ _ _ _ _ _ LA A H) as (-> & Q1 & ->); destruct (long_prefix _ _ _ _ _ _ LS S Q1) as (-> & Q2 & X) end.
    destruct (same_length_app data0 data _ _ ltac:(lia) Q2) as [-> Q3]. apply app_inv_head in Q3. subst. f_equal. now apply IH.
Qed.
Theorem container_unique bs kvs sync blks kvs' sync' blks' : container bs kvs sync blks -> container bs kvs' sync' blks' ->
  kvs = kvs' /\ sync = sync' /\ blks = blks'.
Proof.
  intros C C'. inversion C as [m k s rest b M L F E]; subst. inversion C' as [m' k' s' rest' b' M' L' F' E']; subst.
  destruct (map_blocks_unique _ _ M' _ _ _ _ M E') as [-> ->]. apply app_inv_head in E'.
  destruct (same_length_app sync' sync _ _ ltac:(lia) E') as [-> ->]. repeat split. now apply (file_blocks_unique sync L rest).
Qed.

(** ** least size *)
Definition kv_size (kv : bytes * bytes) : nat := length (encode_bytes (fst kv)) + length (encode_bytes (snd kv)).
Definition blk_size (sync : bytes) (b : Z * bytes) : nat :=
  length (encode_long (fst b)) + length (encode_long (Z.of_nat (length (snd b)))) + length (snd b) + length sync.
Lemma entries_least n a kvs : entries n a kvs -> (sum (map kv_size kvs) <= length a)%nat.
Proof.
  induction 1 as [|n a b k v kvs c A B E IH]; cbn [map sum length]; [lia|]. rewrite !app_length. unfold kv_size at 1. cbn [fst snd].
  apply counted_len in A, B. lia.
Qed.
Lemma map_blocks_least a kvs : map_blocks a kvs -> exists k, (1 <= k)%nat /\ 2 * N.of_nat (length kvs) < 128 ^ N.of_nat k /\
  (k + sum (map kv_size kvs) + match length kvs with O => 0 | _ => 1 end <= length a)%nat.
Proof.
  induction 1 as [a A|n a b c kvs kvs' NZ A E M (k & K & V & IH)|n a s b c kvs kvs' NZ A S E M (k & K & V & IH)].
  - exists (length a). pose proof (long_pos _ _ A). cbn. split; [lia|]. split; [|lia]. apply N.neq_0_lt_0. apply N.pow_nonzero. lia.
  - pose proof (long_pos _ _ A). pose proof (long_count _ _ A) as VA. pose proof (entries_length _ _ _ E). pose proof (entries_least _ _ _ E). subst n.
    rewrite map_app, sum_app, !app_length. destruct (length kvs') as [|n] eqn:D.
    + exists (length a). rewrite Nat.add_0_r. split; [lia|]. split; [auto|]. destruct (length kvs); lia.
    + exists (length a + k)%nat. split; [lia|]. split; [|destruct (length kvs + Datatypes.S n)%nat; lia].
      replace (2 * N.of_nat (length kvs + Datatypes.S n)) with (2 * N.of_nat (length kvs) + 2 * N.of_nat (Datatypes.S n)) by lia. apply pow128_sum; auto.
  - pose proof (long_pos _ _ A). pose proof (long_pos _ _ S). pose proof (long_neg_count _ _ A) as VA0.
    pose proof (entries_length _ _ _ E). pose proof (entries_least _ _ _ E). subst n.
    assert (VA : 2 * N.of_nat (length kvs) < 128 ^ N.of_nat (length a + length s)).
    { eapply N.le_lt_trans; [exact VA0|]. apply N.pow_lt_mono_r; lia. }
    rewrite map_app, sum_app, !app_length. destruct (length kvs') as [|n] eqn:D.
    + exists (length a + length s)%nat. rewrite Nat.add_0_r. split; [lia|]. split; [auto|]. destruct (length kvs); lia.
    + exists (length a + length s + k)%nat. split; [lia|]. split; [|destruct (length kvs + Datatypes.S n)%nat; lia].
      replace (2 * N.of_nat (length kvs + Datatypes.S n)) with (2 * N.of_nat (length kvs) + 2 * N.of_nat (Datatypes.S n)) by lia. apply pow128_sum; auto. lia.
Qed.
Lemma file_blocks_least sync a bs : file_blocks sync a bs -> (sum (map (blk_size sync) bs) <= length a)%nat.
Proof.
  induction 1 as [|a n s data rest bs A S F IH]; cbn [map sum length]; [lia|]. rewrite !app_length. unfold blk_size at 1. cbn [fst snd].
  apply long_len in A, S. lia.
Qed.
Lemma container_least bs kvs sync blks : container bs kvs sync blks ->
  (4 + vlen (2 * N.of_nat (length kvs)) + sum (map kv_size kvs) + match length kvs with O => 0 | _ => 1 end + length sync + sum (map (blk_size sync) blks) <= length bs)%nat.
Proof.
  intros C. inversion C as [m k s rest b M L F E]; subst. destruct (map_blocks_least _ _ M) as (j & J & V & LM).
  apply file_blocks_least in F. pose proof (vlen_le _ _ J V). rewrite !app_length.
  change (length (lit "Obj")) with 3%nat. change (length [1]) with 1%nat. lia.
Qed.

(** ** the schema *)
Fixpoint skipw (s : str) : str := match s with c :: s' => if is_ws c then skipw s' else s | [] => [] end.
Lemma skipw_blank s : exists a, s = a ++ skipw s /\ blank a.
Proof.
  induction s as [|c s (a & E & B)]; [exists []; split; [reflexivity|constructor]|]. cbn. destruct (is_ws c) eqn:W.
  - exists (c :: a). cbn. rewrite <- E. split; auto. constructor; auto. now apply is_ws_iff.
  - exists []. split; [reflexivity|constructor].
Qed.
Fixpoint until (s : str) : option (str * str) :=
  match s with
  | [] => None
  | c :: s' => if c =? 34 then Some ([], s') else if c =? 92 then None else match until s' with Some (k, r) => Some (c :: k, r) | None => None end
  end.
Lemma until_plain s k r : until s = Some (k, r) -> s = k ++ 34 :: r /\ plain k.
Proof.
  revert k. induction s as [|c s IH]; intros k; cbn; [discriminate|]. destruct (N.eqb_spec c 34) as [->|A].
  - intros [= <- <-]. split; auto. split; intros [].
  - destruct (N.eqb_spec c 92) as [->|B]; [discriminate|]. destruct (until s) as [[k' r']|]; [|discriminate]. intros [= <- <-].
    destruct (IH _ eq_refl) as [-> [P Q]]. split; auto. split; intros [X|X]; auto.
Qed.
Fixpoint jp (f : nat) (s : str) : option (jtree * str) :=
  match f with
  | O => None
  | S f =>
      match skipw s with
      | c :: r =>
          if c =? 34 then match until r with Some (k, r') => Some (JStr k, skipw r') | None => None end
          else if c =? 91 then match ji f r with Some (xs, d :: r') => if d =? 93 then Some (JArr xs, skipw r') else None | _ => None end
          else if c =? 123 then match jm f r with Some (ps, d :: r') => if d =? 125 then Some (JObj ps, skipw r') else None | _ => None end
          else None
      | [] => None
      end
  end
with ji (f : nat) (s : str) : option (list jtree * str) :=
  match f with
  | O => None
  | S f => match jp f s with
           | Some (x, c :: r) => if c =? 44 then match ji f r with Some (xs, r') => Some (x :: xs, r') | None => None end else Some ([x], c :: r)
           | _ => None
           end
  end
with jm (f : nat) (s : str) : option (list (str * jtree) * str) :=
  match f with
  | O => None
  | S f =>
      match skipw s with
      | q :: r0 =>
          if q =? 34 then
            match until r0 with
            | Some (k, r1) =>
                match skipw r1 with
                | col :: r2 =>
                    if col =? 58 then
                      match jp f r2 with
                      | Some (x, c :: r) => if c =? 44 then match jm f r with Some (xs, r') => Some ((k, x) :: xs, r') | None => None end else Some ([(k, x)], c :: r)
                      | _ => None
                      end
                    else None
                | [] => None
                end
            | None => None
            end
          else None
      | [] => None
      end
  end.
Lemma jp_sound f :
  (forall s x r, jp f s = Some (x, r) -> exists p, s = p ++ r /\ json p x) /\
  (forall s xs r, ji f s = Some (xs, r) -> exists p, s = p ++ r /\ json_items p xs) /\
  (forall s ps r, jm f s = Some (ps, r) -> exists p, s = p ++ r /\ json_members p ps).
Proof.
  induction f as [|f (IHp & IHi & IHm)]; [repeat split; discriminate|]. repeat split; intros s x r; cbn.
  - destruct (skipw_blank s) as (a & E & B). destruct (skipw s) as [|c t]; [discriminate|].
    destruct (N.eqb_spec c 34) as [->|N1]; [|destruct (N.eqb_spec c 91) as [->|N2]; [|destruct (N.eqb_spec c 123) as [->|N3]; [|discriminate]]].
    + destruct (until t) as [[k r']|] eqn:U; [|discriminate]. intros [= <- <-]. destruct (until_plain _ _ _ U) as [-> P].
      destruct (skipw_blank r') as (b & Eb & Bb). exists (a ++ (34 :: k ++ [34]) ++ b). split; [|apply js_blank; auto; now apply js_string].
      rewrite E, Eb at 1. cbn. rewrite <- !app_assoc. cbn. rewrite <- !app_assoc. reflexivity.
    + destruct (ji f t) as [[xs [|d r']]|] eqn:U; try discriminate. destruct (N.eqb_spec d 93) as [->|]; [|discriminate]. intros [= <- <-].
      destruct (IHi _ _ _ U) as (p & -> & J). destruct (skipw_blank r') as (b & Eb & Bb). exists (a ++ (91 :: p ++ [93]) ++ b).
      split; [|apply js_blank; auto; now apply js_array]. rewrite E, Eb at 1. cbn. rewrite <- !app_assoc. cbn. rewrite <- ?app_assoc. reflexivity.
    + destruct (jm f t) as [[xs [|d r']]|] eqn:U; try discriminate. destruct (N.eqb_spec d 125) as [->|]; [|discriminate]. intros [= <- <-].
      destruct (IHm _ _ _ U) as (p & -> & J). destruct (skipw_blank r') as (b & Eb & Bb). exists (a ++ (123 :: p ++ [125]) ++ b).
      split; [|apply js_blank; auto; now apply js_object]. rewrite E, Eb at 1. cbn. rewrite <- !app_assoc. cbn. rewrite <- ?app_assoc. reflexivity.
  - destruct (jp f s) as [[y [|c t]]|] eqn:P; try discriminate. destruct (IHp _ _ _ P) as (p & -> & J). destruct (N.eqb_spec c 44) as [->|].
    + destruct (ji f t) as [[xs r']|] eqn:U; [|discriminate]. intros [= <- <-]. destruct (IHi _ _ _ U) as (q & -> & I).
      exists (p ++ 44 :: q). split; [now rewrite <- app_assoc|now apply ji_more].
    + intros [= <- <-]. exists p. split; auto. now apply ji_last.
  - destruct (skipw_blank s) as (a & E & B). destruct (skipw s) as [|c t]; [discriminate|]. destruct (N.eqb_spec c 34) as [->|]; [|discriminate].
    destruct (until t) as [[k r1]|] eqn:U; [|discriminate]. destruct (until_plain _ _ _ U) as [-> PK].
    destruct (skipw_blank r1) as (b & Eb & Bb). destruct (skipw r1) as [|d r2]; [discriminate|]. destruct (N.eqb_spec d 58) as [->|]; [|discriminate].
    destruct (jp f r2) as [[y [|c t]]|] eqn:P; try discriminate. destruct (IHp _ _ _ P) as (p & -> & J). destruct (N.eqb_spec c 44) as [->|].
    + destruct (jm f t) as [[xs r']|] eqn:V; [|discriminate]. intros [= <- <-]. destruct (IHm _ _ _ V) as (q & -> & I).
      exists (a ++ 34 :: k ++ 34 :: b ++ 58 :: p ++ 44 :: q). split; [|now apply jm_more]. subst. rewrite <- ?app_assoc. cbn. rewrite <- ?app_assoc. cbn.
      rewrite <- ?app_assoc. cbn. rewrite <- ?app_assoc. reflexivity.
    + intros [= <- <-]. exists (a ++ 34 :: k ++ 34 :: b ++ 58 :: p). split; [|now apply jm_last]. subst. rewrite <- ?app_assoc. cbn. rewrite <- ?app_assoc. cbn.
      rewrite <- ?app_assoc. cbn. reflexivity.
Qed.
Local Ltac member := split; [repeat (first [left; reflexivity | right]) |
  let y := fresh in let I := fresh in intros y I; repeat (destruct I as [I|I]; [try discriminate I; try (apply (f_equal snd) in I; cbn in I; now symmetry)|]); destruct I].
Lemma schema_stored : exists j, json schema_text j /\ schema j record_ty.
Proof.
  destruct (jp 400 schema_text) as [[j [|]]|] eqn:E; [|vm_compute in E; discriminate|vm_compute in E; discriminate].
  exists j. split; [destruct (proj1 (jp_sound _) _ _ _ E) as (p & -> & J); now rewrite app_nil_r|].
  vm_compute in E. injection E as <-. unfold record_ty.
  eapply sc_record; [member|member|member|].
  repeat first [apply sf_nil | eapply sf_cons; [member|member|first [apply sc_string | apply sc_long | apply sc_int | apply sc_boolean |
    eapply sc_array; [member|member|first [apply sc_string | eapply sc_array; [member|member|apply sc_string] |
      eapply sc_record; [member|member|member|repeat first [apply sf_nil | eapply sf_cons; [member|member|first [apply sc_string|apply sc_boolean]|]]]]]]|]].
Qed.

(** ** the file *)
Definition full_block (b : batch) : bytes := block (b_records b) (b_name b) (b_thread b) (b_number b).
Definition data_of (b : batch) : bytes := encode_records_from (b_name b) (b_thread b) (b_number b) 0 (b_records b).
Definition metadata : list (bytes * bytes) := map (fun kv => (utf8 (fst kv), utf8 (snd kv))) meta.
Lemma written_all_from bs : forall d, f_data (fold_left (fun f b => writer_write f (b_records b) (b_name b) (b_thread b) (b_number b)) bs (File d [])) =
  d ++ flat_map full_block bs.
Proof.
  induction bs as [|b bs IH]; intros d; cbn [fold_left flat_map]; [now rewrite app_nil_r|]. unfold writer_write at 2. unfold file_write. cbn [f_accept f_data].
  rewrite IH, <- app_assoc. reflexivity.
Qed.
Lemma written_all bs : f_data (written [] bs) = file_header ++ flat_map full_block bs.
Proof. unfold written, writer_new, file_write. cbn [f_accept f_data app]. apply written_all_from. Qed.
Lemma described : describes metadata record_ty.
Proof. destruct schema_stored as (j & J & S). exists schema_text, j. split; [reflexivity|]. auto. Qed.
Lemma header_map : exists m, file_header = lit "Obj" ++ [1] ++ m ++ marker /\ map_blocks m metadata.
Proof.
  exists (encode_long 2 ++ flat_map (fun kv => encode_str (fst kv) ++ encode_str (snd kv)) meta ++ [0]). split.
  - unfold file_header. change (Z.of_nat (length meta)) with 2%Z. change magic with (lit "Obj" ++ [1]). rewrite <- !app_assoc. reflexivity.
  - replace metadata with (metadata ++ []) by apply app_nil_r. apply (mp_block 2); [lia|apply encode_long_ok; lia| |].
    + unfold meta, metadata. cbn [flat_map map fst snd app meta]. rewrite app_nil_r, <- !app_assoc.
      assert (S : forall s, (Z.of_nat (length (utf8 s)) <? 2 ^ 63)%Z = true -> counted_bytes (encode_str s) (utf8 s)).
      { intros s B. apply encode_bytes_ok. lia. }
      apply en_cons; [apply S; vm_compute; reflexivity|apply S; vm_compute; reflexivity|].
      rewrite <- (app_nil_r (encode_str (lit "null"))). apply en_cons; [apply S; vm_compute; reflexivity|apply S; vm_compute; reflexivity|]. apply en_nil.
    + apply mp_end. apply (encode_long_ok 0). lia.
Qed.
Lemma block_len b : (length (data_of b) <= length (full_block b))%nat.
Proof. unfold full_block, block. fold (data_of b). cbv zeta. rewrite !app_length. lia. Qed.
Lemma blocks_framed bs : small (flat_map full_block bs) ->
  file_blocks marker (flat_map full_block bs) (map (fun b => (Z.of_nat (length (b_records b)), data_of b)) bs).
Proof.
  induction bs as [|b bs IH]; intros B; [apply fb_nil|]. cbn [flat_map map] in *. rewrite app_length in B.
  pose proof (records_count (b_name b) (b_thread b) (b_number b) (b_records b) 0) as RC. fold (data_of b) in RC.
  pose proof (block_len b) as D.
  unfold full_block at 1, block. fold (data_of b). cbv zeta. rewrite <- !app_assoc.
  apply fb_cons; [apply encode_long_ok; lia|apply encode_long_ok; lia|]. apply IH. lia.
Qed.
Lemma data_small bs b : small (flat_map full_block bs) -> In b bs -> small (data_of b).
Proof.
  intros B I. assert (L : (length (full_block b) <= length (flat_map full_block bs))%nat).
  { rewrite flat_map_len. apply sum_in. now apply (in_map (fun x => length (full_block x))). }
  pose proof (block_len b). lia.
Qed.
Theorem file_framed bs : Forall fits_batch bs -> small (f_data (written [] bs)) ->
  exists kvs sync blks, container (f_data (written [] bs)) kvs sync blks /\ describes kvs record_ty /\
    Forall2 (holds Counted) bs blks /\ Forall2 (fun b blk => holds Avro b blk <-> Forall no_arrays (b_records b)) bs blks.
Proof.
  intros F B. rewrite written_all in *. rewrite app_length in B. exists metadata, marker, (map (fun b => (Z.of_nat (length (b_records b)), data_of b)) bs).
  assert (BB : small (flat_map full_block bs)) by lia. destruct header_map as (m & E & M). repeat split.
  - rewrite E, <- !app_assoc. apply ct_file; auto. now apply blocks_framed.
  - apply described.
  - assert (H : forall b, In b bs -> holds Counted b (Z.of_nat (length (b_records b)), data_of b)).
    { intros b I. rewrite Forall_forall in F. destruct (F b I) as (T & U & R). split; [reflexivity|].
      now apply (batch_reads (b_name b) (b_thread b) (b_number b) (b_records b) T U R), (data_small bs). }
    clear -H. induction bs as [|b bs IH]; cbn; constructor; [apply H; now left|]. apply IH. intros c I. apply H. now right.
  - assert (H : forall b, In b bs -> (holds Avro b (Z.of_nat (length (b_records b)), data_of b) <-> Forall no_arrays (b_records b))).
    { intros b I. rewrite Forall_forall in F. destruct (F b I) as (T & U & R).
      destruct (batch_reads (b_name b) (b_thread b) (b_number b) (b_records b) T U R (data_small bs b BB I)) as [_ A].
      unfold holds. cbn [fst snd]. fold (data_of b) in A. tauto. }
    clear -H. induction bs as [|b bs IH]; cbn; constructor; [apply H; now left|]. apply IH. intros c I. apply H. now right.
Qed.

(** ** short writes *)
Lemma written_parts_from bs : forall d acc, exists parts, Forall2 (fun i part => taken (nth_error acc (fst i)) (snd i) part) (combine (seq 0 (length bs)) (map full_block bs)) parts /\
  f_data (fold_left (fun f b => writer_write f (b_records b) (b_name b) (b_thread b) (b_number b)) bs (File d acc)) = d ++ concat parts.
Proof.
  assert (T : forall k l acc acc' parts, (forall i, nth_error acc (i + k) = nth_error acc' i) ->
    Forall2 (fun i part => taken (nth_error acc' (fst i)) (snd i) part) (combine (seq 0 (length l)) l) parts ->
    Forall2 (fun i part => taken (nth_error acc (fst i)) (snd i) part) (combine (seq k (length l)) l) parts).
  { intros k l acc acc' parts N. assert (G : forall j parts, Forall2 (fun i part => taken (nth_error acc' (fst i)) (snd i) part) (combine (seq j (length l)) l) parts ->
      Forall2 (fun i part => taken (nth_error acc (fst i)) (snd i) part) (combine (seq (j + k) (length l)) l) parts).
    { clear parts. induction l as [|x l IH]; intros j parts F; cbn in *; inversion F; subst; constructor; [cbn in *; now rewrite N|]. now apply (IH (S j)). }
    apply (G 0%nat). }
  induction bs as [|b bs IH]; intros d acc; [exists []; split; [constructor|now rewrite app_nil_r]|].
  cbn [fold_left]. unfold writer_write at 2. fold (full_block b). unfold file_write. cbn [f_accept f_data].
  destruct acc as [|a acc].
  - destruct (IH (d ++ full_block b) []) as (parts & F & E). exists (full_block b :: parts). split.
    + cbn [length seq map combine]. constructor; [reflexivity|]. rewrite <- (map_length full_block) in *. apply (T 1%nat _ _ []); auto. intros i. now destruct (i + 1)%nat, i.
    + cbn [concat]. rewrite E, app_assoc. reflexivity.
  - assert (N : forall i, nth_error (a :: acc) (i + 1) = nth_error acc i) by (intros i; rewrite Nat.add_1_r; reflexivity).
    destruct a as [n|].
    + destruct (IH (d ++ firstn n (full_block b)) acc) as (parts & F & E). exists (firstn n (full_block b) :: parts). split.
      * cbn [length seq map combine]. constructor; [reflexivity|]. rewrite <- (map_length full_block) in *. now apply (T 1%nat _ _ acc).
      * cbn [concat]. rewrite E, app_assoc. reflexivity.
    + destruct (IH d acc) as (parts & F & E). exists ([] :: parts). split.
      * cbn [length seq map combine]. constructor; [reflexivity|]. rewrite <- (map_length full_block) in *. now apply (T 1%nat _ _ acc).
      * cbn [concat app]. exact E.
Qed.
Lemma written_parts acc bs : exists parts, f_data (written acc bs) = concat parts /\
  Forall2 (fun i part => taken (nth_error acc (fst i)) (snd i) part) (combine (seq 0 (S (length bs))) (file_header :: map full_block bs)) parts.
Proof.
  unfold written, writer_new, file_write. cbn [f_accept f_data app]. cbn [seq combine].
  assert (T : forall (l : list bytes) a (acc : list (option nat)) parts, Forall2 (fun i part => taken (nth_error acc (fst i)) (snd i) part) (combine (seq 0 (length bs)) l) parts ->
    Forall2 (fun i part => taken (nth_error (a :: acc) (fst i)) (snd i) part) (combine (seq 1 (length bs)) l) parts).
  { intros l a c. change 1%nat with (S 0). generalize 0%nat, (length bs). intros k n. revert k l. induction n as [|n IH]; intros k [|x l] parts F; cbn in *; inversion F; subst; constructor; auto. }
  destruct acc as [|a acc].
  - destruct (written_parts_from bs file_header []) as (parts & F & E). exists (file_header :: parts). cbn [concat]. split; [exact E|].
    constructor; [reflexivity|]. revert F. generalize (map full_block bs). generalize 0%nat at 1. generalize 1%nat. generalize (length bs). clear.
    intros n i j l. revert i j l parts. induction n as [|n IH]; intros i j [|x l] parts F; cbn [seq combine] in *; inversion F; subst; constructor; [|now apply (IH _ (S j))].
    cbn [fst snd] in *. now destruct i, j.
  - destruct a as [n|].
    + destruct (written_parts_from bs (firstn n file_header) acc) as (parts & F & E). exists (firstn n file_header :: parts). cbn [concat]. split; [exact E|].
      constructor; [reflexivity|]. now apply (T _ (Some n)) in F.
    + destruct (written_parts_from bs [] acc) as (parts & F & E). exists ([] :: parts). cbn [concat app]. split; [exact E|].
      constructor; [reflexivity|]. now apply (T _ None) in F.
Qed.
Theorem short_writes acc bs : exists fulls parts, length fulls = S (length bs) /\
  (forall i, (i <= length bs)%nat -> f_data (written [] (firstn i bs)) = concat (firstn (S i) fulls)) /\
  f_data (written acc bs) = concat parts /\
  Forall2 (fun i part => taken (nth_error acc (fst i)) (snd i) part) (combine (seq 0 (length fulls)) fulls) parts.
Proof.
  destruct (written_parts acc bs) as (parts & E & F). exists (file_header :: map full_block bs), parts. cbn [length]. rewrite map_length. repeat split; auto.
  intros i _. rewrite written_all. cbn [firstn concat]. f_equal. rewrite firstn_map, flat_map_concat_map. reflexivity.
Qed.
Lemma taken_len a full part : taken a full part -> (length part <= length full)%nat /\ (length part = length full -> part = full).
Proof.
  destruct a as [[n|]|]; cbn; intros ->.
  - rewrite firstn_length. split; [lia|]. intros H. apply firstn_all2. lia.
  - cbn. split; [lia|]. destruct full; [auto|discriminate].
  - auto.
Qed.
Lemma taken_all acc : forall k (fulls parts : list bytes), Forall2 (fun i part => taken (nth_error acc (fst i)) (snd i) part) (combine (seq k (length fulls)) fulls) parts ->
  (length (concat parts) <= length (concat fulls))%nat /\ (length (concat parts) = length (concat fulls) -> parts = fulls).
Proof.
  intros k fulls. revert k. induction fulls as [|f fulls IH]; intros k parts F; cbn in F; inversion F; subst; [auto|].
  cbn [concat]. rewrite !app_length. destruct (IH _ _ H3) as [L Q]. cbn in H1. destruct (taken_len _ _ _ H1) as [L1 Q1]. split; [lia|].
  intros X. rewrite (Q1 ltac:(lia)), (Q ltac:(lia)). reflexivity.
Qed.
Lemma vlen_mono a b : a <= b -> b < 2 ^ 64 -> (vlen a <= vlen b)%nat.
Proof.
  intros L B. apply vlen_le; [apply vlen_pos|]. eapply N.le_lt_trans; [exact L|]. pose proof (varint_bound _ _ (encode_variable_varint _ B)) as [_ V]. exact V.
Qed.
Lemma block_size_least bs blks : small (flat_map full_block bs) -> Forall fits_batch bs -> Forall2 (holds Counted) bs blks ->
  Forall (fun blk => small (snd blk)) blks -> (length (flat_map full_block bs) <= sum (map (blk_size marker) blks))%nat.
Proof.
  intros B F H. revert B. induction H as [|b [n data] bs blks [H1 H2] HS IH]; intros B S; [cbn; lia|].
  cbn [flat_map map sum] in *. rewrite app_length in *. inversion F; subst. inversion S; subst.
  cbn [fst snd] in *. subst n. assert (IH' := IH H4 ltac:(lia) H6). clear IH.
  destruct H3 as (T & U & R). pose proof (block_len b) as BL.
  destruct (reading_least Counted) as (_ & L & _ & _). apply L in H2. clear L.
  change (d_batch (b_name b) (b_thread b) (b_number b) (b_records b)) with (batch_from 0 (b_name b) (b_thread b) (b_number b) (b_records b)) in H2.
  rewrite records_least in H2; [|auto|fold (data_of b); lia]. fold (data_of b) in H2.
  unfold blk_size at 1. cbn [fst snd]. unfold full_block at 1, block. fold (data_of b). cbv zeta. rewrite !app_length.
  rewrite (count_len (length (data_of b))), (count_len (length data)) by lia.
  assert (V : (vlen (2 * N.of_nat (length (data_of b))) <= vlen (2 * N.of_nat (length data)))%nat) by (apply vlen_mono; lia). lia.
Qed.
Lemma file_blocks_small sync a bs : file_blocks sync a bs -> Forall (fun blk => small (snd blk)) bs.
Proof. induction 1; constructor; auto. cbn. apply long_range in H0. lia. Qed.
Theorem lost_iff acc bs kvs sync blks : Forall fits_batch bs -> small (f_data (written [] bs)) -> container (f_data (written [] bs)) kvs sync blks ->
  ((exists blks', container (f_data (written acc bs)) kvs sync blks' /\ Forall2 (holds Counted) bs blks') <-> f_data (written acc bs) = f_data (written [] bs)).
Proof.
  intros F B C. assert (K : container (f_data (written [] bs)) metadata marker (map (fun b => (Z.of_nat (length (b_records b)), data_of b)) bs)).
  { rewrite written_all in *. rewrite app_length in B. destruct header_map as (m & E & M). rewrite E, <- !app_assoc. apply ct_file; auto. apply blocks_framed. lia. }
  destruct (container_unique _ _ _ _ _ _ _ C K) as (-> & -> & ->). split.
  - intros (blks & C' & H). destruct (written_parts acc bs) as (parts & E & T).
    replace (S (length bs)) with (length (file_header :: map full_block bs)) in T by (cbn [length]; now rewrite map_length).
    destruct (taken_all _ _ _ _ T) as [L Q]. rewrite E in *. rewrite written_all in *. cbn [concat] in Q, L. rewrite <- flat_map_concat_map in Q, L. rewrite Q; [cbn [concat]; now rewrite <- flat_map_concat_map|].
    apply Nat.le_antisymm; auto. rewrite app_length in *.
    assert (SB : Forall (fun blk => small (snd blk)) blks). { inversion C'; subst. eapply file_blocks_small. eassumption. }
    pose proof (container_least _ _ _ _ C') as CL.
    pose proof (block_size_least bs blks ltac:(lia) F H SB) as BL.
    assert (HL : length file_header = (4 + vlen (2 * N.of_nat (length metadata)) + sum (map kv_size metadata) + match length metadata with O => 0 | _ => 1 end + length marker)%nat) by (vm_compute; reflexivity).
    lia.
  - intros ->. exists (map (fun b => (Z.of_nat (length (b_records b)), data_of b)) bs). split; auto.
    destruct (file_framed bs F B) as (k & s & b & CC & _ & H & _). destruct (container_unique _ _ _ _ _ _ _ K CC) as (_ & _ & ->). exact H.
Qed.

(** ** as stated *)
Theorem long_decoded z rest : (- 2 ^ 63 <= z < 2 ^ 63)%Z -> (1 <= length (encode_long z) <= 10)%nat /\ long (encode_long z) z /\
  forall a y r, encode_long z ++ rest = a ++ r -> long a y -> a = encode_long z /\ y = z /\ r = rest.
Proof.
  intros R. pose proof (encode_long_ok z R) as L. split; [split; [now apply long_pos in L|apply vlen_10]|]. split; auto.
  intros a y r E LA. destruct (long_prefix _ _ _ _ _ _ L LA E) as (-> & -> & ->). auto.
Qed.
Theorem bytes_decoded b rest : small b -> counted_bytes (encode_bytes b) b /\
  forall a c r, encode_bytes b ++ rest = a ++ r -> counted_bytes a c -> a = encode_bytes b /\ c = b /\ r = rest.
Proof.
  intros R. pose proof (encode_bytes_ok b R) as L. split; auto.
  intros a y r E LA. destruct (counted_prefix _ _ _ _ _ _ L LA E) as (-> & -> & ->). auto.
Qed.
(** a text is found again by a reader that decodes the bytes as UTF-8 *)
Theorem text_decoded s rest : scalars s -> small (utf8 s) -> counted_bytes (encode_str s) (utf8 s) /\ utf8_decode (utf8 s) = Some s /\
  forall a c t r, encode_str s ++ rest = a ++ r -> counted_bytes a c -> utf8_decode c = Some t -> t = s /\ r = rest.
Proof.
  intros S B. destruct (bytes_decoded (utf8 s) rest B) as [D U]. split; [exact D|]. split; [now apply decode_encode|].
  intros a c t r E C T. destruct (U _ _ _ E C) as (_ & -> & ->). rewrite decode_encode in T by auto. injection T as <-. auto.
Qed.
Theorem file_holds bs : Forall fits_batch bs -> small (f_data (written [] bs)) ->
  exists kvs sync blks, container (f_data (written [] bs)) kvs sync blks /\ describes kvs record_ty /\ Forall2 (holds Counted) bs blks.
Proof. intros F B. destruct (file_framed bs F B) as (k & s & b & C & D & H & _). now exists k, s, b. Qed.
Theorem schema_reading bs kvs sync blks : Forall fits_batch bs -> small (f_data (written [] bs)) -> container (f_data (written [] bs)) kvs sync blks ->
  describes kvs record_ty /\ Forall2 (fun b blk => items Avro record_ty (snd blk) (d_batch (b_name b) (b_thread b) (b_number b) (b_records b)) <-> Forall no_arrays (b_records b)) bs blks.
Proof.
  intros F B C. destruct (file_framed bs F B) as (k & s & b & C' & D & H & H'). destruct (container_unique _ _ _ _ _ _ _ C C') as (-> & -> & ->). split; auto.
  clear -H H'. induction H as [|x y bs b [N _] HS IH]; inversion H'; subst; constructor; auto. unfold holds in *. tauto.
Qed.
Lemma d_batch_length name thread number rs : length (d_batch name thread number rs) = length rs.
Proof. unfold d_batch. rewrite map_length, combine_length, seq_length. lia. Qed.
Theorem nothing_lost bs bs' : Forall fits_batch bs -> Forall fits_batch bs' -> small (f_data (written [] bs)) -> f_data (written [] bs) = f_data (written [] bs') ->
  map (fun b => d_batch (b_name b) (b_thread b) (b_number b) (b_records b)) bs = map (fun b => d_batch (b_name b) (b_thread b) (b_number b) (b_records b)) bs'.
Proof.
  intros F F' B E. assert (B' : small (f_data (written [] bs'))) by now rewrite <- E.
  destruct (file_holds bs F B) as (k & s & b & C & _ & H). destruct (file_holds bs' F' B') as (k' & s' & b' & C' & _ & H').
  rewrite E in C. destruct (container_unique _ _ _ _ _ _ _ C C') as (-> & -> & ->). clear -H H'.
  revert bs' H'. induction H as [|x y bs b [N I] HS IH]; intros bs' H'; inversion H'; subst; [reflexivity|]. cbn [map]. destruct H2 as [N' I'].
  f_equal; [|now apply IH]. apply (items_unique Counted record_ty (snd y)); auto. rewrite !d_batch_length. lia.
Qed.
Lemma nth_batch name thread number rs i r : nth_error rs i = Some r -> nth_error (d_batch name thread number rs) i = Some (d_record name thread number (N.of_nat i) r).
Proof.
  unfold d_batch. assert (G : forall k i, nth_error rs i = Some r -> nth_error (map (fun p => d_record name thread number (N.of_nat (fst p)) (snd p)) (combine (seq k (length rs)) rs)) i =
    Some (d_record name thread number (N.of_nat (k + i)) r)).
  { clear. induction rs as [|x rs IH]; intros k [|i] H; cbn in H; try discriminate.
    - injection H as ->. cbn [length seq combine map nth_error fst snd]. now rewrite Nat.add_0_r.
    - cbn [length seq combine map nth_error]. rewrite (IH (S k) i H). now rewrite Nat.add_succ_r. }
  intros H. now rewrite (G 0%nat i H).
Qed.
Theorem stamped bs kvs sync blks : Forall fits_batch bs -> small (f_data (written [] bs)) -> container (f_data (written [] bs)) kvs sync blks ->
  Forall2 (fun b blk => exists ds, items Counted record_ty (snd blk) ds /\ fst blk = Z.of_nat (length ds) /\ length ds = length (b_records b) /\
    forall i d, nth_error ds i = Some d -> exists fs, d = DRecord fs /\
      nth_error fs 0 = Some (lit "name", DString (utf8 (b_name b))) /\ nth_error fs 1 = Some (lit "thread", DInt (Z.of_N (b_thread b))) /\
      nth_error fs 2 = Some (lit "number", DInt (Z.of_N (b_number b))) /\ nth_error fs 3 = Some (lit "order", DInt (Z.of_nat i))) bs blks.
Proof.
  intros F B C. destruct (file_holds bs F B) as (k & s & b & C' & D & H). destruct (container_unique _ _ _ _ _ _ _ C C') as (-> & -> & ->).
  clear -H. induction H as [|x y bs b [N I] HS IH]; constructor; auto.
  exists (d_batch (b_name x) (b_thread x) (b_number x) (b_records x)). rewrite d_batch_length. repeat split; auto.
  intros i d E. assert (L : (i < length (b_records x))%nat) by (rewrite <- (d_batch_length (b_name x) (b_thread x) (b_number x)); apply nth_error_Some; congruence).
  destruct (nth_error (b_records x) i) as [r|] eqn:R; [|apply nth_error_None in R; lia]. rewrite (nth_batch _ _ _ _ _ _ R) in E. injection E as <-.
  eexists. split; [reflexivity|]. repeat split. cbn [nth_error]. unfold d_num. now rewrite nat_N_Z.
Qed.
