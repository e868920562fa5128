(** What the encoded records read as *)
From Verif Require Import SpecWriter WriterProofs AvroProofs WireProofs.
From Coq Require Import ZifyBool ZifyN ZifyNat.
Open Scope N_scope.

Notation small b := (Z.of_nat (length b) < 2 ^ 63)%Z.
Lemma str_ok m s : small (encode_str s) -> reads m TString (encode_str s) (d_str s).
Proof. intros H. apply rd_string. apply encode_bytes_ok. unfold encode_str, encode_bytes in H. rewrite app_length in H. lia. Qed.
Lemma num_ok m n : n < 2 ^ 63 -> reads m TLong (encode_long (Z.of_N n)) (d_num n).
Proof. intros H. apply rd_long. apply encode_long_ok. lia. Qed.
Lemma nanos_id n : n < 2 ^ 63 -> nanos n = Z.of_N n.
Proof. intros H. unfold nanos, wrap64. rewrite Z.mod_small; lia. Qed.
Lemma status_ok m n : n < 2 ^ 16 -> reads m TInt (encode_long (Z.of_N n)) (d_num n).
Proof. intros H. apply rd_int; [|lia]. apply encode_long_ok. lia. Qed.
Lemma long_len_pos z : (1 <= length (encode_long z))%nat.
Proof. apply vlen_pos. Qed.
Lemma count_len n : (Z.of_nat n < 2 ^ 63)%Z -> length (encode_long (Z.of_nat n)) = vlen (2 * N.of_nat n).
Proof.
  intros H. unfold encode_long. rewrite zigzag_spec by lia. destruct (Z.leb_spec 0 (Z.of_nat n)); [|lia].
  replace (Z.to_N (2 * Z.of_nat n)) with (2 * N.of_nat n) by lia. reflexivity.
Qed.
Lemma flat_map_len {A} (f : A -> bytes) xs : length (flat_map f xs) = sum (map (fun x => length (f x)) xs).
Proof. induction xs; cbn [flat_map map sum]; [reflexivity|]. rewrite app_length. lia. Qed.
Lemma sum_in (l : list nat) n : In n l -> (n <= sum l)%nat.
Proof. induction l as [|x l IH]; cbn [sum]; intros []; [lia|]. specialize (IH H). lia. Qed.
Lemma sum_ge {A} (f : A -> nat) xs : (forall x, In x xs -> 1 <= f x)%nat -> (length xs <= sum (map f xs))%nat.
Proof. induction xs as [|x xs IH]; cbn [length map sum]; intros H; [lia|]. pose proof (H x (or_introl eq_refl)). specialize (IH (fun y I => H y (or_intror I))). lia. Qed.
Lemma items_map {A} m t (e : A -> bytes) (d : A -> datum) xs : Forall (fun x => reads m t (e x) (d x)) xs -> items m t (flat_map e xs) (map d xs).
Proof. induction 1; cbn; [apply it_nil|]. now apply it_cons. Qed.

(** ** arrays *)
Definition header_datum (h : header) : datum := DArray [d_str (fst h); d_str (snd h)].
Lemma two_ok : long (encode_long 2) 2. Proof. apply encode_long_ok. lia. Qed.
Lemma header_ok h : small (encode_header h) -> reads Counted (TArray TString) (encode_header h) (header_datum h).
Proof.
  intros H. unfold encode_header in *. rewrite !app_length in H. apply rd_counted; [reflexivity|apply two_ok|].
  rewrite <- (app_nil_r (encode_str (snd h))). apply it_cons; [apply str_ok; lia|]. apply it_cons; [apply str_ok; lia|]. apply it_nil.
Qed.
Lemma header_len_pos h : (1 <= length (encode_header h))%nat.
Proof. unfold encode_header. rewrite app_length. pose proof (long_len_pos 2). lia. Qed.
Lemma headers_count hs : small (encode_headers hs) -> (Z.of_nat (length hs) < 2 ^ 63)%Z.
Proof.
  unfold encode_headers. rewrite app_length, flat_map_len. pose proof (sum_ge (fun x => length (encode_header x)) hs (fun x _ => header_len_pos x)). lia.
Qed.
Lemma headers_ok hs : small (encode_headers hs) -> reads Counted (TArray (TArray TString)) (encode_headers hs) (d_headers hs).
Proof.
  intros H. pose proof (headers_count _ H) as C. apply rd_counted; [reflexivity|rewrite map_length; apply encode_long_ok; split; [apply (Z.le_trans _ 0); [lia|apply Nat2Z.is_nonneg]|exact C]|].
  apply items_map. apply Forall_forall. intros h I. apply header_ok. unfold encode_headers in H. rewrite app_length, flat_map_len in H.
  pose proof (sum_in (map (fun x => length (encode_header x)) hs) (length (encode_header h)) (in_map (fun x => length (encode_header x)) hs h I)). lia.
Qed.
Lemma headers_least m hs : small (encode_headers hs) -> least m (d_headers hs) =
  (length (encode_headers hs) + mark m (length hs) + length hs * mark m 2)%nat.
Proof.
  intros H. pose proof (headers_count _ H) as C. unfold encode_headers, d_headers. cbn [least]. rewrite map_length, app_length, flat_map_len, (count_len _ C), map_map.
  assert (E : sum (map (fun x => least m (DArray [d_str (fst x); d_str (snd x)])) hs) = (sum (map (fun x => length (encode_header x)) hs) + length hs * mark m 2)%nat).
  { clear. induction hs as [|h hs IH]; [reflexivity|]. cbn [map sum length Nat.mul]. rewrite IH. unfold encode_header. rewrite !app_length.
    cbn [least map sum length]. change (vlen (2 * N.of_nat 2)) with (length (encode_long 2)). change (least m (d_str (fst h))) with (length (encode_str (fst h))).
    change (least m (d_str (snd h))) with (length (encode_str (snd h))). unfold d_str. cbn [least]. unfold encode_str. lia. }
  rewrite E. unfold header. lia.
Qed.
Definition assert_ty : ty := TRecord [(lit "expr", TString); (lit "left", TString); (lit "compare", TString); (lit "right", TString); (lit "result", TBool)].
Lemma assert_ok m a : small (encode_assert a) -> reads m assert_ty (encode_assert a) (d_assert a).
Proof.
  intros H. unfold encode_assert in *. rewrite !app_length in H. apply rd_record.
  do 4 (apply mb_cons; [apply str_ok; lia|]). rewrite <- (app_nil_r (encode_bool _)). apply mb_cons; [apply rd_bool|apply mb_nil].
Qed.
Lemma assert_least m a : least m (d_assert a) = length (encode_assert a).
Proof. unfold encode_assert, d_assert, encode_str. rewrite !app_length. cbn [least map sum snd length d_str]. unfold d_str. cbn [least]. unfold encode_bool. cbn [length]. lia. Qed.
Lemma assert_len_pos a : (1 <= length (encode_assert a))%nat.
Proof. unfold encode_assert. rewrite !app_length. cbn [length encode_bool]. lia. Qed.
Definition encode_asserts (l : list assertion) : bytes := encode_long (Z.of_nat (length l)) ++ flat_map encode_assert l.
Lemma asserts_count l : small (encode_asserts l) -> (Z.of_nat (length l) < 2 ^ 63)%Z.
Proof.
  unfold encode_asserts. rewrite app_length, flat_map_len. pose proof (sum_ge (fun x => length (encode_assert x)) l (fun x _ => assert_len_pos x)). lia.
Qed.
Lemma asserts_ok l : small (encode_asserts l) -> reads Counted (TArray assert_ty) (encode_asserts l) (DArray (map d_assert l)).
Proof.
  intros H. pose proof (asserts_count _ H) as C. apply rd_counted; [reflexivity|rewrite map_length; apply encode_long_ok; split; [apply (Z.le_trans _ 0); [lia|apply Nat2Z.is_nonneg]|exact C]|].
  apply items_map. apply Forall_forall. intros a I. apply assert_ok. unfold encode_asserts in H. rewrite app_length, flat_map_len in H.
  pose proof (sum_in (map (fun x => length (encode_assert x)) l) (length (encode_assert a)) (in_map (fun x => length (encode_assert x)) l a I)). lia.
Qed.
Lemma asserts_least m l : small (encode_asserts l) -> least m (DArray (map d_assert l)) = (length (encode_asserts l) + mark m (length l))%nat.
Proof.
  intros H. pose proof (asserts_count _ H) as C. unfold encode_asserts. cbn [least]. rewrite map_length, app_length, flat_map_len, (count_len _ C), map_map.
  rewrite (map_ext _ _ (assert_least m)). lia.
Qed.
Lemma empty_array m t : reads m (TArray t) (encode_long 0) (DArray []).
Proof.
  destruct m.
  - apply rd_array; auto. apply bl_end. apply encode_long_ok. lia.
  - rewrite <- (app_nil_r (encode_long 0)). apply rd_counted; auto; [apply (encode_long_ok 0); lia|apply it_nil].
Qed.

(** ** records *)
Lemma url_text_shown u : url_text u = url_shown u.
Proof. unfold url_text, url_shown. now destruct (u_scheme u). Qed.
Lemma method_text_shown x : method_text x = method_name x.
Proof. now destruct x. Qed.
Lemma version_text_shown x : version_text x = version_name x.
Proof. now destruct x. Qed.
Definition marks (m : mode) (r : record) : nat :=
  mark m (length (rq_headers (r_request r))) + length (rq_headers (r_request r)) * mark m 2 +
  mark m (length (rs_headers (r_response r))) + length (rs_headers (r_response r)) * mark m 2 + mark m (length (r_asserts r)).
Lemma encode_record_eq name thread number order r : fits r -> encode_record name thread number order r =
  let t := r_time r in let rq := r_request r in let rs := r_response r in
  encode_str name ++ encode_long (Z.of_N thread) ++ encode_long (Z.of_N number) ++ encode_long (Z.of_N (N.of_nat order))
  ++ encode_long (Z.of_N (t_start t)) ++ encode_long (Z.of_N (t_end t)) ++ encode_long (Z.of_N (t_total t))
  ++ encode_long (Z.of_N (t_resolve t)) ++ encode_long (Z.of_N (t_connect t)) ++ encode_long (Z.of_N (t_write t))
  ++ encode_long (Z.of_N (t_delay t)) ++ encode_long (Z.of_N (t_read t))
  ++ encode_str (r_name r) ++ encode_str (method_name (rq_method rq)) ++ encode_str (url_shown (rq_url rq)) ++ encode_str (version_name (rq_version rq))
  ++ encode_headers (rq_headers rq) ++ encode_str (rq_body rq)
  ++ encode_str (rs_version rs) ++ encode_long (Z.of_N (rs_status rs)) ++ encode_str (rs_reason rs)
  ++ encode_headers (rs_headers rs) ++ encode_str (rs_body rs)
  ++ encode_asserts (r_asserts r) ++ encode_str (r_error r) ++ [].
Proof.
  intros [F _]. cbv zeta. unfold encode_record. cbv zeta.
  rewrite !Forall_cons_iff in F. destruct F as (F1 & F2 & F3 & F4 & F5 & F6 & F7 & F8 & _).
  rewrite !nanos_id by assumption. rewrite url_text_shown, method_text_shown, version_text_shown, nat_N_Z. unfold encode_asserts.
  rewrite app_nil_r, <- !app_assoc. reflexivity.
Qed.
Lemma record_reads m name thread number order r : fits r -> thread < 2 ^ 32 -> number < 2 ^ 32 -> (Z.of_nat order < 2 ^ 63)%Z ->
  small (encode_record name thread number order r) -> m = Counted \/ no_arrays r ->
  reads m record_ty (encode_record name thread number order r) (d_record name thread number (N.of_nat order) r).
Proof.
  intros F T U O B A. rewrite encode_record_eq in * by auto. cbv zeta in *.
  assert (AH : forall hs, m = Counted \/ hs = [] -> small (encode_headers hs) -> reads m (TArray (TArray TString)) (encode_headers hs) (d_headers hs)).
  { intros hs [-> | ->] S; [now apply headers_ok|]. apply empty_array. }
  assert (AA : forall l, m = Counted \/ l = [] -> small (encode_asserts l) -> reads m (TArray assert_ty) (encode_asserts l) (DArray (map d_assert l))).
  { intros hs [-> | ->] S; [now apply asserts_ok|]. apply empty_array. }
  assert (A' : (m = Counted \/ rq_headers (r_request r) = []) /\ (m = Counted \/ rs_headers (r_response r) = []) /\ (m = Counted \/ r_asserts r = [])).
  { unfold no_arrays in A. tauto. }
  clear A. destruct A' as (A1 & A2 & A3). destruct F as [F FS].
  rewrite !Forall_cons_iff in F. destruct F as (F1 & F2 & F3 & F4 & F5 & F6 & F7 & F8 & _).
  rewrite !app_length in B. apply rd_record.
  repeat (apply mb_cons; [first [apply str_ok; lia | apply num_ok; lia | apply status_ok; lia | apply AH; [assumption|lia] | apply AA; [assumption|lia]]|]).
  apply mb_nil.
Qed.
Lemma record_least m name thread number order r : fits r -> small (encode_record name thread number order r) ->
  least m (d_record name thread number (N.of_nat order) r) = (length (encode_record name thread number order r) + marks m r)%nat.
Proof.
  intros F B. rewrite encode_record_eq in * by auto. cbv zeta in *. rewrite !app_length in *.
  assert (S1 : small (encode_headers (rq_headers (r_request r)))) by lia.
  assert (S2 : small (encode_headers (rs_headers (r_response r)))) by lia.
  assert (S3 : small (encode_asserts (r_asserts r))) by lia.
  unfold d_record. cbv zeta. cbn [least].
  change (forall f, least m (d_str f) = length (encode_str f)) with (forall f, length (encode_bytes (utf8 f)) = length (encode_str f)).
  cbn [map sum snd]. rewrite (headers_least m _ S1), (headers_least m _ S2), (asserts_least m _ S3).
  assert (D : forall s, least m (d_str s) = length (encode_str s)) by reflexivity. rewrite !D.
  assert (I : forall n, least m (d_num n) = length (encode_long (Z.of_N n))) by reflexivity. rewrite !I.
  unfold marks. cbn [length]. lia.
Qed.
Lemma marks_zero r : marks Avro r = 0%nat <-> no_arrays r.
Proof.
  unfold marks, no_arrays. destruct (rq_headers (r_request r)), (rs_headers (r_response r)), (r_asserts r); cbn; split; intros; try lia; try (destruct H as (? & ? & ?); discriminate); auto.
Qed.
Lemma marks_counted r : marks Counted r = 0%nat.
Proof. unfold marks. cbn. lia. Qed.

(** ** batches *)
Lemma records_len name thread number rs : forall order, sum (map (fun p => length (encode_record name thread number (fst p) (snd p))) (combine (seq order (length rs)) rs)) =
  length (encode_records_from name thread number order rs).
Proof. induction rs as [|r rs IH]; intros order; cbn [length seq combine map sum encode_records_from fst snd]; [reflexivity|]. rewrite IH, app_length. lia. Qed.
Lemma record_len_pos name thread number order r : (1 <= length (encode_record name thread number order r))%nat.
Proof. unfold encode_record. cbv zeta. rewrite !app_length. pose proof (long_len_pos (Z.of_N thread)). lia. Qed.
Lemma records_count name thread number rs : forall order, (length rs <= length (encode_records_from name thread number order rs))%nat.
Proof.
  induction rs as [|r rs IH]; intros order; cbn [length encode_records_from]; [lia|]. rewrite app_length.
  pose proof (record_len_pos name thread number order r). specialize (IH (S order)). lia.
Qed.
Definition batch_from (order : nat) (name : str) (thread number : N) (rs : list record) : list datum :=
  map (fun p => d_record name thread number (N.of_nat (fst p)) (snd p)) (combine (seq order (length rs)) rs).
Lemma records_read m name thread number rs : thread < 2 ^ 32 -> number < 2 ^ 32 -> Forall fits rs -> m = Counted \/ Forall no_arrays rs ->
  forall order, (Z.of_nat order + Z.of_nat (length (encode_records_from name thread number order rs)) < 2 ^ 63)%Z ->
  items m record_ty (encode_records_from name thread number order rs) (batch_from order name thread number rs).
Proof.
  intros T U. induction rs as [|r rs IH]; intros F A order B; [apply it_nil|].
  cbn [encode_records_from] in *. rewrite app_length in B. pose proof (record_len_pos name thread number order r).
  inversion F; subst. unfold batch_from. cbn [length seq combine map fst snd]. apply it_cons.
  - apply record_reads; auto; [lia|lia|]. destruct A as [A|A]; [auto|inversion A; auto].
  - apply IH; auto; [|lia]. destruct A as [A|A]; [auto|inversion A; auto].
Qed.
Lemma records_least m name thread number rs : Forall fits rs ->
  forall order, (Z.of_nat (length (encode_records_from name thread number order rs)) < 2 ^ 63)%Z ->
  sum (map (least m) (batch_from order name thread number rs)) = (length (encode_records_from name thread number order rs) + sum (map (marks m) rs))%nat.
Proof.
  induction rs as [|r rs IH]; intros F order B; [reflexivity|].
  cbn [encode_records_from] in *. rewrite app_length in *. inversion F; subst. unfold batch_from. cbn [length seq combine map fst snd sum].
  rewrite record_least by (auto; lia). fold (batch_from (S order) name thread number rs). rewrite IH by (auto; lia). lia.
Qed.
Theorem batch_reads name thread number rs : thread < 2 ^ 32 -> number < 2 ^ 32 -> Forall fits rs -> small (encode_records_from name thread number 0 rs) ->
  items Counted record_ty (encode_records_from name thread number 0 rs) (d_batch name thread number rs) /\
  (items Avro record_ty (encode_records_from name thread number 0 rs) (d_batch name thread number rs) <-> Forall no_arrays rs).
Proof.
  intros T U F B. split; [apply (records_read Counted); auto; cbn; lia|]. split.
  - intros I. destruct (reading_least Avro) as (_ & L & _ & _). apply L in I. change (d_batch name thread number rs) with (batch_from 0 name thread number rs) in I.
    rewrite records_least in I by auto. apply Forall_forall. intros r IN. apply marks_zero.
    pose proof (sum_in _ _ (in_map (marks Avro) _ _ IN)). lia.
  - intros A. now apply (records_read Avro); auto.
Qed.
