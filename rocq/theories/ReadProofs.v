(** A response does not depend on how it arrives *)
From Verif Require Import SpecRead TextProofs ResponseProofs.
Open Scope N_scope.

(** how an ending is taken: None when nothing ever comes *)
Definition fin (t : transport) (bye : option str) (e : ending) : option (option str) :=
  match e with
  | Closed => Some None
  | Silent => None
  | Broke k x =>
      match t, k with
      | Plain, _ => Some (Some x)
      | Cipher _, ConnectionAborted => Some bye
      | Cipher _, UnexpectedEof => Some None
      | Cipher _, OtherKind => Some (Some x)
      end
  end.
Lemma fin_ended t bye e r : fin t bye e = Some r <-> ended t bye e r.
Proof.
  split.
  - destruct e as [|k x|]; cbn; [intros [= <-]; constructor| |discriminate].
    destruct t as [|h]; [intros [= <-]; constructor; reflexivity|].
    destruct k; intros [= <-]; econstructor; reflexivity.
  - intros H. destruct H as [|k x ->|h x ->|h x ->|h x ->]; cbn; try reflexivity.
Qed.
Lemma fin_silent t bye e : fin t bye e = None <-> e = Silent.
Proof. destruct e as [|k x|]; cbn; split; try congruence. destruct t, k; congruence. Qed.

Definition size (w : incoming) : nat := list_sum (map arrival_size (w_arrivals w)).

Lemma stream_read_cases t bye n w : (0 < n)%nat ->
  (w_arrivals w = [] /\ stream_read t bye n w =
     (match fin t bye (w_ending w) with None => Waits | Some None => Got [] | Some (Some e) => NotGot e end, w)) \/
  (exists e w', w_arrivals w = Interrupt e :: w_arrivals w' /\ stream_read t bye n w = (Again e, w') /\ arrived (w_arrivals w') = arrived (w_arrivals w) /\
     w_ending w' = w_ending w /\ size w = S (size w')) \/
  (exists c cs w' bs r, w_arrivals w = Piece c bs :: r /\ stream_read t bye n w = (Got (c :: cs), w') /\ arrived (w_arrivals w) = (c :: cs) ++ arrived (w_arrivals w') /\
     w_ending w' = w_ending w /\ size w = (length (c :: cs) + size w')%nat).
Proof.
  intros Hn. destruct w as [l en]. unfold stream_read. cbn [w_arrivals w_ending].
  destruct l as [|[b bs|e] rest].
  - left. split; [reflexivity|]. unfold fin. destruct en as [|k x|]; try reflexivity.
    destruct t; [reflexivity|]. destruct k; try reflexivity.
  - right; right. destruct n as [|n]; [lia|]. cbn [firstn skipn].
    pose proof (firstn_skipn n bs) as FS.
    destruct (skipn n bs) as [|c cs] eqn:E.
    + exists b, (firstn n bs), (Incoming rest en), bs, rest. rewrite app_nil_r in FS. rewrite !FS.
      repeat split; try reflexivity.
    + exists b, (firstn n bs), (Incoming (Piece c cs :: rest) en), bs, rest.
      repeat split; try reflexivity.
      * cbn [w_arrivals arrived]. rewrite <- FS at 1. cbn [app]. rewrite <- app_assoc. reflexivity.
      * unfold size. cbn [w_arrivals map arrival_size]. rewrite !list_sum_cons || cbn [list_sum fold_right].
        rewrite <- FS at 1. rewrite app_length. cbn [length]. unfold list_sum. lia.
  - right; left. exists e, (Incoming rest en). repeat split; try reflexivity.
Qed.

(** reading with the end taken as [f] says; [inr None]: waiting *)
Definition line_of (f : option (option str)) (bs : bytes) : (str * bytes) + option str :=
  let (a, b) := span (fun c => negb (c =? 10)) bs in
  match b with
  | nl :: rest => match utf8_decode (a ++ [nl]) with Some l => inl (l, rest) | None => inr (Some invalid_utf8) end
  | [] =>
      match f with
      | None => inr None
      | Some (Some e) => inr (Some e)
      | Some None => match utf8_decode a with Some l => inl (l, []) | None => inr (Some invalid_utf8) end
      end
  end.
Fixpoint headers_of (fuel : nat) (f : option (option str)) (bs : bytes) : (list header * bytes) + option str :=
  match fuel with
  | O => inr (Some [])
  | S n =>
      match line_of f bs with
      | inr e => inr e
      | inl (line, r) =>
          match trim line with
          | [] => inl ([], r)
          | _ => match headers_of n f r with
                 | inr e => inr e
                 | inl (hs, r') => inl (match split_once 58 line with Some (n, v) => (trim n, trim v) :: hs | None => hs end, r')
                 end
          end
      end
  end.
Definition body_of (f : option (option str)) (bs : bytes) : str + option str :=
  match f with
  | None => inr None
  | Some (Some e) => inr (Some e)
  | Some None => match utf8_decode bs with Some s => inl s | None => inr (Some invalid_utf8) end
  end.
Definition response_as (f : option (option str)) (bs : bytes) : response + option str :=
  match line_of f bs with
  | inr e => inr e
  | inl (line, r) =>
      match headers_of (S (length r)) f r with
      | inr e => inr e
      | inl (hs, r') =>
          match body_of f r' with
          | inr e => inr e
          | inl body => inl (Response (parse_text (nth_error (split_whitespace line) 0)) (parse_u16 (nth_error (split_whitespace line) 1))
                            (parse_text (nth_error (split_whitespace line) 2)) hs body)
          end
      end
  end.

Lemma decode_nil : utf8_decode [] = Some [].
Proof. reflexivity. Qed.
Lemma decode_cons bs l : utf8_decode bs = Some l -> l <> [] -> bs <> [].
Proof. intros H N ->. rewrite decode_nil in H. congruence. Qed.

Lemma line_length f bs l r : line_of f bs = inl (l, r) -> l <> [] -> (length r < length bs)%nat.
Proof.
  unfold line_of. destruct (span (fun c => negb (c =? 10)) bs) as [a rest] eqn:E.
  destruct (span_spec _ _ _ _ E) as (Q & _). apply (f_equal (@length _)) in Q. rewrite app_length in Q.
  destruct rest as [|nl rest].
  - destruct f as [[e|]|]; try discriminate. destruct (utf8_decode a) as [s|] eqn:D; [|discriminate]. intros [= <- <-] N.
    pose proof (decode_cons _ _ D N) as NE. destruct a; [exfalso; apply NE; reflexivity|]. cbn [length] in *. unfold bytes, byte, char in *. lia.
  - destruct (utf8_decode (a ++ [nl])); [|discriminate]. intros [= <- <-] _. cbn [length] in *. unfold bytes, byte, char in *. lia.
Qed.

Definition told {A} (x : A + option str) : option (A + http_err) :=
  match x with inl a => Some (inl a) | inr (Some e) => Some (inr (ReadFailed e)) | inr None => None end.

Section Sim.
Variable t : transport.
Variable bye : option str.
Variable cap : nat.
Hypothesis Hcap : (0 < cap)%nat.

Definition content (b : bufreader) : bytes := br_ahead b ++ arrived (w_arrivals (br_wire b)).
Definition same_end (b b' : bufreader) : Prop := w_ending (br_wire b') = w_ending (br_wire b).

Lemma span_app_all p (a b : bytes) x : span p a = (x, []) -> span p (a ++ b) = (let (y, z) := span p b in (a ++ y, z)).
Proof.
  revert x. induction a as [|c a IH]; intros x H.
  - cbn. destruct (span p b); reflexivity.
  - cbn in H |- *. destruct (p c) eqn:E; [|discriminate].
    destruct (span p a) as [u v] eqn:F. inversion H; subst. rewrite (IH u eq_refl). destruct (span p b); reflexivity.
Qed.
Lemma span_app_hit p (a b : bytes) x y r : span p a = (x, y :: r) -> span p (a ++ b) = (x, y :: r ++ b).
Proof.
  revert x. induction a as [|c a IH]; intros x H; [discriminate|].
  cbn in H |- *. destruct (p c) eqn:E.
  - destruct (span p a) as [u v] eqn:F. inversion H; subst. rewrite (IH u eq_refl). reflexivity.
  - inversion H; subst. reflexivity.
Qed.
Lemma span_all_left p (a : bytes) x : span p a = (x, []) -> x = a.
Proof. intros H. destruct (span_spec _ _ _ _ H) as (E & _). rewrite app_nil_r in E. auto. Qed.

Lemma until_sim : forall fuel acc b, (left_over b + 1 < fuel)%nat ->
  let (a, rest) := span (fun c => negb (c =? 10)) (content b) in
  match rest with
  | nl :: r => exists b', read_until t bye cap fuel acc b = RDone (acc ++ a ++ [nl]) b' /\ content b' = r /\ same_end b b' /\ (left_over b' < left_over b)%nat
  | [] =>
      match fin t bye (w_ending (br_wire b)) with
      | None => read_until t bye cap fuel acc b = RWaits
      | Some (Some e) => read_until t bye cap fuel acc b = RFail e
      | Some None => exists b', read_until t bye cap fuel acc b = RDone (acc ++ a) b' /\ content b' = [] /\ same_end b b' /\ left_over b' = O
      end
  end.
Proof.
  induction fuel as [|fuel IH]; intros acc b Hf; [lia|].
  destruct b as [ahead w]. unfold content, left_over in *. cbn [br_ahead br_wire] in *.
  (* available bytes [x :: xs] in front *)
  assert (AV : forall x xs w', (length (x :: xs) + size w' + 1 < S fuel)%nat -> w_ending w' = w_ending w ->
    (length (x :: xs) + size w' <= length ahead + size w)%nat ->
    let k := (let (a, rest) := span (fun c => negb (c =? 10)) (x :: xs) in
          match rest with
          | nl :: rest' => RDone (acc ++ a ++ [nl]) (Br rest' w')
          | [] => read_until t bye cap fuel (acc ++ a) (Br [] w')
          end) in
    let (a, rest) := span (fun c => negb (c =? 10)) ((x :: xs) ++ arrived (w_arrivals w')) in
    match rest with
    | nl :: r => exists b', k = RDone (acc ++ a ++ [nl]) b' /\ br_ahead b' ++ arrived (w_arrivals (br_wire b')) = r /\ same_end (Br ahead w) b' /\ (length (br_ahead b') + size (br_wire b') < length ahead + size w)%nat
    | [] =>
      match fin t bye (w_ending w) with
      | None => k = RWaits
      | Some (Some e) => k = RFail e
      | Some None => exists b', k = RDone (acc ++ a) b' /\ br_ahead b' ++ arrived (w_arrivals (br_wire b')) = [] /\ same_end (Br ahead w) b' /\ (length (br_ahead b') + size (br_wire b') = 0)%nat
      end
    end).
  { intros x xs w' Hs He Hle. cbv zeta.
    destruct (span (fun c => negb (c =? 10)) (x :: xs)) as [a rest] eqn:E.
    destruct rest as [|nl r].
    - rewrite (span_app_all _ _ _ _ E). pose proof (span_all_left _ _ _ E) as ->.
      specialize (IH (acc ++ x :: xs) (Br [] w')). unfold content in IH. cbn [br_ahead br_wire app] in IH.
      assert (L : (left_over (Br [] w') + 1 < fuel)%nat) by (unfold left_over; cbn [br_ahead br_wire length] in *; fold (size w'); lia).
      specialize (IH L). destruct (span (fun c => negb (c =? 10)) (arrived (w_arrivals w'))) as [a' rest'].
      rewrite He in IH. destruct rest' as [|nl r].
      + destruct (fin t bye (w_ending w)) as [[e|]|]; auto.
        destruct IH as (b' & K & C & S1 & S2). exists b'. rewrite K, <- app_assoc. repeat split; auto.
        * unfold same_end in *. cbn [br_wire] in *. congruence.
      + destruct IH as (b' & K & C & S1 & S2). exists b'. rewrite K, <- !app_assoc. repeat split; auto.
        * unfold same_end in *. cbn [br_wire] in *. congruence.
        * unfold left_over in S2. cbn [br_ahead br_wire length] in S2. unfold size in *. lia.
    - rewrite (span_app_hit _ _ _ _ _ _ E). exists (Br r w'). cbn [br_ahead br_wire]. repeat split; auto.
      destruct (span_spec _ _ _ _ E) as (Q & _). apply (f_equal (@length _)) in Q. rewrite app_length in Q. cbn [length] in Q, Hle.
      unfold bytes, byte, char in *. lia. }
  cbn [read_until]. unfold fill_buf. cbn [br_ahead br_wire].
  destruct ahead as [|x xs].
  - cbn [app length] in *. destruct (stream_read_cases t bye cap w Hcap) as [(A & R)|[(e & w' & A & R & B & E & Sz)|(c & cs & w' & bs & r & A & R & B & E & Sz)]]; rewrite R.
    + rewrite A. cbn [arrived span]. destruct (fin t bye (w_ending w)) as [[e|]|]; try reflexivity.
      exists (Br [] w). cbn [br_ahead br_wire]. rewrite A, app_nil_r. cbn. repeat split; auto.
    + specialize (IH acc (Br [] w')). unfold content, left_over in IH. cbn [br_ahead br_wire app length] in IH.
      assert (L : (0 + list_sum (map arrival_size (w_arrivals w')) + 1 < fuel)%nat) by (fold (size w'); unfold size in *; lia).
      specialize (IH L). rewrite B in IH. destruct (span _ (arrived (w_arrivals w))) as [a rest]. rewrite E in IH.
      destruct rest as [|nl rest].
      * destruct (fin t bye (w_ending w)) as [[e'|]|]; auto.
        destruct IH as (b' & K & C & S1 & S2). exists b'. repeat split; auto.
        unfold same_end in *. cbn [br_wire] in *. congruence.
      * destruct IH as (b' & K & C & S1 & S2). exists b'. repeat split; auto.
        -- unfold same_end in *. cbn [br_wire] in *. congruence.
        -- unfold size in *. lia.
    + rewrite B. cbn [br_wire]. apply (AV c cs w'); auto; unfold size, bytes, byte, char in *; cbn [length] in *; lia.
  - apply (AV x xs w); auto; unfold size, bytes, byte, char in *; cbn [length] in *; lia.
Qed.


Lemma left_content b : (length (content b) <= left_over b)%nat.
Proof.
  destruct b as [ahead w]. unfold content, left_over. cbn [br_ahead br_wire]. rewrite app_length.
  apply Nat.add_le_mono_l. destruct w as [l en]. cbn [w_arrivals]. induction l as [|[c cs|e] l IH]; [cbn; lia| |].
  - cbn [arrived map arrival_size length]. rewrite app_length. unfold list_sum in *. cbn [fold_right]. unfold bytes, byte, char in *. lia.
  - cbn [arrived map arrival_size]. unfold list_sum in *. cbn [fold_right]. lia.
Qed.

Lemma line_sim b :
  match line_of (fin t bye (w_ending (br_wire b))) (content b) with
  | inl (l, r) => exists b', buf_read_line t bye cap b = RDone l b' /\ content b' = r /\ same_end b b' /\
                    (left_over b' <= left_over b)%nat /\ (l <> [] -> (left_over b' < left_over b)%nat)
  | inr (Some x) => buf_read_line t bye cap b = RFail x
  | inr None => buf_read_line t bye cap b = RWaits
  end.
Proof.
  unfold line_of, buf_read_line. pose proof (until_sim (S (S (left_over b))) [] b ltac:(lia)) as U.
  pose proof (left_content b) as LC.
  destruct (span (fun c => negb (c =? 10)) (content b)) as [a rest] eqn:E.
  destruct (span_spec _ _ _ _ E) as (Q & _). apply (f_equal (@length _)) in Q. rewrite app_length in Q.
  destruct rest as [|nl r].
  - destruct (fin t bye (w_ending (br_wire b))) as [[e|]|].
    + rewrite U. reflexivity.
    + destruct U as (b' & -> & C & S1 & S2). cbn [app]. destruct (utf8_decode a) as [l|] eqn:D; [|reflexivity].
      exists b'. repeat split; auto; [lia|]. intros N. pose proof (decode_cons _ _ D N) as NE. destruct a; [exfalso; apply NE; reflexivity|].
      rewrite S2. cbn [length] in Q. unfold bytes, byte, char in *. lia.
    + rewrite U. reflexivity.
  - destruct U as (b' & -> & C & S1 & S2). cbn [app]. destruct (utf8_decode (a ++ [nl])) as [l|]; [|reflexivity].
    exists b'. repeat split; auto; lia.
Qed.

Lemma headers_sim : forall fuel b n, (left_over b < fuel)%nat -> (length (content b) < n)%nat ->
  match headers_of n (fin t bye (w_ending (br_wire b))) (content b) with
  | inl (hs, r) => exists b', buf_read_headers t bye cap fuel b = RDone hs b' /\ content b' = r /\ same_end b b'
  | inr (Some x) => buf_read_headers t bye cap fuel b = RFail x
  | inr None => buf_read_headers t bye cap fuel b = RWaits
  end.
Proof.
  induction fuel as [|fuel IH]; intros b n Hf Hn; [lia|]. destruct n as [|n]; [lia|].
  cbn [headers_of buf_read_headers]. pose proof (line_sim b) as L.
  pose proof (line_length (fin t bye (w_ending (br_wire b))) (content b)) as LL.
  destruct (line_of (fin t bye (w_ending (br_wire b))) (content b)) as [[l r]|[x|]].
  - destruct L as (b' & -> & C & S1 & S2 & S3). destruct (trim l) as [|c cs] eqn:T.
    + exists b'. auto.
    + assert (N : l <> []) by (intros ->; cbv in T; discriminate).
      specialize (S3 N). specialize (LL l r eq_refl N). subst r. specialize (IH b' n ltac:(lia) ltac:(lia)).
      unfold same_end in S1. rewrite S1 in IH.
      destruct (headers_of n (fin t bye (w_ending (br_wire b))) (content b')) as [[hs r']|[x|]].
      * destruct IH as (b'' & -> & C' & S1'). unfold same_end in *.
        destruct (split_once 58 l) as [[nm v]|]; exists b''; repeat split; auto; congruence.
      * rewrite IH. reflexivity.
      * rewrite IH. reflexivity.
  - rewrite L. reflexivity.
  - rewrite L. reflexivity.
Qed.

Lemma rest_sim sz : forall fuel acc w, (size w + 1 < fuel)%nat ->
  match fin t bye (w_ending w) with
  | None => read_rest t bye sz fuel acc w = RWaits
  | Some (Some e) => read_rest t bye sz fuel acc w = RFail e
  | Some None => exists b', read_rest t bye sz fuel acc w = RDone (acc ++ arrived (w_arrivals w)) b'
  end.
Proof.
  induction fuel as [|fuel IH]; intros acc w Hf; [lia|]. cbn [read_rest].
  destruct (stream_read_cases t bye (S (sz (S fuel))) w ltac:(lia)) as [(A & R)|[(e & w' & A & R & B & E & Sz)|(c & cs & w' & bs & r & A & R & B & E & Sz)]]; rewrite R.
  - rewrite A. cbn [arrived]. rewrite app_nil_r. destruct (fin t bye (w_ending w)) as [[e|]|]; eauto.
  - specialize (IH acc w' ltac:(lia)). rewrite E, B in IH. exact IH.
  - cbn [length] in Sz. specialize (IH (acc ++ c :: cs) w' ltac:(lia)). rewrite E in IH.
    destruct (fin t bye (w_ending w)) as [[e|]|]; auto. destruct IH as (b' & K). exists b'. rewrite K, B, <- app_assoc. reflexivity.
Qed.

Lemma body_sim sz b :
  match body_of (fin t bye (w_ending (br_wire b))) (content b) with
  | inl s => exists b', buf_read_to_string t bye sz b = RDone s b'
  | inr (Some x) => buf_read_to_string t bye sz b = RFail x
  | inr None => buf_read_to_string t bye sz b = RWaits
  end.
Proof.
  unfold body_of, buf_read_to_string.
  assert (L : (size (br_wire b) + 1 < S (S (left_over b)))%nat) by (unfold left_over; fold (size (br_wire b)); lia).
  pose proof (rest_sim sz (S (S (left_over b))) (br_ahead b) (br_wire b) L) as H.
  destruct (fin t bye (w_ending (br_wire b))) as [[e|]|].
  - rewrite H. reflexivity.
  - destruct H as (b' & ->). fold (content b). destruct (utf8_decode (content b)); eauto.
  - rewrite H. reflexivity.
Qed.

Lemma response_sim sz w : undisturbed w -> response_read t bye cap sz w = told (response_as (fin t bye (w_ending w)) (arrived (w_arrivals w))).
Proof.
  intros Hu. unfold response_read, fill_buf. cbn [br_ahead br_wire].
  assert (K : forall b, content b = arrived (w_arrivals w) -> w_ending (br_wire b) = w_ending w ->
    match buf_read_line t bye cap b with
      | RDone line b1 =>
          match buf_read_headers t bye cap (S (S (left_over b1))) b1 with
          | RDone hs b2 =>
              match buf_read_to_string t bye sz b2 with
              | RDone body _ =>
                  Some (inl (Response (parse_text (nth_error (split_whitespace line) 0)) (parse_u16 (nth_error (split_whitespace line) 1))
                                      (parse_text (nth_error (split_whitespace line) 2)) hs body))
              | RFail e => Some (inr (ReadFailed e))
              | RWaits | RFuel => None
              end
          | RFail e => Some (inr (ReadFailed e))
          | RWaits | RFuel => None
          end
      | RFail e => Some (inr (ReadFailed e))
      | RWaits | RFuel => None
      end = told (response_as (fin t bye (w_ending w)) (arrived (w_arrivals w)))).
  { intros b C E. unfold response_as. pose proof (line_sim b) as L. rewrite C, E in L.
    destruct (line_of (fin t bye (w_ending w)) (arrived (w_arrivals w))) as [[line r]|[x|]]; [|rewrite L; reflexivity|rewrite L; reflexivity].
    destruct L as (b1 & -> & C1 & E1 & _ & _). unfold same_end in E1. subst r.
    pose proof (headers_sim (S (S (left_over b1))) b1 (S (length (content b1))) ltac:(lia) ltac:(lia)) as H. rewrite E1, E in H.
    destruct (headers_of (S (length (content b1))) (fin t bye (w_ending w)) (content b1)) as [[hs r]|[x|]]; [|rewrite H; reflexivity|rewrite H; reflexivity].
    destruct H as (b2 & -> & C2 & E2). unfold same_end in E2. subst r.
    pose proof (body_sim sz b2) as B. rewrite E2, E1, E in B.
    destruct (body_of (fin t bye (w_ending w)) (content b2)) as [s|[x|]]; [|rewrite B; reflexivity|rewrite B; reflexivity].
    destruct B as (b3 & ->). reflexivity. }
  destruct (stream_read_cases t bye cap w Hcap) as [(A & R)|[(e & w' & A & R & B & E & Sz)|(c & cs & w' & bs & r & A & R & B & E & Sz)]]; rewrite R.
  - destruct (fin t bye (w_ending w)) as [[e|]|] eqn:F.
    + rewrite A. unfold response_as, line_of. cbn [arrived span]. reflexivity.
    + apply K; [|reflexivity]. unfold content. cbn [br_ahead br_wire]. reflexivity.
    + rewrite A. unfold response_as, line_of. cbn [arrived span]. reflexivity.
  - unfold undisturbed in Hu. rewrite A in Hu. destruct Hu.
  - apply K; [|exact E]. unfold content. cbn [br_ahead br_wire]. symmetry. exact B.
Qed.
End Sim.

(** the same on all bytes at once *)
Lemma line_all e bs : read_line (Reader bs e) = match line_of (Some e) bs with inl (l, r) => inl (l, Reader r e) | inr (Some x) => inr (ReadFailed x) | inr None => inr (ReadFailed []) end.
Proof.
  unfold read_line, line_of. cbn [rd_bytes rd_end]. destruct (span _ bs) as [a [|nl rest]].
  - destruct e; [reflexivity|]. destruct (utf8_decode a); reflexivity.
  - destruct (utf8_decode (a ++ [nl])); reflexivity.
Qed.
Lemma line_decided e bs : line_of (Some e) bs <> inr None.
Proof. unfold line_of. destruct (span _ bs) as [a [|nl rest]]; [destruct e; [|destruct (utf8_decode a)]|destruct (utf8_decode (a ++ [nl]))]; congruence. Qed.
Lemma headers_all n : forall e bs, read_header_lines n (Reader bs e) =
  match headers_of n (Some e) bs with inl (hs, r) => inl (hs, Reader r e) | inr (Some x) => inr (ReadFailed x) | inr None => inr (ReadFailed []) end.
Proof.
  induction n as [|n IH]; intros e bs; [reflexivity|]. cbn [read_header_lines headers_of]. rewrite line_all.
  destruct (line_of (Some e) bs) as [[l r]|[x|]]; [|reflexivity|reflexivity].
  destruct (trim l); [reflexivity|]. rewrite IH. destruct (headers_of n (Some e) r) as [[hs r']|[x|]]; [|reflexivity|reflexivity].
  destruct (split_once 58 l) as [[? ?]|]; reflexivity.
Qed.
Lemma headers_decided n : forall e bs, headers_of n (Some e) bs <> inr None.
Proof.
  induction n as [|n IH]; intros e bs; [discriminate|]. cbn [headers_of]. pose proof (line_decided e bs).
  destruct (line_of (Some e) bs) as [[l r]|[x|]]; try congruence. destruct (trim l); [discriminate|].
  specialize (IH e r). destruct (headers_of n (Some e) r) as [[hs r']|[x|]]; congruence.
Qed.
Lemma response_all e bs : told (response_as (Some e) bs) = Some (response_from (Reader bs e)).
Proof.
  unfold response_from, response_as. rewrite line_all. pose proof (line_decided e bs).
  destruct (line_of (Some e) bs) as [[l r]|[x|]]; [|reflexivity|congruence]. cbn [rd_bytes]. rewrite headers_all.
  pose proof (headers_decided (S (length r)) e r). destruct (headers_of (S (length r)) (Some e) r) as [[hs r']|[x|]]; [|reflexivity|congruence].
  unfold read_to_string, body_of. cbn [rd_end rd_bytes]. destruct e; [reflexivity|]. destruct (utf8_decode r'); reflexivity.
Qed.

(** waiting instead of failing *)
Lemma line_silent bs x : (exists p, line_of None bs = inl p /\ line_of (Some (Some x)) bs = inl p) \/
  (line_of None bs = inr (Some invalid_utf8) /\ line_of (Some (Some x)) bs = inr (Some invalid_utf8)) \/
  (line_of None bs = inr None /\ line_of (Some (Some x)) bs = inr (Some x)).
Proof. unfold line_of. destruct (span _ bs) as [a [|nl rest]]; [auto|]. destruct (utf8_decode (a ++ [nl])); eauto. Qed.
Lemma headers_silent x : forall n bs, (length bs < n)%nat -> (exists p, headers_of n None bs = inl p /\ headers_of n (Some (Some x)) bs = inl p) \/
  (headers_of n None bs = inr (Some invalid_utf8) /\ headers_of n (Some (Some x)) bs = inr (Some invalid_utf8)) \/
  (headers_of n None bs = inr None /\ headers_of n (Some (Some x)) bs = inr (Some x)).
Proof.
  induction n as [|n IH]; intros bs L; [lia|]. cbn [headers_of].
  destruct (line_silent bs x) as [([l r] & E1 & E2)|[(E1 & E2)|(E1 & E2)]]; rewrite E1, E2; [|auto|auto].
  destruct (trim l) as [|c cs] eqn:T; [eauto|].
  assert (N : l <> []) by (intros ->; cbv in T; discriminate). pose proof (line_length _ _ _ _ E1 N).
  destruct (IH r ltac:(lia)) as [([hs r'] & F1 & F2)|[(F1 & F2)|(F1 & F2)]]; rewrite F1, F2; eauto.
Qed.
Lemma response_silent bs x : (response_as None bs = inr (Some invalid_utf8) /\ response_as (Some (Some x)) bs = inr (Some invalid_utf8)) \/
  response_as None bs = inr None.
Proof.
  unfold response_as. destruct (line_silent bs x) as [([l r] & E1 & E2)|[(E1 & E2)|(E1 & E2)]]; rewrite E1, E2; [|auto|auto].
  destruct (headers_silent x (S (length r)) r ltac:(lia)) as [([hs r'] & F1 & F2)|[(F1 & F2)|(F1 & F2)]]; rewrite F1, F2; [|auto|auto].
  cbn [body_of]. auto.
Qed.

Theorem read_pieces t bye cap sz w e : (0 < cap)%nat -> undisturbed w -> ended t bye (w_ending w) e ->
  response_read t bye cap sz w = Some (response_from (Reader (arrived (w_arrivals w)) e)).
Proof. intros Hc Hu He. rewrite response_sim by assumption. apply fin_ended in He. rewrite He. apply response_all. Qed.

Theorem read_received t bye cap sz w r : (0 < cap)%nat -> undisturbed w -> ended t bye (w_ending w) None ->
  response_read t bye cap sz w = Some (inl r) <-> response_of (arrived (w_arrivals w)) r.
Proof.
  intros Hc Hu He. rewrite (read_pieces _ _ _ _ _ _ Hc Hu He), <- response_iff. split; [intros [= H]; exact H|intros ->; reflexivity].
Qed.

Theorem read_alike t bye cap sz w t' bye' cap' sz' w' e : (0 < cap)%nat -> (0 < cap')%nat -> undisturbed w -> undisturbed w' ->
  ended t bye (w_ending w) e -> ended t' bye' (w_ending w') e -> arrived (w_arrivals w) = arrived (w_arrivals w') ->
  response_read t bye cap sz w = response_read t' bye' cap' sz' w'.
Proof. intros. rewrite (read_pieces t bye cap sz w e), (read_pieces t' bye' cap' sz' w' e) by assumption. congruence. Qed.

Theorem read_interrupted t bye cap sz x l en : response_read t bye cap sz (Incoming (Interrupt x :: l) en) = Some (inr (ReadFailed x)).
Proof. reflexivity. Qed.

Lemma ended_or t bye en : en = Silent \/ exists e, ended t bye en e.
Proof.
  destruct en as [|k x|]; [right; exists None; constructor| |auto].
  right. destruct t as [|host]; [exists (Some x); constructor; reflexivity|].
  destruct k; eexists; econstructor; reflexivity.
Qed.

Theorem read_ends t bye cap sz w r : (0 < cap)%nat -> response_read t bye cap sz w = Some (inl r) -> ended t bye (w_ending w) None.
Proof.
  intros Hc H. assert (Hu : undisturbed w). { destruct w as [[|[? ?|x] l] en]; try exact I. discriminate H. }
  destruct (ended_or t bye (w_ending w)) as [E|([x|] & E)]; auto.
  - rewrite response_sim in H by assumption. rewrite (proj2 (fin_silent t bye _) E) in H.
    destruct (response_silent (arrived (w_arrivals w)) []) as [(R & _)|R]; rewrite R in H; discriminate.
  - rewrite (read_pieces _ _ _ _ _ _ Hc Hu E) in H. destruct (response_broken (arrived (w_arrivals w)) x) as (u & R & _).
    rewrite R in H. discriminate.
Qed.

Theorem read_returns t bye cap sz w : (0 < cap)%nat -> w_ending w <> Silent -> response_read t bye cap sz w <> None.
Proof.
  intros Hc N. destruct (ended_or t bye (w_ending w)) as [E|(e & E)]; [contradiction|].
  destruct w as [[|[b bs|x] l] en]; [| |discriminate]; rewrite (read_pieces t bye cap sz _ e Hc); try exact E; try exact I; discriminate.
Qed.

Theorem read_waits t bye cap sz w s : (0 < cap)%nat -> undisturbed w -> w_ending w = Silent -> scalars s -> utf8 s = arrived (w_arrivals w) ->
  response_read t bye cap sz w = None.
Proof.
  intros Hc Hu E Hs V. rewrite response_sim by assumption. rewrite (proj2 (fin_silent t bye _) E).
  assert (X : exists x : str, x <> invalid_utf8) by (exists []; discriminate). destruct X as (x & X).
  destruct (response_silent (arrived (w_arrivals w)) x) as [(_ & R)|R]; [|rewrite R; reflexivity].
  pose proof (response_all (Some x) (arrived (w_arrivals w))) as A. rewrite R in A. cbn [told] in A.
  destruct (response_broken (arrived (w_arrivals w)) x) as (u & B & D). rewrite B in A. injection A as <-.
  destruct D as [D|(_ & D)]; [congruence|]. exfalso. exact (D s Hs V).
Qed.

Theorem read_broken t bye cap sz w x : (0 < cap)%nat -> undisturbed w -> ended t bye (w_ending w) (Some x) ->
  exists u, response_read t bye cap sz w = Some (inr (ReadFailed u)) /\
    (u = x \/ (u = lit "stream did not contain valid UTF-8" /\ forall s, scalars s -> utf8 s <> arrived (w_arrivals w))).
Proof.
  intros Hc Hu E. destruct (response_broken (arrived (w_arrivals w)) x) as (u & R & D). exists u.
  rewrite (read_pieces _ _ _ _ _ _ Hc Hu E), R. auto.
Qed.

(** a response in four pieces with interruptions, ended without a goodbye *)
Definition cut : list arrival :=
  [Piece 72 (lit "TTP/1.1 20"); Interrupt (lit "x"); Piece 48 (lit " OK
A: b"); Piece 10 []; Interrupt (lit "y"); Piece 10 (lit "hi")].
Lemma cut_example : undisturbed (Incoming cut (Broke UnexpectedEof (lit "eof"))) /\
  ended (Cipher (lit "a.com")) None (Broke UnexpectedEof (lit "eof")) None /\
  response_of (arrived cut) (Response (lit "HTTP/1.1") 200 (lit "OK") [(lit "A", lit "b")] (lit "hi")) /\
  response_read (Cipher (lit "a.com")) None 3 (fun n => n) (Incoming cut (Broke UnexpectedEof (lit "eof"))) =
    Some (inl (Response (lit "HTTP/1.1") 200 (lit "OK") [(lit "A", lit "b")] (lit "hi"))) /\
  response_read Plain None 3 (fun n => n) (Incoming cut (Broke UnexpectedEof (lit "eof"))) = Some (inr (ReadFailed (lit "eof"))).
Proof.
  split; [exact I|]. split; [econstructor; reflexivity|]. split; [apply response_iff; vm_compute; reflexivity|].
  split; vm_compute; reflexivity.
Qed.
Lemma kept_open_example : undisturbed (Incoming cut Silent) /\ scalars (arrived cut) /\ utf8 (arrived cut) = arrived cut /\
  response_read Plain None 3 (fun n => n) (Incoming cut Silent) = None.
Proof.
  split; [exact I|]. split; [|split; vm_compute; reflexivity].
  unfold scalars. repeat constructor; vm_compute; try reflexivity; intuition discriminate.
Qed.
