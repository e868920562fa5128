(** Concrete batches *)
From Verif Require Import SpecWriter WriterProofs AvroProofs RecordProofs ContainerProofs HttpExamples.
Open Scope N_scope.

Definition bare : record := Record_ (lit "r") (Time 5 9 4 1 1 1 0 1) (Request Get (Url Http (lit "h") 80 (lit "/")) Http11 [] []) (Response (lit "HTTP/1.1") 200 (lit "OK") [] (lit "x")) [] [].
Definition full : record := Record_ (lit "q") (Time 5 9 4 1 1 1 0 1) (Request Get (Url Http (lit "h") 80 (lit "/")) Http11 [(lit "A", lit "b")] []) (Response (lit "HTTP/1.1") 200 (lit "OK") [] (lit "x"))
  [Assert (lit "1 == 2") (lit "1") (lit "==") (lit "2") false] [].
Definition batches : list batch := [Batch (lit "t") 1 7 [bare; full]; Batch (lit "t") 1 8 []; Batch (lit "u") 0 300 [bare]].
Lemma batches_fit : Forall fits_batch batches.
Proof.
  assert (A : forall r, In r [bare; full] -> fits r).
  { intros r [<-|[<-|[]]]; (split; [repeat (apply Forall_cons; [vm_compute; reflexivity|]); apply Forall_nil|vm_compute; reflexivity]). }
  repeat (apply Forall_cons || apply Forall_nil); (split; [vm_compute; reflexivity|split; [vm_compute; reflexivity|]]); repeat (apply Forall_cons || apply Forall_nil); apply A; cbn; auto.
Qed.
Lemma batches_small : small (f_data (written [] batches)).
Proof. apply Z.ltb_lt. vm_compute. reflexivity. Qed.
Lemma long_examples : encode_long 0 = [0] /\ encode_long (-1) = [1] /\ encode_long 64 = [128; 1] /\
  encode_long (- 2 ^ 63) = [255; 255; 255; 255; 255; 255; 255; 255; 255; 1].
Proof. vm_compute. repeat split. Qed.
(** the Avro encoding of one header would end with two bytes 0 *)
Lemma header_example : encode_headers [(lit "A", lit "b")] = [2; 4; 2; 65; 2; 98] /\
  reads Avro (TArray (TArray TString)) [2; 4; 2; 65; 2; 98; 0; 0] (d_headers [(lit "A", lit "b")]).
Proof.
  split; [vm_compute; reflexivity|]. apply rd_array; auto.
  assert (L : forall z bs, (- 2 ^ 63 <= z < 2 ^ 63)%Z -> encode_long z = bs -> long bs z) by (intros z bs R <-; now apply encode_long_ok).
  assert (S : forall c, reads Avro TString [2; c] (DString [c])) by (intros c; apply rd_string; exists [2]; split; auto; apply L; [cbn; lia|reflexivity]).
  apply (bl_block _ (TArray TString) [2] [4; 2; 65; 2; 98; 0] [0] [_] []); [discriminate|apply L; [cbn; lia|reflexivity]| |apply bl_end, L; [lia|reflexivity]].
  apply (it_cons _ _ [4; 2; 65; 2; 98; 0] [] _ []); [|apply it_nil]. apply rd_array; auto.
  apply (bl_block _ TString [4] [2; 65; 2; 98] [0] [_; _] []); [discriminate|apply L; [cbn; lia|reflexivity]| |apply bl_end, L; [lia|reflexivity]].
  apply (it_cons _ _ [2; 65] [2; 98]); [apply S|]. apply (it_cons _ _ [2; 98] []); [apply S|apply it_nil].
Qed.
Lemma short_example : f_data (written [Some 3%nat; None; Some 0%nat; Some 1%nat] batches) = lit "Obj" ++ [2].
Proof. vm_compute. reflexivity. Qed.
