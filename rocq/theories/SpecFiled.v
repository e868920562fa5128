(** What the record files of a run of a suite hold *)
From Verif Require Export SpecWhole SpecWriter.
Open Scope N_scope.

(** durations and clock readings are below 292 years *)
Definition quick (w : env) : Prop := forall tr msg rq rs t er, client_send (e_prepare w) (e_net w tr msg) msg = Ok (rq, rs, t, er) ->
  Forall (fun d => d < 2 ^ 63) [t_start t; t_end t; t_total t; t_resolve t; t_connect t; t_write t; t_delay t; t_read t].
(** [report_on name as_ ns text]: the report about a request of this name, these assertions and this duration *)
Definition report_on (name : str) (as_ : list assertion) (ns : N) (text : str) : Prop := exists verdict d,
  text = lit "=== TEST  " ++ name ++ [10] ++
    flat_map (fun a => a_expr a ++ lit " => " ++ a_left a ++ lit " " ++ a_compare a ++ lit " " ++ a_right a ++ lit " => " ++ (if a_result a then lit "true" else lit "false") ++ [10]) as_ ++
    lit "--- " ++ verdict ++ lit "  " ++ name ++ lit " (" ++ d ++ lit ")" ++ [10] /\ duration_text ns d /\
  (Forall (fun a => a_result a = true) as_ /\ verdict = lit "PASS" \/ Exists (fun a => a_result a = false) as_ /\ verdict = lit "FAIL").
(** [tells w tr t id k i q r text x]: the datum [x] says what request [q], sent after the events [tr] as number [i] of
    iteration [k] of test [t] in thread [id], looked like, what came back and when, and what was printed about it *)
Definition tells (w : env) (tr : list event) (t : str) (id k i : N) (q : demand) (r : response) (text : str) (x : datum) : Prop := exists rq tm er as_,
  client_send (e_prepare w) (e_net w tr (d_message q)) (d_message q) = Ok (rq, r, tm, er) /\
  x = d_record t id k i (Record_ (d_name q) tm rq r as_ er) /\ report_on (d_name q) as_ (t_total tm) text.
(** a block with one datum for each request of one time through the test *)
Definition block_tells (w : env) (tr : list event) (t : str) (id k : N) (calls : list demand) (xs : list (response * str)) (blk : Z * bytes) : Prop :=
  fst blk = Z.of_nat (length calls) /\ exists ds, items Counted record_ty (snd blk) ds /\ length ds = length calls /\
  forall i q, nth_error calls i = Some q -> exists r text x, nth_error xs i = Some (r, text) /\ nth_error ds i = Some x /\
    tells w (tr ++ asked (firstn i calls)) t id k (N.of_nat i) q r text x.
(** a file with one block for each time through the test, the first numbered 0 *)
Definition file_tells (w : env) (t : str) (id : N) (calls : list demand) (vs : list (list (response * str))) (file : bytes) : Prop :=
  exists kvs sync blks, container file kvs sync blks /\ describes kvs record_ty /\ length blks = length vs /\
  forall past xs rest, vs = past ++ xs :: rest -> exists blk, nth_error blks (length past) = Some blk /\
    block_tells w (visits_events calls past) t id (N.of_nat (length past)) calls xs blk.
