(** What users see of the [test] command as a process: standard output, the requests
    sent, the files on the disk and the exit status *)
From Verif Require Export Process SpecRun SpecSend.
Open Scope N_scope.

(** executions *)
Inductive goes (g : setting) : process -> process -> Prop :=
| go_refl p : goes g p p
| go_step p p1 p2 : goes g p p1 -> process_step g p1 p2 -> goes g p p2.

Definition who_dec (a b : who) : {a = b} + {a <> b}.
Proof. decide equality. apply N.eq_dec. Defined.
(** the part of the log that is due to [x] *)
Definition events_of (x : who) (l : list (who * event)) : list event :=
  flat_map (fun y => if who_dec (fst y) x then [snd y] else []) l.

(** the records, one text each *)
Definition lines (rs : list record) : list event := map (fun r => Printed (show_record r ++ [10])) rs.
Definition complaint (w : env) (e : everr) : event := Printed (everr_text (e_host w) e ++ [10]).
(** what is printed after an iteration that ended with [o] in the state [s] *)
Definition afterwards (w : env) (o : out everr value) (s : st) : list event :=
  match o with Ok _ => lines (c_recs (s_ctx s)) | Err e => [complaint w e] | _ => [] end.
(** the same when every test runs once *)
Definition afterwards_once (w : env) (o : out everr value) (s : st) : list event :=
  match o with Ok _ => lines (c_recs (s_ctx s)) | Err e => complaint w e :: lines (c_recs (s_ctx s)) | _ => [] end.

(** the sources can be read, parsed and their top-level expressions evaluated *)
Definition loads (w : env) (root : str * node) (src : source) (s1 : st) : Prop :=
  exists text v, read_node (fst root) (snd root) = Some text /\ parse text = Ok src /\
    eval_block w (s_exprs src) (St (Ctx [] (mextend [] (s_requests src)) []) []) = (Ok v, s1).

(** the path of the record file of a thread *)
Definition record_path (g : setting) (pod : str) (id : N) : str := path_join (g_dir g) (file_name pod id).
(** the bound of the number of iterations of a thread *)
Definition share (duration : option N) (number threads : N) : N := match duration with Some _ => 2 ^ 32 - 1 | None => number end / threads.

(** what a thread that loops has done, [bs] being the records of its iterations so far *)
Definition under_way (w : env) (body : list expr) (c : ctx) (m : N) (bs : list (list record)) (own : list event) : Prop :=
  exists s, iterated w body c (N.of_nat (length bs)) s bs /\ N.of_nat (length bs) <= m /\
    (own = s_trace s \/
     N.of_nat (length bs) < m /\ exists o s2, eval_block w body s = (o, s2) /\ starts_with (s_trace s) own /\ starts_with own (s_trace s2 ++ afterwards w o s2)).
(** what it has done in the end: all iterations, those before it was stopped, or those
    before one that failed *)
Definition done_with (w : env) (body : list expr) (c : ctx) (m : N) (stopped : bool) (bs : list (list record)) (own : list event) : Prop :=
  exists s, iterated w body c (N.of_nat (length bs)) s bs /\ N.of_nat (length bs) <= m /\
    (own = s_trace s /\ (N.of_nat (length bs) = m \/ stopped = true) \/
     N.of_nat (length bs) < m /\ exists o s2, eval_block w body s = (o, s2) /\ (o = Panic \/ exists e, o = Err e) /\ own = s_trace s2 ++ afterwards w o s2).
(** the bytes of a record file that starts with a header and has these batches *)
Definition recorded (g : setting) (path : str) (name : str) (id : N) (bs : list (list record)) : bytes :=
  f_data (write_batches (writer_new (g_accepts g path)) (numbered name id bs)).
