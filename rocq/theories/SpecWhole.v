(** Suites with any number of requests and of tests that make them *)
From Verif Require Export SpecChain.
From Coq Require Export Permutation.
Open Scope N_scope.

(** a request: its name, its template, its assertions, and the message with the variables filled in *)
Record demand := Demand { d_name : str; d_template : str; d_checks : list check; d_message : str }.
(** a test is a name and the requests it makes, in order *)
Definition whole_suite (vars : list (str * str)) (ds : list demand) (tests : list (str * list demand)) : str :=
  flat_map (fun xv => lit "let " ++ fst xv ++ lit " = """ ++ snd xv ++ lit """;" ++ [10]) vars ++
  flat_map (fun q => request_text (d_name q) (d_template q) (d_checks q)) ds ++
  flat_map (fun tc => lit "test " ++ fst tc ++ lit " { " ++ flat_map (fun q => d_name q ++ lit "(); ") (snd tc) ++ lit "}" ++ [10]) tests.
Definition suite_fits (vars : list (str * str)) (ds : list demand) (tests : list (str * list demand)) : Prop :=
  Forall (fun xv => new_name (fst xv) /\ ~ In 34 (snd xv)) vars /\
  NoDup (map d_name ds) /\ Forall (fun q => new_name (d_name q) /\ ~ In 96 (d_template q) /\ Forall well_written (d_checks q) /\ filled vars (d_template q) (d_message q)) ds /\
  NoDup (map fst tests) /\ Forall (fun tc => new_name (fst tc) /\ incl (snd tc) ds) tests.
(** every request is answered, and if one of its assertions is about the document, there is one or surely none *)
Definition serves (w : env) (ds : list demand) : Prop :=
  Forall (fun q => answered w (d_message q) /\ forall tr rs, heard w tr (d_message q) rs -> Forall (decidable_for rs) (d_checks q)) ds.

(** one time through a test: the responses and the reports *)
Definition asked (calls : list demand) : list event := map (fun q => Sent (d_message q)) calls.
Definition visit_events (calls : list demand) (xs : list (response * str)) : list event := asked calls ++ map (fun x => Printed (snd x)) xs.
Definition visit_rightly (w : env) (tr : list event) (calls : list demand) (xs : list (response * str)) : Prop :=
  length xs = length calls /\
  forall i q, nth_error calls i = Some q -> exists r text, nth_error xs i = Some (r, text) /\
    heard w (tr ++ asked (firstn i calls)) (d_message q) r /\ check_report r (d_name q) (d_checks q) text.
Definition visits_events (calls : list demand) (vs : list (list (response * str))) : list event := flat_map (visit_events calls) vs.
Definition visits_rightly (w : env) (calls : list demand) (vs : list (list (response * str))) : Prop :=
  forall past xs rest, vs = past ++ xs :: rest -> visit_rightly w (visits_events calls past) calls xs.
