(** Requests that depend on what a response says *)
From Verif Require Export SpecChain.
Open Scope N_scope.

(** the suite: variables, three requests with assertions, and a test that makes the first and,
    according to its response, the second or the third; the condition is the text of a check with the call before it *)
Definition branch_suite (vars : list (str * str)) (a ta : str) (ca : list check) (b tb : str) (cb : list check) (c tc : str) (cc : list check) (t : str) (guard : check) : str :=
  flat_map (fun xv => lit "let " ++ fst xv ++ lit " = """ ++ snd xv ++ lit """;" ++ [10]) vars ++
  request_text a ta ca ++ request_text b tb cb ++ request_text c tc cc ++
  lit "test " ++ t ++ lit " { if (" ++ a ++ lit "()." ++ k_text guard ++ lit ") { " ++ b ++ lit "() } else { " ++ c ++ lit "() } }".

(** one time through the test: the first response, whether the condition was true of it, the other response, and the two reports *)
Record fork := Fork { f_first : response; f_so : bool; f_second : response; f_report : str; f_report2 : str }.
Definition forks_events (ma mb mc : str) (fs : list fork) : list event :=
  flat_map (fun f => [Sent ma; Sent (if f_so f then mb else mc); Printed (f_report f); Printed (f_report2 f)]) fs.
Definition forks_rightly (w : env) (ma a : str) (ca : list check) (mb b : str) (cb : list check) (mc c : str) (cc : list check) (guard : check) (fs : list fork) : Prop :=
  forall past f rest, fs = past ++ f :: rest ->
    heard w (forks_events ma mb mc past) ma (f_first f) /\
    (f_so f = true <-> holds_of (f_first f) guard) /\
    heard w (forks_events ma mb mc past ++ [Sent ma]) (if f_so f then mb else mc) (f_second f) /\
    check_report (f_first f) a ca (f_report f) /\
    if f_so f then check_report (f_second f) b cb (f_report2 f) else check_report (f_second f) c cc (f_report2 f).
