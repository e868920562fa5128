(** What was found in a response is sent in the next request *)
From Verif Require Export SpecPrints.
Open Scope N_scope.

(** [into p root]: the first turn from a response to its part [root] *)
Definition into (p : turn) (root : str) : Prop := p = Field root \/ p = Key root.
(** the suite: variables, two requests with assertions, and a test that makes the first, keeps
    what is at some place of the response in a variable, and makes the second *)
Definition request_text (r template : str) (cs : list check) : str :=
  lit "request " ++ r ++ lit "`" ++ template ++ lit "`[" ++ listed (map k_text cs) ++ lit "]" ++ [10].
Definition chain_suite (vars : list (str * str)) (a ta : str) (ca : list check) (b tb : str) (cb : list check) (t x path : str) : str :=
  flat_map (fun xv => lit "let " ++ fst xv ++ lit " = """ ++ snd xv ++ lit """;" ++ [10]) vars ++
  request_text a ta ca ++ request_text b tb cb ++
  lit "test " ++ t ++ lit " { let " ++ x ++ lit " = " ++ a ++ lit "()" ++ path ++ lit "; " ++ b ++ lit "() }".

(** one time through the test: the first response, the text of what was found in it, the second
    message, the second response, and the two reports *)
Record link := Link { l_first : response; l_found : str; l_message : str; l_second : response; l_report : str; l_report2 : str }.
Definition links_events (ma : str) (ls : list link) : list event :=
  flat_map (fun l => [Sent ma; Sent (l_message l); Printed (l_report l); Printed (l_report2 l)]) ls.
Definition links_rightly (w : env) (vars : list (str * str)) (ma a : str) (ca : list check) (b tb : str) (cb : list check) (x root : str) (ps : list turn) (ls : list link) : Prop :=
  forall past l rest, ls = past ++ l :: rest ->
    heard w (links_events ma past) ma (l_first l) /\
    (exists y, found (l_first l) root ps y /\ part_text y (l_found l)) /\
    filled (vars ++ [(x, l_found l)]) tb (l_message l) /\
    heard w (links_events ma past ++ [Sent ma]) (l_message l) (l_second l) /\
    check_report (l_first l) a ca (l_report l) /\ check_report (l_second l) b cb (l_report2 l).
