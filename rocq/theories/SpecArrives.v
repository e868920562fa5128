(** A request as written in a script, its parts with placeholders *)
From Verif Require Export SpecWritten SpecEval SpecSyntax.
Open Scope N_scope.

(** a header of the template and what it becomes *)
Definition header_filled (w : env) (c : ctx) (t h : header) : Prop :=
  message_of w c (fst t) (fst h) /\ message_of w c (snd t) (snd h).
(** no placeholder stretches over several lines *)
Definition one_line_holes (t : str) : Prop := forall x p n y, t = x ++ p ++ y -> hole p n -> ~ In 10 p.

(** ** a whole suite *)
(** a name that can be given to variables, requests and tests *)
Definition new_name (n : str) : Prop := identifier n /\ forall k, ~ In (k, n) keywords.
(** variables with their texts, one to a line, and a request *)
Definition definitions (vars : list (str * str)) (r template : str) : str :=
  flat_map (fun xv => lit "let " ++ fst xv ++ lit " = """ ++ snd xv ++ lit """;" ++ [10]) vars ++
  lit "request " ++ r ++ lit "`" ++ template ++ lit "`" ++ [10].
Definition definable (vars : list (str * str)) (r template : str) : Prop :=
  Forall (fun xv => new_name (fst xv) /\ ~ In 34 (snd xv)) vars /\ new_name r /\ ~ In 96 template.
(** the same and a test that makes the request *)
Definition test_text (vars : list (str * str)) (r template t : str) : str := definitions vars r template ++ lit "test " ++ t ++ lit " { " ++ r ++ lit "() }".
(** the text of a variable, "null" if there is none *)
Definition text_of (vars : list (str * str)) (n t : str) : Prop := last_def n vars t \/ ~ In n (map fst vars) /\ t = lit "null".
Definition filled (vars : list (str * str)) (template msg : str) : Prop :=
  exists ps ts, scan template ps /\ Forall2 (text_of vars) (holes ps) ts /\ msg = fill ps ts.
(** the messages sent, in order *)
Definition messages (tr : list event) : list str := flat_map (fun ev => match ev with Sent m => [m] | Printed _ => [] end) tr.
(** each exchange comes to an end *)
Definition answered (w : env) (msg : str) : Prop := forall tr, exists rq rs t e m,
  client_send (e_prepare w) (e_net w tr msg) msg = Ok (rq, rs, t, e) /\ to_map (e_host w) rs = Ok m.
