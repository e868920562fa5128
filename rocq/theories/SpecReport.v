(** What the printed report of a request tells *)
From Verif Require Export SpecEval SpecSyntax SpecRun.
Open Scope N_scope.

(** one line each: the name, and the texts of the assertions *)
Definition in_lines (r : record) : Prop :=
  ~ In 10 (r_name r) /\ Forall (fun a => ~ In 10 (a_expr a ++ a_left a ++ a_compare a ++ a_right a)) (r_asserts r).
(** what a list of records prints *)
Definition report_text (rs : list record) : str := flat_map (fun r => show_record r ++ [10]) rs.
(** what can be read off: the name, which assertions hold, and the duration *)
Definition gist (r : record) : str * list bool * N := (r_name r, map a_result (r_asserts r), t_total (r_time r)).
(** [e] is one of the declared assertions [es], and is evaluated in [s0] *)
Definition reached_at (w : env) (es : list expr) (s : st) (e : expr) (s0 : st) : Prop :=
  exists before after as0, es = before ++ e :: after /\ asserted w before s as0 s0.
