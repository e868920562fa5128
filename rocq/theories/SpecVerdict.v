(** The verdict of a report and what the server said *)
From Verif Require Export SpecAssert SpecFraming SpecProcess.
Open Scope N_scope.

(** [about r e t root ps l]: [e] compares by [t] the place [ps] in the part [root] of a
    response with the literal [l]; if that is the document, the body is one
    or surely none *)
Definition about (r : response) (e : expr) (t : token) (root : str) (ps : list turn) (l : expr) : Prop :=
  e = EBin t (place root ps) l /\ literal l /\ In (tkind t) comparison_kinds /\ (root = lit "json" -> documented r).
Definition checkable (r : response) (e : expr) : Prop := exists t root ps l, about r e t root ps l.
(** the comparison is true of the response *)
Definition true_of (r : response) (e : expr) : Prop := exists t root ps l, about r e t root ps l /\
  (tkind t = KEq /\ (exists x, found r root ps x /\ agrees x l) \/
   tkind t = KNe /\ ~ (exists x, found r root ps x /\ agrees x l) \/
   exists x c, found r root ps x /\ ranks x l c /\ meets (tkind t) c).

(** [reported r verdict]: the report of [r] ends with a line that has this verdict *)
Definition reported (r : record) (verdict : str) : Prop := exists before d,
  show_record r = before ++ lit "--- " ++ verdict ++ lit "  " ++ r_name r ++ lit " (" ++ d ++ lit ")" /\ duration_text (t_total (r_time r)) d /\
  exists above, before = lit "=== TEST  " ++ r_name r ++ [10] ++ above.
(** PASS if all of the assertions are true of the response, else FAIL *)
Definition judged_rightly (r : record) (asserts : list expr) : Prop :=
  (Forall (true_of (r_response r)) asserts -> reported r (lit "PASS")) /\
  (~ Forall (true_of (r_response r)) asserts -> reported r (lit "FAIL")) /\
  (reported r (lit "PASS") -> Forall (true_of (r_response r)) asserts).
