(** Suites that check more *)
From Verif Require Export SpecPace.
Open Scope N_scope.

(** expressions that only look at the response *)
Inductive looks : expr -> Prop :=
| lk_int z : looks (EInt z)
| lk_float f : looks (EFloat f)
| lk_bool b : looks (EBool b)
| lk_str s : looks (EStr s)
| lk_name n : looks (EIdent n)
| lk_field e f : looks e -> looks (EField e f)
| lk_index e i : looks e -> looks i -> looks (EIndex e i)
| lk_paren e : looks e -> looks (EParen e)
| lk_not t e : tkind t = KNot -> looks e -> looks (EUn t e)
| lk_compare t a b : In (tkind t) [KLt; KGt; KLe; KGe; KEq; KNe; KLa; KLo] -> looks a -> looks b -> looks (EBin t a b)
| lk_length e : looks e -> looks (ECall (lit "length") [e]).
(** the same assertions and, anywhere among them, others that compare what they look at *)
Inductive more_checks : list expr -> list expr -> Prop :=
| mc_none : more_checks [] []
| mc_same e l l' : more_checks l l' -> more_checks (e :: l) (e :: l')
| mc_more t a b l l' : looks a -> looks b -> more_checks l l' -> more_checks l (EBin t a b :: l').
(** the same source but for more assertions *)
Definition more_asserted (src src' : source) : Prop :=
  s_exprs src' = s_exprs src /\ s_tests src' = s_tests src /\
  Forall2 (fun a b => fst a = fst b /\ fst (snd a) = fst (snd b) /\ more_checks (snd (snd a)) (snd (snd b))) (s_requests src) (s_requests src').
(** servers do not see what is printed *)
Definition sees_messages (w : env) : Prop := forall tr tr' m, messages tr = messages tr' -> e_net w tr m = e_net w tr' m.

(** what is left when some are taken out *)
Inductive among {A} : list A -> list A -> Prop :=
| am_nil : among [] []
| am_same x l l' : among l l' -> among (x :: l) (x :: l')
| am_more x l l' : among l l' -> among l (x :: l').
(** a report with these lines about assertions, each with its outcome *)
Definition report_with (name d : str) (ls : list (str * bool)) : str :=
  lit "=== TEST  " ++ name ++ [10] ++ flat_map (fun x : str * bool => fst x ++ lit " => " ++ (if snd x then lit "true" else lit "false") ++ [10]) ls ++
  lit "--- " ++ (if forallb snd ls then lit "PASS" else lit "FAIL") ++ lit "  " ++ name ++ lit " (" ++ d ++ lit ")" ++ [10].
(** the same text, or a report with more lines *)
Definition more_told (t t' : str) : Prop := t = t' \/ exists name d ls ls', @among (str * bool) ls ls' /\ t = report_with name d ls /\ t' = report_with name d ls'.
Definition same_event_or_more (e e' : event) : Prop :=
  match e, e' with Sent m, Sent m' => m = m' | Printed t, Printed t' => more_told t t' | _, _ => False end.
Definition same_log_or_more (l l' : list (who * event)) : Prop :=
  Forall2 (fun x y => fst x = fst y /\ match fst x with Collector => snd x = snd y | _ => same_event_or_more (snd x) (snd y) end) l l'.
Definition same_stage (m m' : main_phase) : Prop :=
  match m, m' with Starting js, Starting js' => length js = length js' | Starting _, _ => False | _, Starting _ => False | _, _ => m = m' end.
