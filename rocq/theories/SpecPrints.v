(** What a suite prints, from its text and what the server sends *)
From Verif Require Export SpecVerdict SpecArrives SpecShow.
Open Scope N_scope.

(** ** assertions as they are usually written *)
Inductive turn_written : turn -> str -> Prop :=
| tw_field k : new_name k -> turn_written (Field k) (lit "." ++ k)
| tw_key k : ~ In 34 k -> turn_written (Key k) (lit "[""" ++ k ++ lit """]")
| tw_nth i ds : ds <> [] -> Forall digit ds -> decimal ds = i -> i < 2 ^ 63 -> turn_written (SpecAssert.Nth i) (lit "[" ++ ds ++ lit "]").
Inductive literal_written : expr -> str -> Prop :=
| lw_int n ds : ds <> [] -> Forall digit ds -> decimal ds = n -> n < 2 ^ 63 -> literal_written (EInt (Z.of_N n)) ds
| lw_float f c ds : float_literal (c :: ds) f -> digit c -> literal_written (EFloat f) (c :: ds)
| lw_bool b : literal_written (EBool b) (bool_text b)
| lw_str s : ~ In 34 s -> scalars s -> literal_written (EStr s) (lit """" ++ s ++ lit """").
Definition comparisons : list (kind * str) := [(KEq, lit "=="); (KNe, lit "!="); (KLt, lit "<"); (KGt, lit ">"); (KLe, lit "<="); (KGe, lit ">=")].
(** [check_written c root ps k o l]: [c] is the place, the comparison and the literal, with spaces between *)
Inductive check_written : str -> str -> list turn -> kind -> str -> expr -> Prop :=
| cw root ps ts k o l b : new_name root -> Forall2 turn_written ps ts -> In (k, o) comparisons -> literal_written l b ->
    check_written (root ++ List.concat ts ++ lit " " ++ o ++ lit " " ++ b) root ps k o l.
Record check := Check { k_text : str; k_root : str; k_turns : list turn; k_kind : kind; k_sign : str; k_literal : expr }.
Definition well_written (c : check) : Prop := check_written (k_text c) (k_root c) (k_turns c) (k_kind c) (k_sign c) (k_literal c).
(** what the check means for a response; if it is about the document, the body must be one or surely none *)
Definition decidable_for (r : response) (c : check) : Prop := k_root c = lit "json" -> documented r.
Definition holds_of (r : response) (c : check) : Prop :=
  k_kind c = KEq /\ (exists x, found r (k_root c) (k_turns c) x /\ agrees x (k_literal c)) \/
  k_kind c = KNe /\ ~ (exists x, found r (k_root c) (k_turns c) x /\ agrees x (k_literal c)) \/
  exists x o, found r (k_root c) (k_turns c) x /\ ranks x (k_literal c) o /\ meets (k_kind c) o.

(** the suite: variables, a request with its assertions, and a test that makes it *)
Definition listed (cs : list str) : str := match cs with [] => [] | c :: cs => c ++ flat_map (fun c => lit ", " ++ c) cs end.
Definition check_suite (vars : list (str * str)) (r template : str) (cs : list check) (t : str) : str :=
  flat_map (fun xv => lit "let " ++ fst xv ++ lit " = """ ++ snd xv ++ lit """;" ++ [10]) vars ++
  lit "request " ++ r ++ lit "`" ++ template ++ lit "`[" ++ listed (map k_text cs) ++ lit "]" ++ [10] ++
  lit "test " ++ t ++ lit " { " ++ r ++ lit "() }".

(** ** the report *)
(** texts of parts of responses and of literals *)
Inductive part_text : jtree -> str -> Prop :=
| pt_null : part_text JNull (lit "null")
| pt_neg : part_text JNeg (lit "null")
| pt_bool b : part_text (JBool b) (bool_text b)
| pt_int n t : integer_text (Z.of_N n) t -> part_text (JInt n) t
| pt_frac f t : shown_float f t -> part_text (JFrac f) t
| pt_str s : part_text (JStr s) s.
Inductive literal_text : expr -> str -> Prop :=
| lt_int z t : integer_text z t -> literal_text (EInt z) t
| lt_float f t : shown_float f t -> literal_text (EFloat f) t
| lt_bool b : literal_text (EBool b) (bool_text b)
| lt_str s : literal_text (EStr s) s.
(** the assertion in the report: as in the suite, but for the digits of numbers *)
Inductive turn_shown : turn -> str -> Prop :=
| tn_field k : turn_shown (Field k) (lit "." ++ k)
| tn_key k : turn_shown (Key k) (lit "[""" ++ k ++ lit """]")
| tn_nth i ds : integer_text (Z.of_N i) ds -> turn_shown (SpecAssert.Nth i) (lit "[" ++ ds ++ lit "]").
Definition literal_shown (l : expr) (t : str) : Prop := match l with EStr s => t = lit """" ++ s ++ lit """" | _ => literal_text l t end.
Definition check_shown (c : check) (t : str) : Prop := exists ts b, Forall2 turn_shown (k_turns c) ts /\ literal_shown (k_literal c) b /\
  t = k_root c ++ List.concat ts ++ lit " " ++ k_sign c ++ lit " " ++ b.
(** the line of an assertion: the assertion, what was found and what was expected, and whether it is so *)
Definition check_line (r : response) (c : check) (line : str) : Prop := exists shown left right b,
  line = shown ++ lit " => " ++ left ++ lit " " ++ k_sign c ++ lit " " ++ right ++ lit " => " ++ bool_text b ++ [10] /\ check_shown c shown /\
  (forall x, found r (k_root c) (k_turns c) x -> (exists t, part_text x t) -> part_text x left) /\
  ((forall x, ~ found r (k_root c) (k_turns c) x) -> left = lit "null") /\
  literal_text (k_literal c) right /\ (b = true <-> holds_of r c).
Definition check_report (r : response) (name : str) (cs : list check) (text : str) : Prop := exists lines verdict d ns,
  text = lit "=== TEST  " ++ name ++ [10] ++ List.concat lines ++ lit "--- " ++ verdict ++ lit "  " ++ name ++ lit " (" ++ d ++ lit ")" ++ [10] /\
  Forall2 (check_line r) cs lines /\ duration_text ns d /\
  (Forall (holds_of r) cs /\ verdict = lit "PASS" \/ ~ Forall (holds_of r) cs /\ verdict = lit "FAIL").

(** [heard w tr msg r]: [msg] being sent after [tr], the response is [r] *)
Definition heard (w : env) (tr : list event) (msg : str) (r : response) : Prop := exists rq t er,
  client_send (e_prepare w) (e_net w tr msg) msg = Ok (rq, r, t, er).
(** rounds: in each the message is sent, and what is printed then is the report about the response *)
Definition rounds_events (msg : str) (rounds : list (response * str)) : list event := flat_map (fun x => [Sent msg; Printed (snd x)]) rounds.
Definition rounds_reported (w : env) (msg name : str) (cs : list check) (rounds : list (response * str)) : Prop :=
  forall past r text rest, rounds = past ++ (r, text) :: rest -> heard w (rounds_events msg past) msg r /\ check_report r name cs text.
