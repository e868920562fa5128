(** The statistics of a run of a suite *)
From Verif Require Export SpecWhole SpecRun.
Open Scope N_scope.

(** the texts printed, in order *)
Definition texts_of (tr : list event) : list str := flat_map (fun ev => match ev with Printed t => [t] | Sent _ => [] end) tr.
(** [timed text x]: the report [text] is about a request of the name [fst x] and shows a duration of [snd x] whole milliseconds *)
Definition timed (text : str) (x : str * N) : Prop := exists start d ns,
  text = lit "=== TEST  " ++ fst x ++ [10] ++ start ++ lit "  " ++ fst x ++ lit " (" ++ d ++ lit ")" ++ [10] /\ duration_text ns d /\ snd x = ns / 1000000.
(** how often a test makes the request of a name *)
Definition times_made (n : str) (calls : list demand) : N := N.of_nat (count_occ (list_eq_dec N.eq_dec) (map d_name calls) n).
