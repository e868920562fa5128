(** lib/src/stat.rs *)
From Verif Require Export Text.
Open Scope N_scope.

(** stat.rs:6-12; u128 arithmetic is modelled as unbounded (overflow would take
    more than 10^25 years of accumulated request time) *)
Record stat := Stat { st_count : N; st_sum : N; st_avg : N; st_max : N; st_min : N }.

(** stat.rs:15-23 *)
Definition stat_new (millis : N) : stat := Stat 1 millis millis millis millis.

(** stat.rs:24-34 *)
Definition stat_add (s : stat) (millis : N) : stat :=
  let count := st_count s + 1 in
  let sum := st_sum s + millis in
  let avg := sum / count in
  let mx := if st_max s <? millis then millis else st_max s in
  let mn := if millis <? st_min s then millis else st_min s in
  Stat count sum avg mx mn.

(** stat.rs:37-45 *)
Definition show_stat (s : stat) : str :=
  lit "count=" ++ show_N (st_count s) ++ lit "  sum=" ++ show_N (st_sum s) ++ lit "  avg=" ++ show_N (st_avg s)
  ++ lit "  max=" ++ show_N (st_max s) ++ lit "  min=" ++ show_N (st_min s).

(** stat.rs:47-50 *)
Definition stats := amap stat.

(** stat.rs:53-62 *)
Definition stats_add (m : stats) (name : str) (millis : N) : stats :=
  match mget name m with
  | Some s => mset name (stat_add s millis) m
  | None => mset name (stat_new millis) m
  end.

(** stat.rs:65-72; [order] is the iteration order of the map's keys *)
Definition show_stats (order : list str -> list str) (m : stats) : str :=
  flat_map (fun k => match mget k m with
                     | Some s => k ++ lit " " ++ show_stat s ++ [10]
                     | None => []
                     end) (order (map fst m)).
