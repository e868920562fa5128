(** lib/src/context.rs *)
From Verif Require Export HttpClient Native.

(** context.rs:83-89 *)
Record assertion := Assert {
  a_expr : str; a_left : str; a_compare : str; a_right : str; a_result : bool }.

(** context.rs:74-81 *)
Record record := Record_ {
  r_name : str; r_time : time; r_request : request; r_response : response;
  r_asserts : list assertion; r_error : str }.

(** context.rs:11-16 *)
Record ctx := Ctx {
  c_vars : amap value;
  c_reqs : amap (str * list expr);
  c_recs : list record }.

(** context.rs:19-25 *)
Definition ctx_new : ctx := Ctx [] [] [].
(** context.rs:27-33 *)
Definition ctx_from (m : amap value) : ctx := Ctx m [] [].
(** context.rs:35-37 *)
Definition ctx_extend (c : ctx) (reqs : amap (str * list expr)) : ctx :=
  Ctx (c_vars c) (mextend (c_reqs c) reqs) (c_recs c).
(** context.rs:39-41 *)
Definition ctx_get (c : ctx) (k : str) : option value := mget k (c_vars c).
(** context.rs:43-45 *)
Definition ctx_set (c : ctx) (k : str) (v : value) : ctx :=
  Ctx (mset k v (c_vars c)) (c_reqs c) (c_recs c).
(** context.rs:47-49 *)
Definition ctx_request (c : ctx) (n : str) : option (str * list expr) := mget n (c_reqs c).
(** context.rs:51-53 *)
Definition ctx_push (c : ctx) (r : record) : ctx := Ctx (c_vars c) (c_reqs c) (c_recs c ++ [r]).
(** context.rs:55-57 *)
Definition ctx_into_map (c : ctx) : amap value := c_vars c.
(** context.rs:59-61: the records, and the context left *)
Definition ctx_records (c : ctx) : list record * ctx := (c_recs c, Ctx (c_vars c) (c_reqs c) []).
(** context.rs:64-72 *)
Definition ctx_clone (c : ctx) : ctx := Ctx (c_vars c) (c_reqs c) [].

(** context.rs:91-99 *)
Definition show_assert (a : assertion) : str :=
  a_expr a ++ lit " => (" ++ a_left a ++ lit " " ++ a_compare a ++ lit " " ++ a_right a ++ lit ") => "
  ++ show_bool (a_result a).

(** context.rs:107-111 *)
Definition show_assert_line (a : assertion) : str :=
  a_expr a ++ lit " => " ++ a_left a ++ lit " " ++ a_compare a ++ lit " " ++ a_right a ++ lit " => "
  ++ show_bool (a_result a) ++ [10%N].

(** context.rs:104-106 *)
Definition passed (r : record) : bool := fold_left (fun f a => f && a_result a) (r_asserts r) true.

(** context.rs:101-124 *)
Definition show_record (r : record) : str :=
  lit "=== TEST  " ++ r_name r ++ [10%N]
  ++ flat_map show_assert_line (r_asserts r)
  ++ lit "--- " ++ (if passed r then lit "PASS" else lit "FAIL") ++ lit "  " ++ r_name r
  ++ lit " (" ++ show_duration (t_total (r_time r)) ++ lit ")".
