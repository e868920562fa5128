(** Test bodies that can take each other's place *)
From Verif Require Export SpecAdded SpecReads SpecRefactor.
Open Scope N_scope.

(** both succeed, or both fail with the same message, or both abort *)
Definition like_ending (w : env) (o o' : out everr value) : Prop :=
  match o, o' with
  | Ok _, Ok _ => True
  | Err e, Err e' => complaint w e = complaint w e'
  | Panic, Panic | Diverge, Diverge => True
  | _, _ => False
  end.
(** From these variables [b] and [b'] send, print and record the same and end alike, and
    leave variables that differ as [R] allows when they succeed *)
Definition serves_from (w : env) (reqs : amap (str * list expr)) (R : amap value -> amap value -> Prop) (b b' : list expr) (v v' : amap value) : Prop :=
  forall recs tr o s1 o' s1',
  eval_block w b (St (Ctx v reqs recs) tr) = (o, s1) -> eval_block w b' (St (Ctx v' reqs recs) tr) = (o', s1') ->
  like_ending w o o' /\ c_recs (s_ctx s1') = c_recs (s_ctx s1) /\ s_trace s1' = s_trace s1 /\
  ((exists x, o = Ok x) -> R (c_vars (s_ctx s1)) (c_vars (s_ctx s1'))).
(** and that from any variables that differ as [R] allows *)
Definition serves_as (w : env) (reqs : amap (str * list expr)) (R : amap value -> amap value -> Prop) (b b' : list expr) : Prop :=
  forall v v', R v v' -> serves_from w reqs R b b' v v'.
(** tests of the same names with such bodies *)
Definition tests_serve (worlds : N -> env) (reqs : amap (str * list expr)) (R : amap value -> amap value -> Prop) : list (str * list expr) -> list (str * list expr) -> Prop :=
  Forall2 (fun t t' => fst t' = fst t /\ forall id, serves_as (worlds id) reqs R (snd t) (snd t')).
(** the same requests; statements outside of tests and bodies of tests that serve as those before *)
Definition bodies_replaced (worlds : N -> env) (w : env) (R : amap value -> amap value -> Prop) (src src' : source) : Prop :=
  let reqs := mextend [] (s_requests src) in
  s_requests src' = s_requests src /\ serves_from w reqs R (s_exprs src) (s_exprs src') [] [] /\ tests_serve worlds reqs R (s_tests src) (s_tests src').
(** the variables but for some are the same *)
Definition same_off (ns : list str) (v v' : amap value) : Prop := forall n, ~ In n ns -> mget n v' = mget n v.
