(** Why evaluation aborts or never ends *)
From Verif Require Export SpecBlame SpecSafe.
Open Scope Z_scope.

(** what an integer operation has no result for, in a build with overflow checks or without *)
Definition no_result (checks : bool) (k : kind) (a b : Z) : Prop :=
  (k = KDiv \/ k = KRem) /\ (b = 0 \/ a = - 2 ^ 63 /\ b = -1) \/
  checks = true /\ (k = KAdd /\ ~ fits (a + b) \/ k = KSub /\ ~ fits (a - b) \/ k = KMul /\ ~ fits (a * b) \/
                    (k = KSl \/ k = KSr) /\ ~ 0 <= b < 64).
(** the operands of declared assertions, in the order they are evaluated *)
Definition operands (asserts : list expr) : list expr :=
  flat_map (fun e => match e with EBin _ l r => [l; r] | _ => [] end) asserts.
(** the request was answered with [rs] *)
Definition answered (x : exchange) (rs : response) : Prop :=
  (exists d, x_connect x = inl d) /\ x_write x = None /\ response_from (x_reply x) = inl rs.

Section Doom.
Variable w : env.
Notation checks := (h_checks (e_host w)).

(** The expressions return one after the other, with or without a value *)
Inductive attempted : list expr -> st -> st -> Prop :=
| am_nil s : attempted [] s s
| am_cons e es s o s1 s2 : eval_expr w e s = (o, s1) -> returns o -> attempted es s1 s2 -> attempted (e :: es) s s2.

(** [doomed e s o s']: the parts of [e] can be evaluated in [s], but then its operation
    aborts ([o] is Panic) or loops ([o] is Diverge), leaving [s'] *)
Inductive doomed : expr -> st -> res -> st -> Prop :=
| dm_binary t l r s a b s' : in_order w [l; r] s [VInt a; VInt b] s' -> no_result checks (tkind t) a b ->
    doomed (EBin t l r) s Panic s'
| dm_minus t e s z s' : eval_expr w e s = (Ok (VInt z), s') -> tkind t = KSub -> checks = true -> ~ fits (- z) ->
    doomed (EUn t e) s Panic s'
| dm_body n args s vs s1 template asserts msg rs : in_order w args s vs s1 ->
    mget n (c_reqs (s_ctx s1)) = Some (template, asserts) -> message_of w (s_ctx s1) template msg ->
    answered (e_net w (s_trace s1) msg) rs -> parse (rs_body rs) = Diverge ->
    doomed (ECall n args) s Diverge (St (s_ctx s1) (s_trace s1 ++ [Sent msg]))
| dm_assert n args s vs s1 template asserts msg rq rs t er m a x b s2 e s3 o s4 : in_order w args s vs s1 ->
    mget n (c_reqs (s_ctx s1)) = Some (template, asserts) -> message_of w (s_ctx s1) template msg ->
    client_send (e_prepare w) (e_net w (s_trace s1) msg) msg = Ok (rq, rs, t, er) -> to_map (e_host w) rs = Ok m ->
    operands asserts = a ++ x :: b -> attempted a (St (Ctx m [] []) (s_trace s1 ++ [Sent msg])) s2 ->
    comes_to w x s2 e s3 -> doomed e s3 o s4 ->
    doomed (ECall n args) s o (St (s_ctx s1) (s_trace s4)).
End Doom.
