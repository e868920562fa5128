(** When evaluation can be relied upon to return *)
From Verif Require Export SpecEval SpecHttp SpecSyntax.

(** The operators that can abort: division and remainder always, the others only
    in a build with overflow checks *)
Definition risky_binary (checks : bool) : list kind :=
  [KDiv; KRem] ++ if checks then [KAdd; KSub; KMul; KSl; KSr] else [].
(** The expression uses none of them *)
Definition no_risk (checks : bool) : expr -> Prop :=
  everywhere (fun e => match e with
    | EBin t _ _ => ~ In (tkind t) (risky_binary checks)
    | EUn t _ => checks = true -> tkind t <> KSub
    | _ => True
    end).
(** Nor do the assertions of the requests *)
Definition no_risk_requests (checks : bool) (s : st) : Prop :=
  forall n template asserts e, mget n (c_reqs (s_ctx s)) = Some (template, asserts) -> In e asserts -> no_risk checks e.

(** The clock never goes back during an exchange *)
Definition steady (w : env) : Prop := forall tr msg, ordered (e_net w tr msg).
(** No response has a body that makes its reader loop *)
Definition readable_bodies (w : env) : Prop := forall tr msg rs,
  response_from (x_reply (e_net w tr msg)) = inl rs -> no_bang (segment (rs_body rs)).
