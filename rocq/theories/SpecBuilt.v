(** Runs of the two builds *)
From Verif Require Export SpecBuild SpecSafe SpecAdded.
Open Scope N_scope.

Definition setting_in (checks : bool) (g : setting) : setting :=
  Setting (g_stat g) (g_dir g) (g_creates g) (g_accepts g) (fun id => in_build checks (g_world g id)) (g_order g) (g_heeds g).
(** no test thread has panicked *)
Definition unhurt (p : process) : Prop := Forall (fun t => te_phase t <> Crashed) (p_testers p).
(** no test and no assertion of a request uses an operator that can panic in some build *)
Definition risk_free (src : source) : Prop :=
  (forall name body, In (name, body) (s_tests src) -> Forall (no_risk true) body) /\
  (forall n template asserts e, In (n, (template, asserts)) (s_requests src) -> In e asserts -> no_risk true e).
