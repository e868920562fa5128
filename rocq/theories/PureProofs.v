(** Expressions without [let] and calls change nothing *)
From Verif Require Import SpecEval SyntaxProofs EvaluatorProofs.
Open Scope nat_scope.

Ltac zero := unfold list_sum in *; lia.
Section Pure.
  Variables (h : host) (call : str -> list value -> evm value).
  Definition still {A} (m : evm A) : Prop := forall s, snd (m s) = s.
  Lemma still_lift {A} (r : out everr A) : still (lift r).
  Proof. intros s. reflexivity. Qed.
  Lemma still_bind {A B} (m : evm A) (k : A -> evm B) : still m -> (forall a, still (k a)) -> still (bind m k).
  Proof.
    intros M K s. unfold bind. specialize (M s). destruct (m s) as [o s1]. cbn [snd] in M. subst s1. destruct o; auto. apply K.
  Qed.
  Let ok (e : expr) := let_names e = [] -> call_count e = 0 -> still (eval h call e).
  Lemma evl_still es : Forall ok es -> flat_map let_names es = [] -> list_sum (map call_count es) = 0 -> still (evl h call es).
  Proof.
    induction 1 as [|e es He _ IH]; intros L C; [apply still_lift|]. cbn in L, C. apply app_eq_nil in L. destruct L as [L1 L2].
    cbn [evl]. apply still_bind; [apply He; auto; zero|]. intros v. apply still_bind; [apply IH; auto; zero|]. intros. apply still_lift.
  Qed.
  Lemma evp_still ps : Forall (fun kv : expr * expr => ok (fst kv) /\ ok (snd kv)) ps ->
    flat_map (fun kv => let_names (fst kv) ++ let_names (snd kv)) ps = [] -> list_sum (map (fun kv => call_count (fst kv) + call_count (snd kv)) ps) = 0 ->
    forall m, still (evp h call m ps).
  Proof.
    induction 1 as [|[k v] ps [Hk Hv] _ IH]; intros L C m; [apply still_lift|]. cbn in L, C, Hk, Hv. apply app_eq_nil in L. destruct L as [L1 L2]. apply app_eq_nil in L1. destruct L1 as [L0 L1].
    cbn [evp]. apply still_bind; [apply Hk; auto; zero|]. intros x. apply still_bind; [apply Hv; auto; zero|]. intros y. apply IH; auto. zero.
  Qed.
  Lemma block_still es : Forall ok es -> flat_map let_names es = [] -> list_sum (map call_count es) = 0 -> forall v, still (eval_exprs h call v es).
  Proof.
    induction 1 as [|e es He _ IH]; intros L C v; [apply still_lift|]. cbn in L, C. apply app_eq_nil in L. destruct L as [L1 L2].
    cbn [eval_exprs]. apply still_bind; [apply He; auto; zero|]. intros x. apply IH; auto. zero.
  Qed.
  Lemma eval_still e : let_names e = [] -> call_count e = 0 -> still (eval h call e).
  Proof.
    induction e as [z|f|b|x|es IH|ps IH|e i IHe IHi|e f IHe|n|n e IHe|t e IHe|t l r IHl IHr|e IHe|c a b IHc IHa IHb|n es IH] using expr_ind2;
      intros L C; cbn [let_names call_count] in L, C; try discriminate; try apply still_lift.
    - rewrite eval_arr. apply still_bind; [now apply evl_still|]. intros. apply still_lift.
    - rewrite eval_map. apply still_bind; [now apply evp_still|]. intros. apply still_lift.
    - apply app_eq_nil in L. destruct L. cbn [eval]. apply still_bind; [apply IHe; auto; zero|]. intros. apply still_bind; [apply IHi; auto; zero|]. intros. apply still_lift.
    - cbn [eval]. apply still_bind; auto. intros. apply still_lift.
    - cbn [eval]. intros s. destruct (ctx_get _ _); reflexivity.
    - cbn [eval]. apply still_bind; auto. intros. apply still_lift.
    - apply app_eq_nil in L. destruct L. assert (Sl : still (eval h call l)) by (apply IHl; auto; zero). assert (Sr : still (eval h call r)) by (apply IHr; auto; zero).
      cbn [eval]. destruct (strict_op h (tkind t)).
      + apply still_bind; auto. intros. apply still_bind; auto. intros. apply still_lift.
      + destruct (tkind t); try apply still_lift; apply still_bind; auto; intros v; destruct (falsy v); auto; apply still_lift.
    - cbn [eval]. auto.
    - apply app_eq_nil in L. destruct L as [L1 L]. apply app_eq_nil in L. destruct L as [L2 L3]. rewrite eval_if. apply still_bind; [apply IHc; auto; zero|].
      intros v. destruct (falsy v); apply block_still; auto; zero.
  Qed.
End Pure.
Theorem pure_still w e s : let_names e = [] -> call_count e = 0 -> exists o, eval_expr w e s = (o, s).
Proof.
  intros L C. pose proof (eval_still (e_host w) (call_at w 1) e L C s) as H. unfold eval_expr, eval_at.
  destruct (eval _ _ e s) as [o s']. cbn in H. subst. eauto.
Qed.
