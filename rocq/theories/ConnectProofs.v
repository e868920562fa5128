(** Sending, the order of connection attempts and their race *)
From Verif Require Import SpecHttp TextProofs TextMore ResponseProofs.
From Coq Require Import Permutation ZifyBool ZifyN.
Open Scope N_scope.

(** ** sending *)
Lemma dur_sub_some a b : b <= a -> dur_sub a b = Some (a - b).
Proof. intros H. unfold dur_sub. destruct (N.leb_spec b a); [reflexivity|lia]. Qed.
Lemma report_text e : http_err_text e = report e.
Proof. now destruct e. Qed.
Lemma send_outcome prepare x m : ordered x -> exists t,
  client_send prepare x m = Ok (fst (request_from prepare m),
    match x_connect x, x_write x, response_from (x_reply x) with inl _, None, inl rs => rs | _, _, _ => default_response end, t,
    match x_connect x, x_write x, response_from (x_reply x) with
    | inr e, _, _ => report e | inl _, Some e, _ => report e | inl _, None, inr e => report e | inl _, None, inl _ => []
    end) /\
  t_start t = x_wall0 x /\
  (forall d rs, x_connect x = inl d -> x_write x = None -> response_from (x_reply x) = inl rs ->
    t_end t = x_wall1 x /\ t_total t = x_done x - x_start x /\ t_resolve t = d /\ t_connect t = x_connected x - x_start x - d /\
    t_delay t = x_first x - x_read x /\ t_read t = x_read_done x - x_first x /\
    t_total t = t_resolve t + t_connect t + t_write t + t_delay t + t_read t) /\
  (~ (exists d rs, x_connect x = inl d /\ x_write x = None /\ response_from (x_reply x) = inl rs) ->
    t_end t = x_wall0 x /\ t_total t = 0 /\ t_write t = 0 /\ t_read t = 0 /\
    match x_connect x with
    | inl d => t_resolve t = d /\ t_connect t = x_connected x - x_start x - d /\
        (x_write x <> None \/ rd_bytes (x_reply x) = [] /\ rd_end (x_reply x) <> None -> t_delay t = 0) /\
        (x_write x = None -> rd_bytes (x_reply x) <> [] \/ rd_end (x_reply x) = None -> t_delay t = x_first x - x_read x)
    | inr _ => t_resolve t = 0 /\ t_connect t = 0 /\ t_delay t = 0
    end).
Proof.
  intros ((O1 & O2) & (O3 & O4) & O5 & O6). unfold client_send. destruct (request_from prepare m) as [rq c]. cbn [fst].
  destruct (x_connect x) as [d|e]; [|rewrite report_text; eexists; split; [reflexivity|split; [reflexivity|split; [discriminate|cbn; auto 10]]]].
  specialize (O6 _ eq_refl). rewrite dur_sub_some by lia.
  destruct (x_write x) as [e|]; [rewrite report_text; eexists; split; [reflexivity|split; [reflexivity|split; [discriminate|cbn; repeat split; auto; discriminate]]]|].
  destruct (response_from (x_reply x)) as [rs|e] eqn:RF; [|rewrite report_text; eexists; split; [reflexivity|split; [reflexivity|split; [discriminate|cbn; repeat split; auto]]]].
  2: { intros [?|[-> N]]; [congruence|]. destruct (rd_end (x_reply x)); [auto|congruence]. }
  2: { intros _ [N | ->]; [|now destruct (rd_bytes (x_reply x))]. destruct (rd_bytes (x_reply x)); [congruence|auto]. }
  assert (NE : rd_end (x_reply x) = None).
  { destruct (x_reply x) as [bs [t|]]; auto. destruct (response_broken bs t) as (u & B & _). rewrite B in RF. discriminate. }
  set (delay := match rd_bytes (x_reply x) with [] => _ | _ => _ end).
  assert (D : delay = x_first x - x_read x). { subst delay. rewrite NE. now destruct (rd_bytes (x_reply x)). }
  clearbody delay. rewrite !dur_sub_some by lia.
  eexists. split; [reflexivity|]. split; [reflexivity|]. split; [intros d' rs' [= <-] _ _; cbn; repeat split; lia|].
  intros N. exfalso. apply N. eauto.
Qed.

(** ** the order of attempts *)
Lemma rotate_none {T} f (a b : list T) : (length a + length b < f)%nat -> rotate_all f (a, b, None) =
  match a, b with x :: a', y :: b' => x :: y :: rotate_all (f - 2) (a', b', None) | a, [] => a | [], b => b end.
Proof.
  assert (A : forall f (a : list T), (length a < f)%nat -> rotate_all f (a, [], None) = a).
  { clear. induction f as [|f IH]; intros [|x a] L; cbn [length] in L; try lia; cbn; auto. f_equal. apply IH. lia. }
  assert (B : forall f (b : list T), (length b < f)%nat -> rotate_all f ([], b, None) = b).
  { clear. induction f as [|f IH]; intros [|x a] L; cbn [length] in L; try lia; cbn; auto. f_equal. apply IH. lia. }
  intros L. destruct a as [|x a], b as [|y b]; cbn [length] in L.
  - now apply A.
  - now apply B; cbn; lia.
  - apply A. cbn. lia.
  - destruct f as [|[|f]]; try lia. cbn [rotate_all rotate_next]. replace (S (S f) - 2)%nat with f by lia. destruct a, b; reflexivity.
Qed.
Fixpoint weave {T} (a b : list T) : list T :=
  match a, b with x :: a', y :: b' => x :: y :: weave a' b' | a, [] => a | [], b => b end.
Lemma rotate_weave {T} (a : list T) : forall b f, (length a + length b < f)%nat -> rotate_all f (a, b, None) = weave a b.
Proof.
  induction a as [|x a IH]; intros [|y b] f L; rewrite rotate_none by auto; auto. cbn [weave]. cbn [length] in L. rewrite IH by lia. reflexivity.
Qed.
Lemma rotate_is {T} (a b : list T) : rotate a b = weave a b.
Proof. apply rotate_weave. lia. Qed.
Lemma weave_perm {T} (a : list T) : forall b, Permutation (weave a b) (a ++ b).
Proof.
  induction a as [|x a IH]; intros [|y b]; cbn [weave app]; auto; [now rewrite app_nil_r|].
  constructor. rewrite IH. apply Permutation_middle.
Qed.
Lemma weave_filter {T} (p : T -> bool) (a : list T) : forall b, Forall (fun x => p x = true) a -> Forall (fun x => p x = false) b ->
  filter p (weave a b) = a /\ filter (fun x => negb (p x)) (weave a b) = b.
Proof.
  assert (F1 : forall l, Forall (fun x => p x = true) l -> filter p l = l /\ filter (fun x => negb (p x)) l = []).
  { induction 1 as [|x l X _ [IH1 IH2]]; cbn; auto. rewrite X. cbn. split; congruence. }
  assert (F2 : forall l, Forall (fun x => p x = false) l -> filter p l = [] /\ filter (fun x => negb (p x)) l = l).
  { induction 1 as [|x l X _ [IH1 IH2]]; cbn; auto. rewrite X. cbn. split; congruence. }
  induction a as [|x a IH]; intros [|y b] A B; cbn [weave]; auto; try (now apply F1); try (now apply F2).
  inversion A; subst. inversion B; subst. destruct (IH b) as [E1 E2]; auto. cbn. rewrite H1, H3. cbn. split; congruence.
Qed.
Lemma attempts_order addrs :
  Permutation (attempt_order addrs) addrs /\
  filter a_v6 (attempt_order addrs) = filter a_v6 addrs /\
  filter (fun a => negb (a_v6 a)) (attempt_order addrs) = filter (fun a => negb (a_v6 a)) addrs /\
  (forall i, (i < length (filter a_v6 addrs))%nat -> (i < length (filter (fun a => negb (a_v6 a)) addrs))%nat ->
     nth_error (attempt_order addrs) (2 * i) = nth_error (filter a_v6 addrs) i /\
     nth_error (attempt_order addrs) (2 * i + 1) = nth_error (filter (fun a => negb (a_v6 a)) addrs) i).
Proof.
  unfold attempt_order. rewrite rotate_is. split; [|split; [|split]].
  - rewrite weave_perm. induction addrs as [|a l IH]; cbn; auto. destruct (a_v6 a); cbn; [now constructor|].
    rewrite <- Permutation_middle. now constructor.
  - apply weave_filter; apply Forall_forall; intros a I; apply filter_In in I; destruct I as [_ I]; auto. now destruct (a_v6 a).
  - apply weave_filter; apply Forall_forall; intros a I; apply filter_In in I; destruct I as [_ I]; auto. now destruct (a_v6 a).
  - generalize (filter a_v6 addrs) as u, (filter (fun a => negb (a_v6 a)) addrs) as v. clear.
    induction u as [|x u IH]; intros [|y v] i; cbn [length weave]; try lia. intros A B.
    destruct i as [|i]; [auto|]. replace (2 * S i)%nat with (S (S (2 * i))) by lia. cbn [nth_error Nat.add]. apply IH; lia.
Qed.

(** ** the race *)
Lemma start_cases ok l : (exists a, l = [a] /\ conn_start ok l = Returned (if ok a then inl a else inr TcpConnectFailed)) \/
  conn_start ok l = Racing (attempt_order l) [] None.
Proof. destruct l as [|a [|b l]]; eauto. Qed.
Section Race.
  Variable ok : addr -> bool.
  Variable addrs : list addr.
  (** the addresses that have not reported yet, and whether the error kept tells of all failures *)
  Definition pending (c : conn) : list addr :=
    match c with Racing todo fl _ => todo ++ fl | Draining fl _ => fl | Returned _ => [] end.
  Definition kept_error (c : conn) : option http_err := match c with Racing _ _ e | Draining _ e => e | Returned _ => None end.
  Definition inv (c : conn) : Prop :=
    match c with
    | Returned (inl a) => In a addrs /\ ok a = true
    | Returned (inr e) => Forall (fun a => ok a = false) addrs /\
        (addrs = [] -> e = NoConnectionAvailable) /\ (addrs <> [] -> e = TcpConnectFailed)
    | _ => exists gone, Permutation (gone ++ pending c) addrs /\ Forall (fun a => ok a = false) gone /\
        kept_error c = match gone with [] => None | _ => Some TcpConnectFailed end
    end.
  Lemma inv_start : inv (conn_start ok addrs).
  Proof.
    assert (R : inv (Racing (attempt_order addrs) [] None)).
    { exists []. cbn. rewrite app_nil_r. repeat split; auto. apply attempts_order. }
    destruct (start_cases ok addrs) as [(a & E & ->)| ->]; auto. cbn [inv]. rewrite E. destruct (ok a) eqn:O.
    - cbn. auto.
    - split; [constructor; auto|]. split; [discriminate|auto].
  Qed.
  Lemma keep_gone (gone : list addr) x : keep (match gone with [] => None | _ => Some TcpConnectFailed end) TcpConnectFailed =
    match gone ++ [x] with [] => None | _ => Some TcpConnectFailed end.
  Proof. destruct gone; reflexivity. Qed.
  Lemma inv_step c c' : conn_step ok c c' -> inv c -> inv c'.
  Proof.
    intros S I. inversion S; subst; cbn [inv pending kept_error] in *; destruct I as (gone & P & F & E).
    - exists gone. split; auto. rewrite <- P. apply Permutation_app_head. rewrite app_assoc. rewrite <- Permutation_cons_append. reflexivity.
    - split; auto. eapply Permutation_in; [exact P|]. apply in_app_iff. right.
      assert (X : In x (fl ++ [a])) by (rewrite H; apply in_app_iff; cbn; auto). rewrite in_app_iff in X. cbn in X. cbn. rewrite in_app_iff. tauto.
    - exists (gone ++ [x]). split; [|split].
      + rewrite <- P. rewrite <- app_assoc. apply Permutation_app_head. cbn.
        transitivity (todo ++ x :: l1 ++ l2); [apply Permutation_middle|].
        rewrite (Permutation_middle l1 l2 x), <- H. rewrite app_assoc, <- Permutation_cons_append. reflexivity.
      + apply Forall_app. auto.
      + rewrite E. apply keep_gone.
    - exists gone. auto.
    - split; auto. eapply Permutation_in; [exact P|]. rewrite !in_app_iff. cbn. auto.
    - exists (gone ++ [x]). split; [|split].
      + rewrite <- P. rewrite <- app_assoc. apply Permutation_app_head. cbn. apply Permutation_middle.
      + apply Forall_app. auto.
      + rewrite E. apply keep_gone.
    - rewrite app_nil_r in P. split; [|split].
      + rewrite Forall_forall in *. intros a A. apply F. eapply Permutation_in; [symmetry; exact P|exact A].
      + intros ->. apply Permutation_sym, Permutation_nil in P. subst gone. now rewrite E.
      + intros N. destruct gone as [|g gone]; [apply Permutation_nil in P; congruence|]. now rewrite E.
  Qed.
  Lemma inv_steps c c' : steps ok c c' -> inv c -> inv c'.
  Proof. induction 1; eauto using inv_step. Qed.
  Theorem race_result r : steps ok (conn_start ok addrs) (Returned r) ->
    match r with
    | inl a => In a addrs /\ ok a = true
    | inr e => Forall (fun a => ok a = false) addrs /\
        (addrs = [] -> e = NoConnectionAvailable) /\ (addrs <> [] -> e = TcpConnectFailed)
    end.
  Proof. intros S. apply inv_steps in S; [exact S|apply inv_start]. Qed.
  (** every execution goes on until something is returned, and ends *)
  Theorem race_goes_on c : ~ is_returned c -> exists c', conn_step ok c c'.
  Proof.
    intros N. destruct c as [[|a todo] fl e|fl e|r].
    - eexists. constructor.
    - eexists. apply step_timeout.
    - destruct fl as [|x l]; [eexists; apply step_give_up|]. destruct (ok x) eqn:E; eexists; [apply (step_drain_ok ok e [] x l E)|apply (step_drain_err ok e [] x l E)].
    - elim N. eexists; eauto.
  Qed.
  Definition measure (c : conn) : nat :=
    match c with Racing todo fl _ => 2 * length todo + length fl + 2 | Draining fl _ => length fl + 1 | Returned _ => 0 end.
  Lemma race_measure c c' : conn_step ok c c' -> (measure c' < measure c)%nat.
  Proof.
    destruct 1 as [a todo fl e|a todo fl e l1 x l2 H O|a todo fl e l1 x l2 H O|fl e|e l1 x l2 O|e l1 x l2 O|e]; cbn [measure length];
      try apply (f_equal (@length addr)) in H; rewrite ?app_length in *; cbn [length] in *; lia.
  Qed.
  Theorem race_ends c : Acc (fun c' c => conn_step ok c c') c.
  Proof.
    assert (A : forall n c, (measure c < n)%nat -> Acc (fun c' c => conn_step ok c c') c).
    { induction n as [|n IH]; intros c' L; [lia|]. constructor. intros y S. apply IH. apply race_measure in S. lia. }
    eapply A. apply Nat.lt_succ_diag_r.
  Qed.
End Race.
