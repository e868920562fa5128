(** What the [test] command starts, and the names of the record files *)
From Verif Require Import TestCommand SpecLex DigitsProofs ValueProofs RunMore.
From Coq Require Import Permutation Lia.
Open Scope N_scope.

(** ** Names of record files *)

Lemma decimal_app a b : Forall digit b -> decimal (a ++ b) = decimal a * 10 ^ N.of_nat (length b) + decimal b.
Proof.
  intros D. unfold decimal. rewrite fold_left_app. set (x := fold_left _ a 0).
  assert (G : forall l (x y : N), fold_left (fun x c => 10 * x + (c - 48)) l (x + y) = x * 10 ^ N.of_nat (length l) + fold_left (fun x c => 10 * x + (c - 48)) l y).
  { clear. induction l as [|c l IH]; intros x y; cbn [fold_left length].
    - cbn. lia.
    - replace (10 * (x + y) + (c - 48)) with (10 * x + (10 * y + (c - 48))) by lia. rewrite IH. rewrite Nat2N.inj_succ, N.pow_succ_r'. lia. }
  rewrite <- G. f_equal. apply eq_sym, N.add_0_r.
Qed.
Lemma decimal_bound l : Forall digit l -> decimal l < 10 ^ N.of_nat (length l).
Proof.
  induction l as [|c l IH] using rev_ind; intros D.
  - cbn. lia.
  - apply Forall_app in D. destruct D as [D C]. inversion C as [|? ? Dc _]; subst. rewrite decimal_snoc, app_length. cbn [length].
    replace (N.of_nat (length l + 1)) with (N.succ (N.of_nat (length l))) by lia. rewrite N.pow_succ_r'. specialize (IH D). unfold digit in Dc. lia.
Qed.
Lemma decimal_zeros k l : decimal (repeat 48 k ++ l) = decimal l.
Proof. induction k as [|k IH]; [reflexivity|]. cbn [repeat app]. unfold decimal in *. cbn [fold_left]. exact IH. Qed.
Lemma zeros_digits k : Forall digit (repeat 48 k).
Proof. induction k as [|k IH]; constructor; auto. unfold digit. lia. Qed.
Lemma decimal_cons c l : Forall digit l -> decimal (c :: l) = (c - 48) * 10 ^ N.of_nat (length l) + decimal l.
Proof. intros D. change (c :: l) with ([c] ++ l). rewrite decimal_app by auto. reflexivity. Qed.

(** equally long numerals are ordered as the numbers *)
Lemma digits_cmp (a : str) : forall b : str, length a = length b -> Forall digit a -> Forall digit b -> str_cmp a b = N.compare (decimal a) (decimal b).
Proof.
  induction a as [|x a IH]; intros [|y b] L A B; try discriminate; [reflexivity|].
  cbn [length] in L. injection L as L. inversion A as [|? ? Dx Da]; inversion B as [|? ? Dy Db]; subst. cbn [str_cmp].
  rewrite (decimal_cons x a), (decimal_cons y b) by auto. specialize (IH _ L Da Db).
  pose proof (decimal_bound _ Da) as Ba. pose proof (decimal_bound _ Db) as Bb. rewrite <- L in *. set (p := 10 ^ N.of_nat (length a)) in *.
  unfold digit in *. destruct (N.compare_spec x y) as [->|H|H].
  - rewrite IH. symmetry. destruct (N.compare_spec (decimal a) (decimal b)); [apply N.compare_eq_iff|apply N.compare_lt_iff|apply N.compare_gt_iff]; lia.
  - symmetry. apply N.compare_lt_iff. nia.
  - symmetry. apply N.compare_gt_iff. nia.
Qed.
Lemma show_N_short n : n < 10 ^ 6 -> (length (show_N n) <= 6)%nat.
Proof.
  intros H. destruct (N.eq_dec n 0) as [->|NZ]; [cbn; lia|].
  unfold show_N. destruct (show_fuel (N.size_nat n) n [] (size_bound n)) as (ds & -> & (NE & D & V) & HD). rewrite app_nil_r. specialize (HD NZ).
  destruct ds as [|c ds]; [congruence|]. cbn [hd] in HD. inversion D as [|? ? Dc Dd]; subst. rewrite decimal_cons in H by auto.
  destruct (le_lt_dec (length (c :: ds)) 6) as [|L]; [assumption|exfalso]. cbn [length] in L.
  assert (10 ^ 6 <= 10 ^ N.of_nat (length ds)) by (apply N.pow_le_mono_r; lia). unfold digit in Dc. nia.
Qed.

(** the digits after [pod] *)
Lemma file_name_shape pod n : exists ds, file_name pod n = pod ++ ds /\ numeral ds n /\ length ds = Nat.max 6 (length (show_N n)).
Proof.
  exists (repeat 48 (6 - length (show_N n)) ++ show_N n). destruct (show_N_numeral n) as (NE & D & V). split; [reflexivity|]. split; [split; [|split]|].
  - intros E. apply app_eq_nil in E. tauto.
  - apply Forall_app. split; [apply zeros_digits|assumption].
  - now rewrite decimal_zeros.
  - rewrite app_length, repeat_length. change (@length char) with (@length N) in *. lia.
Qed.
Theorem file_name_inj pod a b : file_name pod a = file_name pod b -> a = b.
Proof.
  destruct (file_name_shape pod a) as (x & -> & (_ & _ & <-) & _). destruct (file_name_shape pod b) as (y & -> & (_ & _ & <-) & _).
  intros E. apply app_inv_head in E. now subst.
Qed.
Lemma str_cmp_prefix p a b : str_cmp (p ++ a) (p ++ b) = str_cmp a b.
Proof. induction p as [|c p IH]; [reflexivity|]. cbn [app str_cmp]. now rewrite N.compare_refl. Qed.
Theorem file_name_order pod a b : a < 1000000 -> b < 1000000 -> str_cmp (file_name pod a) (file_name pod b) = N.compare a b.
Proof.
  intros A B. destruct (file_name_shape pod a) as (x & -> & (_ & Dx & Vx) & Lx). destruct (file_name_shape pod b) as (y & -> & (_ & Dy & Vy) & Ly).
  pose proof (show_N_short a A). pose proof (show_N_short b B). rewrite str_cmp_prefix, digits_cmp by (auto; lia). now rewrite Vx, Vy.
Qed.
Theorem file_name_digits pod n : exists ds, file_name pod n = pod ++ ds /\ Forall digit ds /\ decimal ds = n /\ (length ds >= 6)%nat /\ (n < 1000000 -> length ds = 6%nat).
Proof.
  destruct (file_name_shape pod n) as (ds & E & (_ & D & V) & L). exists ds. repeat split; auto; [lia|]. intros B. pose proof (show_N_short n B). lia.
Qed.

(** ** What is started *)

Definition indices (n : nat) : list N := map N.of_nat (seq 0 n).

Lemma named_jobs_shape pod c name body m n : forall id, let js := named_jobs pod c name body m id n in
  map j_thread js = map (fun i => id + N.of_nat i) (seq 0 n) /\
  Forall (fun j => j_name j = name /\ j_body j = body /\ j_limit j = Some m /\ j_ctx j = ctx_clone c /\ j_file j = record_name pod (j_thread j)) js.
Proof.
  induction n as [|n IH]; intros id js; subst js; [split; [reflexivity|constructor]|]. cbn [named_jobs map seq]. destruct (IH (id + 1)) as [T F]. split.
  - cbn [j_thread]. f_equal; [lia|]. rewrite T, <- seq_shift, map_map. apply map_ext. intros i. lia.
  - constructor; [repeat split; reflexivity|exact F].
Qed.
Lemma all_jobs_shape pod c ts : forall id, id + N.of_nat (length ts) <= 2 ^ 32 -> let js := all_jobs pod c id ts in
  map j_thread js = map (fun i => id + N.of_nat i) (seq 0 (length ts)) /\ map (fun j => (j_name j, j_body j)) js = ts /\
  Forall (fun j => j_limit j = None /\ j_ctx j = ctx_clone c /\ j_file j = record_name pod (j_thread j)) js.
Proof.
  induction ts as [|[nm body] ts IH]; intros id B js; subst js; [repeat split; constructor|]. cbn [all_jobs map seq length] in *. destruct (IH (id + 1)) as (T & P & F); [lia|].
  split; [|split].
  - cbn [j_thread]. f_equal; [rewrite N.mod_small; lia|]. rewrite T, <- seq_shift, map_map. apply map_ext. intros i. lia.
  - cbn [j_name j_body]. now rewrite P.
  - constructor; [repeat split; reflexivity|exact F].
Qed.
Lemma files_distinct (js : list job) pod : NoDup (map j_thread js) -> Forall (fun j => j_file j = record_name (Some pod) (j_thread j)) js -> NoDup (map j_file js).
Proof.
  intros ND F. induction js as [|j js IH]; [constructor|]. inversion ND as [|? ? N1 N2]; inversion F as [|? ? F1 F2]; subst. cbn [map]. constructor; auto.
  rewrite F1. intros J. apply in_map_iff in J. destruct J as (j' & E & J). rewrite Forall_forall in F2. rewrite (F2 _ J) in E. cbn in E.
  injection E as E. apply file_name_inj in E. apply N1. rewrite <- E. now apply in_map.
Qed.
Lemma indices_nodup n : NoDup (indices n).
Proof. unfold indices. apply FinFun.Injective_map_NoDup; [intros a b; apply Nat2N.inj|apply seq_NoDup]. Qed.

Section Started.
  Variables (iter : list (str * list expr) -> list (str * list expr)) (w : env) (text : str) (threads : N) (duration : option N) (number : N) (pod : option str).
  Local Notation start name := (main_test iter w text name threads duration number pod).
  Local Notation fresh src := (St (Ctx [] (mextend [] (s_requests src)) []) []).

  Theorem bad_source name e : parse text = Err e ->
    exists s, start name = (Ok None, s) /\ s_trace s = [Printed (perr_text e ++ [10])].
  Proof. intros P. unfold main_test, test_command, test_setup. rewrite P. eexists. split; reflexivity. Qed.

  Theorem bad_setup name src e s1 : parse text = Ok src -> eval_block w (s_exprs src) (fresh src) = (Err e, s1) ->
    exists s, start name = (Ok None, s) /\ s_trace s = s_trace s1 ++ [Printed (everr_text (e_host w) e ++ [10])].
  Proof.
    intros P E. unfold main_test, test_command, test_setup. rewrite P. unfold upd, ctx_extend. cbn [s_ctx s_trace c_vars c_reqs c_recs ctx_new].
    rewrite E. eexists. split; reflexivity.
  Qed.

  Theorem lost_source name : parse text = Diverge -> fst (start name) = Diverge.
  Proof. intros P. unfold main_test, test_command, test_setup. rewrite P. reflexivity. Qed.
  Theorem lost_setup name src o s1 : parse text = Ok src -> eval_block w (s_exprs src) (fresh src) = (o, s1) ->
    (o = Panic -> start name = (Panic, s1)) /\ (o = Diverge -> start name = (Diverge, s1)).
  Proof.
    intros P E. unfold main_test, test_command, test_setup. rewrite P. unfold upd, ctx_extend. cbn [s_ctx s_trace c_vars c_reqs c_recs ctx_new].
    rewrite E. split; intros ->; reflexivity.
  Qed.

  Lemma setup_ok src v s1 : parse text = Ok src -> eval_block w (s_exprs src) (fresh src) = (Ok v, s1) ->
    test_setup w text = (Ok (Some (s_tests src, s_ctx s1)), s1).
  Proof.
    intros P E. unfold test_setup. rewrite P. unfold upd, ctx_extend. cbn [s_ctx s_trace c_vars c_reqs c_recs ctx_new]. now rewrite E.
  Qed.

  Theorem unknown_test name src v s1 : parse text = Ok src -> eval_block w (s_exprs src) (fresh src) = (Ok v, s1) ->
    mget name (s_tests src) = None ->
    exists s, start (Some name) = (Ok (Some []), s) /\ s_trace s = s_trace s1 ++ [Printed (lit "Test not found: " ++ name ++ [10])].
  Proof.
    intros P E M. unfold main_test, test_command. rewrite (setup_ok _ _ _ P E), M. eexists. split; [reflexivity|].
    unfold println_, emit. cbn [s_trace]. now rewrite <- app_assoc.
  Qed.

  Definition starts_like (c : ctx) (j : job) : Prop := c_vars (j_ctx j) = c_vars c /\ c_reqs (j_ctx j) = c_reqs c /\ c_recs (j_ctx j) = [].
  Lemma clone_starts c j : j_ctx j = ctx_clone c -> starts_like c j.
  Proof. unfold starts_like. now intros ->. Qed.

  Theorem named_test name body src v s1 : parse text = Ok src -> eval_block w (s_exprs src) (fresh src) = (Ok v, s1) ->
    mget name (s_tests src) = Some body ->
    (threads = 0 -> start (Some name) = (Panic, s1)) /\
    (threads <> 0 -> exists js, start (Some name) = (Ok (Some js), s1) /\ map j_thread js = indices (N.to_nat threads) /\
       (forall j, In j js -> j_name j = name /\ j_body j = body /\ starts_like (s_ctx s1) j /\
          j_limit j = Some (match duration with Some _ => 4294967295 | None => number end / threads) /\
          j_file j = match pod with Some p => Some (file_name p (j_thread j)) | None => None end) /\
       (pod <> None -> NoDup (map j_file js))).
  Proof.
    intros P E M. unfold main_test, test_command. rewrite (setup_ok _ _ _ P E), M. unfold maximun_of. split.
    - intros ->. reflexivity.
    - intros NZ. apply N.eqb_neq in NZ. rewrite NZ.
      set (m := snd (run_limits duration number) / threads).
      destruct (named_jobs_shape pod (s_ctx s1) name body m (N.to_nat threads) 0) as [T F].
      assert (T' : map j_thread (named_jobs pod (s_ctx s1) name body m 0 (N.to_nat threads)) = indices (N.to_nat threads)) by (rewrite T; reflexivity).
      eexists. split; [reflexivity|]. split; [exact T'|]. split.
      + intros j J. rewrite Forall_forall in F. destruct (F _ J) as (A & B & C & D & G). split; [exact A|]. split; [exact B|]. split; [now apply clone_starts|]. split.
        * rewrite C. unfold m. destruct duration; reflexivity.
        * rewrite G. now destruct pod.
      + intros NP. destruct pod as [p|]; [|congruence]. eapply files_distinct with (pod := p).
        * rewrite T'. apply indices_nodup.
        * eapply Forall_impl; [|exact F]. cbn beta. tauto.
  Qed.

  Theorem all_tests src v s1 : parse text = Ok src -> eval_block w (s_exprs src) (fresh src) = (Ok v, s1) ->
    (forall l, Permutation (iter l) l) -> N.of_nat (length (s_tests src)) <= 2 ^ 32 ->
    exists js, start None = (Ok (Some js), s1) /\ map j_thread js = indices (length (s_tests src)) /\
      Permutation (map (fun j => (j_name j, j_body j)) js) (s_tests src) /\
      (forall j, In j js -> starts_like (s_ctx s1) j /\ j_limit j = None /\
         j_file j = match pod with Some p => Some (file_name p (j_thread j)) | None => None end) /\
      (pod <> None -> NoDup (map j_file js)).
  Proof.
    intros P E I B. unfold main_test, test_command. rewrite (setup_ok _ _ _ P E).
    assert (L : length (iter (s_tests src)) = length (s_tests src)) by (apply Permutation_length, I).
    destruct (all_jobs_shape pod (s_ctx s1) (iter (s_tests src)) 0) as (T & Q & F); [rewrite L; lia|].
    assert (T' : map j_thread (all_jobs pod (s_ctx s1) 0 (iter (s_tests src))) = indices (length (s_tests src))) by (rewrite T, L; reflexivity).
    eexists. split; [reflexivity|]. split; [exact T'|]. split; [rewrite Q; apply I|]. split.
    - intros j J. rewrite Forall_forall in F. destruct (F _ J) as (A & C & D). split; [now apply clone_starts|]. split; [exact A|]. rewrite D. now destruct pod.
    - intros NP. destruct pod as [p|]; [|congruence]. eapply files_distinct with (pod := p).
      + rewrite T'. apply indices_nodup.
      + eapply Forall_impl; [|exact F]. cbn beta. tauto.
  Qed.
End Started.

Theorem started_files iter w text name threads duration number p js s :
  (forall l, Permutation (iter l) l) -> (forall src, parse text = Ok src -> N.of_nat (length (s_tests src)) <= 2 ^ 32) ->
  main_test iter w text name threads duration number (Some p) = (Ok (Some js), s) ->
  NoDup (map j_file js) /\ Forall (fun j => j_file j = Some (file_name p (j_thread j))) js.
Proof.
  intros I B E. destruct (parse text) as [src|e| |] eqn:P.
  - destruct (eval_block w (s_exprs src) (St (Ctx [] (mextend [] (s_requests src)) []) [])) as [[v|e| |] s1] eqn:EB.
    + destruct name as [name|].
      * destruct (mget name (s_tests src)) as [body|] eqn:M.
        -- destruct (named_test iter w text threads duration number (Some p) _ _ _ _ _ P EB M) as [Z K]. destruct (N.eq_dec threads 0) as [->|NZ].
           { rewrite (Z eq_refl) in E. discriminate. }
           destruct (K NZ) as (js' & E' & _ & F & ND). rewrite E in E'. injection E' as <- _. split; [apply ND; discriminate|].
           apply Forall_forall. intros j J. now destruct (F _ J) as (_ & _ & _ & _ & G).
        -- destruct (unknown_test iter w text threads duration number (Some p) _ _ _ _ P EB M) as (s' & E' & _). rewrite E in E'. injection E' as -> _. split; constructor.
      * destruct (all_tests iter w text threads duration number (Some p) _ _ _ P EB I (B _ eq_refl)) as (js' & E' & _ & _ & F & ND). rewrite E in E'. injection E' as <- _.
        split; [apply ND; discriminate|]. apply Forall_forall. intros j J. now destruct (F _ J) as (_ & _ & G).
    + destruct (bad_setup iter w text threads duration number (Some p) name _ _ _ P EB) as (s' & E' & _). congruence.
    + destruct (lost_setup iter w text threads duration number (Some p) name _ _ _ P EB) as [L _]. rewrite L in E; congruence.
    + destruct (lost_setup iter w text threads duration number (Some p) name _ _ _ P EB) as [_ L]. rewrite L in E; congruence.
  - destruct (bad_source iter w text threads duration number (Some p) name _ P) as (s' & E' & _). congruence.
  - unfold main_test, test_command, test_setup in E. rewrite P in E. discriminate.
  - pose proof (lost_source iter w text threads duration number (Some p) name P) as L. rewrite E in L. discriminate.
Qed.
