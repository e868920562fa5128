(** A run in another order. *)
From Verif Require Import TextProofs EvalExamples PrintsExamples WholeExamples TallyExamples AsideProofs ShuffleProofs SpecProcess SpecAside SpecShuffle ProcessExamples.
Open Scope N_scope.

(** all of the second thread before all of the first *)
Definition second_first (l : list (who * event)) : list (who * event) :=
  map (pair (Tester 1)) (events_of (Tester 1) l) ++ map (pair (Tester 0)) (events_of (Tester 0) l).
Lemma events_pair x y l : events_of x (map (pair y) l) = if who_dec y x then l else [].
Proof.
  induction l as [|e l IH]; [now destruct (who_dec y x)|]. cbn [map]. change ((y, e) :: map (pair y) l) with ([(y, e)] ++ map (pair y) l). rewrite events_app, IH.
  unfold events_of. cbn [flat_map fst snd]. now destruct (who_dec y x).
Qed.
Definition by_two (x : who * event) : bool := match fst x with Tester id => (id =? 0) || (id =? 1) | _ => true end.
Lemma others_silent l id : forallb by_two l = true -> id <> 0 -> id <> 1 -> events_of (Tester id) l = [].
Proof.
  intros F A B. apply events_none. intros I. apply in_map_iff in I. destruct I as ([x e] & E & I). rewrite forallb_forall in F. specialize (F _ I). cbn [fst] in E. subst x. cbn in F.
  apply orb_prop in F. destruct F as [F|F]; apply N.eqb_eq in F; congruence.
Qed.
Lemma shuffle_example : (forall path, g_creates slow_setting path = true) /\ numbered_apart (@rev _) slow (at_file whole_text) (Some (lit "one")) /\ goes slow_setting slow_launch slow_finish /\ p_main slow_finish = Gone true /\
  reordered (p_log slow_finish) (second_first (p_log slow_finish)) /\ second_first (p_log slow_finish) <> tests_part (p_log slow_finish) /\
  map (fun id => length (events_of (Tester id) (p_log slow_finish))) [0; 1] = [12%nat; 12%nat].
Proof.
  split; [reflexivity|]. split; [intros E; discriminate E|]. split; [apply play_goes|]. split; [vm_compute; reflexivity|]. split.
  - assert (M : events_of Main (p_log slow_finish) = []) by (vm_compute; reflexivity). assert (F : forallb by_two (p_log slow_finish) = true) by (vm_compute; reflexivity).
    generalize dependent (p_log slow_finish). intros l M F. split.
    + exists (second_first l). rewrite M. split; [reflexivity|]. unfold second_first. apply Forall_app. split; apply Forall_forall; intros x I; apply in_map_iff in I; destruct I as (e & <- & _); eexists; reflexivity.
    + intros id. unfold second_first. rewrite events_app, !events_pair. destruct (who_dec (Tester 1) (Tester id)) as [E|E], (who_dec (Tester 0) (Tester id)) as [E'|E'].
      * congruence.
      * injection E as <-. now rewrite app_nil_r.
      * injection E' as <-. reflexivity.
      * symmetry. apply others_silent; auto; intros ->; [apply E'|apply E]; reflexivity.
  - split; [|vm_compute; reflexivity]. intros E. apply (f_equal (map fst)) in E. vm_compute in E. discriminate E.
Qed.
