(* C107: redistributing the slices of a large array between tasks. *)
From Verif Require Import Base SboxSpec SboxModel ArrModel RdsSpec RdsModel RdsLemmas.
Ltac Zify.zify_post_hook ::= idtac.

(* The full property would have no condition on the order of the boxes: C107_crossing_refuted shows that it fails then. *)
Theorem C107_redistribute_partial {A} (zero : A) (garr : Z -> Z -> A) (tasks : list (task A)) :
  Forall (task_ok garr) tasks ->
  (forall s t, In s tasks -> In t tasks -> no_crossing (t_iboxes s) (t_oboxes t)) ->
  exists res, redistribute zero tasks = Some res /\
    Forall2 (fun t oarrs => Forall2 (filled zero garr tasks) (t_oboxes t) oarrs) tasks res.
Proof. intros Hok Hc. exact (redistribute_ok zero garr tasks Hok Hc). Qed.
Print Assumptions C107_redistribute_partial.

(* in particular: any two tasks exchange data for at most one input box, or at most one output box *)
Theorem C107_single_partial {A} (zero : A) (garr : Z -> Z -> A) (tasks : list (task A)) :
  Forall (task_ok garr) tasks ->
  (forall s t, In s tasks -> In t tasks -> (length (t_iboxes s) <= 1)%nat \/ (length (t_oboxes t) <= 1)%nat) ->
  exists res, redistribute zero tasks = Some res /\
    Forall2 (fun t oarrs => Forall2 (filled zero garr tasks) (t_oboxes t) oarrs) tasks res.
Proof.
  intros Hok Hc. apply (redistribute_ok zero garr tasks Hok). intros s t Hs Ht a a' b b' ia ia' ob ob' Ha Hb Ea Ea' Eb Eb' _.
  assert (N1 : (a' < length (t_iboxes s))%nat) by (apply nth_error_Some; congruence).
  assert (N2 : (b' < length (t_oboxes t))%nat) by (apply nth_error_Some; congruence).
  destruct (Hc s t Hs Ht); lia.
Qed.
Print Assumptions C107_single_partial.

(* two input boxes and two output boxes on one task: rows 0-1 and 2-3 come in, rows 1-2 and 0-3 are asked for *)
Definition cross_task : task Z :=
  TK [FA 2 1 (fun y _ => y); FA 2 1 (fun y _ => y + 2)] [((0, 2, 1), (0, 1, 1)); ((2, 4, 1), (0, 1, 1))]
     [((1, 3, 1), (0, 1, 1)); ((0, 4, 1), (0, 1, 1))].

Lemma at_range n m (a : farr Z) (g : Z -> Z -> Z) (b : box2) : 
  indices (fst b) = n -> indices (snd b) = m -> f_ny a = zlen n -> f_nx a = zlen m ->
  forallb (fun y => forallb (fun x => match zget n y, zget m x with Some gy, Some gx => f_at a y x =? g gy gx | _, _ => true end) (zrange 0 (zlen m))) (zrange 0 (zlen n)) = true ->
  slice_of g b a.
Proof.
  intros En Em Hy Hx H. unfold slice_of, has_shape, at_box. rewrite En, Em. split; [auto|]. intros y x gy gx [Ey Ex].
  rewrite forallb_forall in H. assert (Q := H y). rewrite forallb_forall in Q.
  assert (Q2 : In y (zrange 0 (zlen n))) by (apply zrange_In; exact (zget_Some_range _ _ _ Ey)).
  specialize (Q Q2 x). rewrite Ey, Ex in Q. apply Z.eqb_eq. apply Q. apply zrange_In. exact (zget_Some_range _ _ _ Ex).
Qed.

Lemma cross_task_ok : task_ok (fun gy _ => gy) cross_task.
Proof.
  split; [discriminate|]. split; [|split].
  - repeat constructor; cbn; try discriminate; lia.
  - repeat constructor; cbn; try discriminate; lia.
  - repeat apply Forall2_cons; try apply Forall2_nil; eapply at_range; vm_compute; reflexivity.
Qed.

Theorem C107_crossing_refuted :
  exists (garr : Z -> Z -> Z) (tasks : list (task Z)), Forall (task_ok garr) tasks /\
    ~ exists res, redistribute 0 tasks = Some res /\
        Forall2 (fun t oarrs => Forall2 (filled 0 garr tasks) (t_oboxes t) oarrs) tasks res.
Proof.
  exists (fun gy _ => gy), [cross_task]. split; [constructor; [exact cross_task_ok|constructor]|].
  intros (res & E & F). inversion F as [|? oarrs ? ? F1 F2]; subst. inversion F2; subst.
  cbn [cross_task t_oboxes] in F1. inversion F1 as [|? o1 ? l G1 G2]; subst. inversion G2 as [|? o2 ? l2 G3 G4]; subst. inversion G4; subst. clear F F1 F2 G2 G4 G1.
  assert (W : f_at o2 0 0 = 0).
  { destruct G3 as [_ G3]. destruct (G3 0 0 0 0) as [G5 _]; [split; reflexivity|]. apply G5. exists cross_task, ((0, 2, 1), (0, 1, 1)). split; [now left|]. split; [now left|]. split; vm_compute; auto. }
  apply (f_equal (fun r => match r with Some [[_; o]] => f_at o 0 0 | _ => 0 end)) in E. rewrite W in E. vm_compute in E. discriminate.
Qed.
Print Assumptions C107_crossing_refuted.

(* outside the claim: a task with nothing to give fails *)
Theorem C107_no_input {A} (zero : A) (tasks : list (task A)) t : In t tasks -> t_iboxes t = [] -> redistribute zero tasks = None.
Proof.
  intros Ht E. unfold redistribute. assert (H : all_some (map (outgoing tasks) tasks) = None); [|now rewrite H].
  assert (G : outgoing tasks t = None) by (unfold outgoing; now rewrite E). clear E. revert Ht. generalize tasks at 1 3. intros l.
  induction l as [|u l IH]; intros []; cbn [map all_some].
  - subst u. now rewrite G.
  - rewrite IH by assumption. destruct (outgoing tasks u); reflexivity.
Qed.
Print Assumptions C107_no_input.

(* two tasks; a strided and a reversed box; one element nobody holds *)
Definition ex_garr (y x : Z) : Z := 10 * y + x.
Definition ex_tasks : list (task Z) :=
  [TK [FA 2 3 (fun y x => ex_garr (2 * y) x)] [((0, 4, 2), (0, 3, 1))] [((3, -1, -1), (2, 0, -1)); ((4, 6, 1), (0, 2, 1))];
   TK [FA 2 3 (fun y x => ex_garr (1 + 2 * y) x)] [((1, 5, 2), (0, 3, 1))] [((0, 4, 3), (0, 3, 2))]].
Example C107_ex : Forall (task_ok ex_garr) ex_tasks /\
  (forall s t, In s ex_tasks -> In t ex_tasks -> (length (t_iboxes s) <= 1)%nat \/ (length (t_oboxes t) <= 1)%nat) /\
  option_map (map (map (@ravel Z))) (redistribute (-1) ex_tasks) = Some [[[32; 31; 22; 21; 12; 11; 2; 1]; [-1; -1; -1; -1]]; [[0; 2; 30; 32]]].
Proof.
  split; [|split].
  - repeat apply Forall_cons; try apply Forall_nil; (split; [discriminate|]; split; [|split]); try (repeat constructor; cbn; try discriminate; lia);
      repeat apply Forall2_cons; try apply Forall2_nil; eapply at_range; vm_compute; reflexivity.
  - intros s t Hs _. left. destruct Hs as [<-|[<-|[]]]; cbn; lia.
  - vm_compute. reflexivity.
Qed.
