(* C32: point in polygon. *)
From Coq Require Import QArith Lqa.
From Verif Require Import Base PolySpec PolyModel PolyLemmas.
Open Scope Q_scope.

(* For every polygon (convex or not) and every point that is level with none of its corners and on
   no line through two of them, the answer is the even-odd inside of the polygon. *)
Theorem C32_inside_partial : forall p poly, generic p poly -> point_in_polygon p poly = inside p poly.
Proof. exact pip_inside. Qed.
Print Assumptions C32_inside_partial.

(* A point level with a corner can be reported on the wrong side: points in the middle of a diamond
   are called outside, and points far to the left of a polygon inside it *)
Theorem C32_level_refuted : let diamond := [(0, -(1)); (1, 0); (0, 1); (-(1), 0)] in
  inside (1 # 16, 0) diamond = true /\ point_in_polygon (1 # 16, 0) diamond = false /\ point_in_polygon (0, 0) diamond = false /\ inside (1 # 16, 1 # 16) diamond = true /\ point_in_polygon (1 # 16, 1 # 16) diamond = true.
Proof. cbv zeta. repeat split; vm_compute; reflexivity. Qed.
Print Assumptions C32_level_refuted.
Theorem C32_level_outside_refuted : exists p poly, point_in_polygon p poly = true /\ inside p poly = false /\ (forall v, In v poly -> fst p < fst v).
Proof.
  exists (-(5), 0), [(0, -(1)); (3, 0); (2, 1); (0, 1)]. split; [vm_compute; reflexivity|]. split; [vm_compute; reflexivity|]. intros v Hv. cbn in Hv. repeat destruct Hv as [<-|Hv]; try contradiction; cbn; lra.
Qed.
Print Assumptions C32_level_outside_refuted.

Example C32_example : let poly := [(0, 0); (0, 4); (4, 4); (2, 1)] in
  generic (1 # 2, 1 # 4) [(0, 0); (0, 1); (1, 1); (1, 0)] /\ point_in_polygon (1 # 2, 1 # 4) [(0, 0); (0, 1); (1, 1); (1, 0)] = true /\ point_in_polygon (1 # 2, 5 # 2) poly = true /\ inside (1 # 2, 5 # 2) poly = true /\ inside (3, 2) poly = false /\ point_in_polygon (3, 2) poly = false.
Proof.
  split; [|repeat split; vm_compute; reflexivity]. split; [repeat constructor; cbn; lra|].
  intros a b Ha Hb. cbn in Ha, Hb. repeat destruct Ha as [<-|Ha]; repeat destruct Hb as [<-|Hb]; try contradiction; unfold side; cbn [fst snd]; intros H; split; lra.
Qed.
