(* C28: conjugate gradients reach the solution. *)
From Coq Require Import Reals Lra Lia.
From Verif Require Import Base CgSpec CgModel CgLemmas CgLemmas2 CgProps.
Open Scope R_scope.

(* For a symmetric positive definite system in a space with finitely many dimensions, es being orthonormal directions that give the
   length of every vector, the solver gets to a residual of length zero without ever dividing by zero, in no more steps than there are
   dimensions. *)
Theorem C28_ends : forall (U : vspace) (A : vec U -> vec U) dot b es,
  linear_system U A -> dot_laws U dot -> selfadjoint dot A ->
  (forall u, 0 <= dot u u) -> (forall u, dot u (A u) = 0 -> dot u u = 0) ->
  (forall e, In e es -> dot e e = 1) -> (forall u, fold_right (fun e s => dot e u * dot e u + s) 0 es = dot u u) ->
  exists n s, (n <= length es)%nat /\
    iter (cg_step U A (fun v => v) dot) n (cg_init U A (fun v => v) dot b None) = Some s /\
    let r := vsub U b (A (cg_x s)) in dot r r = 0.
Proof.
  intros U A dot b es LS DL SA POS PD E1 E2. destruct (ends U dot DL POS A b SA (fun _ => True) I (fun _ _ _ _ _ => I) (fun _ _ _ _ _ => I) (fun _ => I) (fun u _ => PD u) es) as (n & s & Hn & H & R).
  { split; [exact E1|]. intros u. rewrite <- E2. clear. induction es as [|e es IH]; [reflexivity|]. cbn [lsum fold_right]. rewrite IH. reflexivity. }
  exists n, s. split; [exact Hn|]. split; [exact H|]. cbv zeta. rewrite <- (C28_residual U A (fun v => v) dot b None n s LS H). exact R.
Qed.
Print Assumptions C28_ends.

(* the 2x2 system of C28_example *)
Example C28_ends_ex : (forall u, 0 <= pdot u u) /\ (forall u, pdot u (pA u) = 0 -> pdot u u = 0) /\
  (forall e, In e [(1, 0); (0, 1)] -> pdot e e = 1) /\ (forall u, fold_right (fun e s => pdot e u * pdot e u + s) 0 [(1, 0); (0, 1)] = pdot u u).
Proof.
  repeat split.
  - intros []. unfold pdot. cbn. nra.
  - intros [x y]. unfold pdot, pA. cbn. intros H. assert (Q : (x + y) * (x + y) + x * x + 2 * (y * y) = 0) by lra. pose proof (Rle_0_sqr (x + y)). pose proof (Rle_0_sqr x). pose proof (Rle_0_sqr y). unfold Rsqr in *. lra.
  - intros e [<-|[<-|[]]]; unfold pdot; cbn; ring.
  - intros []. unfold pdot. cbn. ring.
Qed.
