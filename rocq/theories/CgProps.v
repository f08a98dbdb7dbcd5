(* C28: the conjugate gradient and minimal residual solvers. *)
From Coq Require Import Reals Lra.
From Verif Require Import Base CgSpec CgModel CgLemmas.
Open Scope R_scope.

(* After any number of steps, from any starting point and with any preconditioner and any dot
   product, the residual the solver holds is that of the solution it holds. *)
Theorem C28_residual : forall (U : vspace) (A M : vec U -> vec U) dot b x0 n s,
  linear_system U A ->
  iter (cg_step U A M dot) n (cg_init U A M dot b x0) = Some s ->
  cg_r s = vsub U b (A (cg_x s)).
Proof. intros U A M dot b x0 n s LS H. eapply (iter_honest U A M dot b LS n _ _ H). apply init_honest. exact LS. Qed.
Print Assumptions C28_residual.

(* It has counted the steps, and the error it reports is the current squared residual relative to the first *)
Theorem C28_err : forall (U : vspace) (A M : vec U -> vec U) dot b x0 n s,
  iter (cg_step U A M dot) n (cg_init U A M dot b x0) = Some s ->
  let r0 := match x0 with None => b | Some x => vsub U b (A x) end in
  cg_i s = n /\ cg_err s = match n with O => None | _ => Some (dot (cg_r s) (M (cg_r s)) / dot r0 (M r0)) end.
Proof.
  intros U A M dot b x0 n s H r0.
  assert (G : forall n s0 s, iter (cg_step U A M dot) n s0 = Some s -> cg_i s = (n + cg_i s0)%nat /\ cg_rz0 s = cg_rz0 s0 /\ cg_err s = match n with O => cg_err s0 | _ => Some (dot (cg_r s) (M (cg_r s)) / cg_rz0 s0) end).
  { clear. induction n as [|n IH]; cbn; intros s0 s H; [apply Some_inj in H; subst; auto|]. destruct (cg_step U A M dot s0) as [s1|] eqn:E; [|discriminate].
    unfold cg_step in E. repeat destruct (Req_EM_T _ _); try discriminate. apply Some_inj in E. destruct (IH s1 s H) as (I1 & I2 & I3). subst s1. cbn in I1, I2, I3. split; [lia|]. split; [exact I2|]. destruct n; [|exact I3]. cbn in H. apply Some_inj in H. subst s. reflexivity. }
  destruct (G n _ s H) as (I1 & _ & I3). subst r0. unfold cg_init in *. destruct x0; cbn in *; (split; [lia|exact I3]).
Qed.
Print Assumptions C28_err.

(* Saving at any point and loading the file into any other solver for the same system, however
   far that one had got, resumes the iteration exactly where it was. *)
Theorem C28_resume : forall (U : vspace) (A M : vec U -> vec U) dot s0 k n s t,
  iter (cg_step U A M dot) k s0 = Some s ->
  iter (cg_step U A M dot) n (load t (save s)) = iter (cg_step U A M dot) (k + n) s0.
Proof.
  intros U A M dot s0 k n s t H. rewrite load_save. revert s0 H. induction k as [|k IH]; cbn; intros s0 H; [congruence|].
  destruct (cg_step U A M dot s0); [|discriminate]. apply IH. exact H.
Qed.
Print Assumptions C28_resume.

(* With a symmetric system and preconditioner, the residual after more steps is orthogonal to every
   earlier preconditioned residual and search direction, and the directions are mutually conjugate. *)
Theorem C28_conjugate : forall (U : vspace) (A M : vec U -> vec U) dot b x0 m n s t,
  dot_laws U dot -> selfadjoint dot A -> selfadjoint dot M ->
  iter (cg_step U A M dot) m (cg_init U A M dot b x0) = Some t ->
  (0 < n)%nat -> iter (cg_step U A M dot) n t = Some s ->
  dot (cg_r s) (M (cg_r t)) = 0 /\ dot (cg_r s) (cg_p t) = 0 /\ dot (cg_p s) (A (cg_p t)) = 0.
Proof. intros. eapply conjugate; eassumption. Qed.
Print Assumptions C28_conjugate.

(* Minres keeps the same promise about its residual, and its q is A p *)
Theorem C28_minres : forall (U : vspace) (A : vec U -> vec U) dot b x0 n s,
  linear_system U A ->
  iter (mr_step U A dot) n (mr_init U A dot b x0) = Some s ->
  mr_r s = vsub U b (A (mr_x s)) /\ mr_q s = A (mr_p s).
Proof. intros U A dot b x0 n s LS H. destruct (mr_iter_honest U A dot b LS n _ _ H) as (H1 & H2 & _); [apply mr_init_honest; exact LS|auto]. Qed.
Print Assumptions C28_minres.

(* a 2x2 system to which all of this applies *)
Definition plane : vspace := VS (R * R) (0, 0) (fun u v => (fst u + fst v, snd u + snd v)) (fun u v => (fst u - fst v, snd u - snd v)) (fun a u => (a * fst u, a * snd u)).
Definition pA (u : R * R) : R * R := (2 * fst u + snd u, fst u + 3 * snd u).
Definition pdot (u v : R * R) : R := fst u * fst v + snd u * snd v.
Example C28_example_laws : linear_system plane pA /\ dot_laws plane pdot /\ selfadjoint pdot pA.
Proof.
  split; [|split].
  - constructor; intros; repeat match goal with x : vec plane |- _ => destruct x end; unfold pA; cbn; f_equal; ring.
  - constructor; intros; repeat match goal with x : vec plane |- _ => destruct x end; unfold pdot; cbn; ring.
  - intros [] []; unfold pA, pdot; cbn; ring.
Qed.
(* two steps solve it: the solution of [[2,1],[1,3]] x = (1,0) is (3/5,-1/5) *)
Example C28_example : exists s, iter (cg_step plane pA (fun v => v) pdot) 2 (cg_init plane pA (fun v => v) pdot (1, 0) None) = Some s /\ cg_x s = (3/5, -1/5) /\ cg_r s = (0, 0).
Proof.
  cbn [iter]. unfold cg_step at 1. cbv zeta. cbn [cg_p cg_rz cg_rz0 cg_i cg_x cg_r cg_init].
  unfold pdot, pA; cbn [fst snd plane vscale vadd vsub vzero vec].
  repeat (destruct (Req_EM_T _ _) as [X|_]; [exfalso; lra|]). unfold cg_step. cbv zeta. cbn [cg_p cg_rz cg_rz0 cg_i cg_x cg_r fst snd plane vscale vadd vsub vec].
  repeat (destruct (Req_EM_T _ _) as [X|_]; [exfalso; lra|]). eexists. split; [reflexivity|]. cbn. split; f_equal; field; lra.
Qed.
