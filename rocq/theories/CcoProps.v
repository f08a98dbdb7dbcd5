From Coq Require Import Reals List Bool Lia Lra Psatz.
From Verif Require Import CndSpec CndProps EigSpec CcoModel.
Import ListNotations.
Open Scope R_scope.
Ltac Zify.zify_post_hook ::= idtac.

Definition variances (n : nat) (C : mat) : Prop := forall i, (i < n)%nat -> 0 < C i i.
Lemma cov2corr_some n C : variances n C -> cov2corr n C = Some ((fun i j => C i j * (1 / sqrt (C i i)) * (1 / sqrt (C j j))), fun i => sqrt (C i i)).
Proof. intros V. unfold cov2corr. replace (forallb _ (seq 0 n)) with true; [reflexivity|]. symmetry. apply forallb_forall. intros i I. apply in_seq in I. destruct (Rlt_dec 0 (C i i)) as [|N]; [reflexivity|]. elim N. apply V. lia. Qed.
(* C133 the standard deviations and a matrix with ones on the diagonal, which corr2cov puts together again; only for positive variances *)
Theorem C133_corr n C : variances n C <-> exists corr std, cov2corr n C = Some (corr, std) /\
  (forall i, (i < n)%nat -> 0 < std i /\ std i ^ 2 = C i i /\ corr i i = 1) /\ meq n (corr2cov corr std) C.
Proof.
  split.
  - intros V. rewrite cov2corr_some by exact V. do 2 eexists. split; [reflexivity|]. split.
    + intros i I. specialize (V i I). assert (S : 0 < sqrt (C i i)) by now apply sqrt_lt_R0. assert (Q : sqrt (C i i) * sqrt (C i i) = C i i) by (apply sqrt_sqrt; lra). split; [exact S|]. split; [lra|]. cbn beta. rewrite <- Q at 1. field. lra.
    + intros i j I J. unfold corr2cov. pose proof (sqrt_lt_R0 _ (V i I)). pose proof (sqrt_lt_R0 _ (V j J)). field. lra.
  - intros (corr & std & H & D & _) i I. destruct (D i I) as (S & E & _). rewrite <- E. nra.
Qed.
Print Assumptions C133_corr.
(* and the other way round *)
Theorem C133_back n corr std : (forall i, (i < n)%nat -> 0 < std i /\ corr i i = 1) ->
  exists corr' std', cov2corr n (corr2cov corr std) = Some (corr', std') /\ meq n corr' corr /\ forall i, (i < n)%nat -> std' i = std i.
Proof.
  intros H. assert (D : forall i, (i < n)%nat -> sqrt (corr2cov corr std i i) = std i). { intros i I. destruct (H i I) as [P O]. unfold corr2cov. rewrite O. replace (1 * std i * std i) with (std i * std i) by ring. apply sqrt_square. lra. }
  rewrite cov2corr_some.
  - do 2 eexists. split; [reflexivity|]. split; [|exact D]. intros i j I J. rewrite !D by assumption. unfold corr2cov. pose proof (proj1 (H i I)). pose proof (proj1 (H j J)). field. lra.
  - intros i I. destruct (H i I) as [P O]. unfold corr2cov. rewrite O. nra.
Qed.
Print Assumptions C133_back.
(* correlations are between -1 and 1 *)
Theorem C133_bounds n C corr std : symmetric n C -> (forall a, 0 <= covar n C a a) -> cov2corr n C = Some (corr, std) -> forall i j, (i < n)%nat -> (j < n)%nat -> corr i j = corr j i /\ -1 <= corr i j <= 1.
Proof.
  intros SY PS H i j I J. assert (V : variances n C). { intros k K. unfold cov2corr in H. destruct (forallb _ (seq 0 n)) eqn:F; [|discriminate]. rewrite forallb_forall in F. specialize (F k ltac:(apply in_seq; lia)). destruct (Rlt_dec 0 (C k k)); [assumption|discriminate]. }
  rewrite cov2corr_some in H by exact V. injection H as <- <-. split; [rewrite (SY i j I J); ring|].
  pose proof (V i I) as Vi. pose proof (V j J) as Vj. pose proof (sqrt_lt_R0 _ Vi) as Si. pose proof (sqrt_lt_R0 _ Vj) as Sj. assert (Qi : sqrt (C i i) * sqrt (C i i) = C i i) by (apply sqrt_sqrt; lra). assert (Qj : sqrt (C j j) * sqrt (C j j) = C j j) by (apply sqrt_sqrt; lra).
  (* the variance of x_i / s_i + t x_j / s_j *)
  assert (Q : forall t, 0 <= C i i + 2 * t * C i j + t * t * C j j).
  { intros t. specialize (PS (fun k => delta k i + t * delta k j)). 
    rewrite covar_plus_r in PS. rewrite !covar_delta_r in PS by assumption.
    assert (L : forall m, (m < n)%nat -> lsum (seq 0 n) (fun k => (delta k i + t * delta k j) * C k m) = C i m + t * C j m).
    { intros m M. rewrite (lsum_ext _ _ (fun k => C k m * delta k i + t * (C k m * delta k j))) by (intros; ring). rewrite lsum_plus, lsum_scal. rewrite !(lsum_delta _ (fun k => C k m)); [reflexivity|apply seq_NoDup|apply in_seq; lia|apply seq_NoDup|apply in_seq; lia]. }
    rewrite !L in PS by assumption. rewrite (SY j i J I) in PS. lra. }
  set (si := sqrt (C i i)) in *. set (sj := sqrt (C j j)) in *. assert (IS : 0 < / (si * sj)) by (apply Rinv_0_lt_compat; nra).
  pose proof (Q (si / sj)) as Q1. pose proof (Q (- si / sj)) as Q2. rewrite <- Qi, <- Qj in Q1, Q2.
  replace (C i j * (1 / si) * (1 / sj)) with (C i j * / (si * sj)) by (field; lra).
  replace (si * si + 2 * (si / sj) * C i j + si / sj * (si / sj) * (sj * sj)) with (2 * (si * si) * (1 + C i j * / (si * sj))) in Q1 by (field; lra).
  replace (si * si + 2 * (- si / sj) * C i j + - si / sj * (- si / sj) * (sj * sj)) with (2 * (si * si) * (1 - C i j * / (si * sj))) in Q2 by (field; lra).
  assert (0 < si * si) by nra. set (r := C i j * / (si * sj)) in *. split; nra.
Qed.
Print Assumptions C133_bounds.
(* correlations do not depend on the units of the variables *)
Theorem C133_units n C u corr std : (forall i, (i < n)%nat -> 0 < u i) -> cov2corr n C = Some (corr, std) ->
  exists corr' std', cov2corr n (fun i j => u i * C i j * u j) = Some (corr', std') /\ meq n corr' corr /\ forall i, (i < n)%nat -> std' i = u i * std i.
Proof.
  intros U H. assert (V : variances n C). { intros k K. unfold cov2corr in H. destruct (forallb _ (seq 0 n)) eqn:F; [|discriminate]. rewrite forallb_forall in F. specialize (F k ltac:(apply in_seq; lia)). destruct (Rlt_dec 0 (C k k)); [assumption|discriminate]. }
  rewrite cov2corr_some in H by exact V. injection H as <- <-. 
  assert (D : forall i, (i < n)%nat -> sqrt (u i * C i i * u i) = u i * sqrt (C i i)). { intros i I. pose proof (U i I). pose proof (V i I). replace (u i * C i i * u i) with (u i * u i * C i i) by ring. rewrite sqrt_mult by nra. rewrite sqrt_square by lra. reflexivity. }
  rewrite cov2corr_some by (intros i I; pose proof (U i I); pose proof (V i I); apply Rmult_lt_0_compat; [apply Rmult_lt_0_compat; assumption|assumption]).
  do 2 eexists. split; [reflexivity|]. split; [|exact D]. intros i j I J. rewrite !D by assumption. pose proof (U i I). pose proof (U j J). pose proof (sqrt_lt_R0 _ (V i I)). pose proof (sqrt_lt_R0 _ (V j J)). field. lra.
Qed.
Print Assumptions C133_units.
Example C133_ex_hyps : variances 2 ex_C /\ symmetric 2 ex_C /\ forall a, 0 <= covar 2 ex_C a a.
Proof. split; [intros [|[|i]] I; [unfold ex_C; cbn [Nat.eqb]; lra| |lia]; unfold ex_C; cbn [Nat.eqb]; lra|]. split; [intros i j _ _; apply C129_ex_hyps|apply C129_ex_hyps]. Qed.
Example C133_ex : match cov2corr 2 (fun i j => match i, j with O, O => 4 | S _, S _ => 9 | _, _ => 3 end) with Some (c, s) => c 0%nat 1%nat = 1 / 2 /\ s 1%nat = 3 | None => False end.
Proof.
  rewrite cov2corr_some by (intros [|i] _; lra). cbn [Nat.eqb]. replace 4 with (2 * 2) by lra. replace 9 with (3 * 3) by lra. rewrite !sqrt_square by lra. split; [field|reflexivity].
Qed.
