From Coq Require Import Reals Lra Lia.
From Verif Require Import Base PixModel SkyrModel RotSpec RotLemmas LenSpec LenModel LenLemmas.
Ltac Zify.zify_post_hook ::= idtac.
Open Scope R_scope.

Lemma dv_some x y : y <> 0 -> dv x y = Some (x / y).
Proof. intros H. unfold dv. destruct (Req_EM_T y 0); [contradiction|reflexivity]. Qed.

Section One.
  Context (dec ra a b : R) (NZ : a <> 0 \/ b <> 0).
  Let d := sqrt (a ^ 2 + b ^ 2).
  Let n := a / d.
  Let e := b / d.
  Let r := gr (sin dec) (cos dec) n (sin d) (cos d).
  Let x := gx (sin dec) (cos dec) n (sin d) (cos d).
  Let DP : 0 < d := proj1 (norm_split a b NZ).

  (* the helper, in the coordinates of the spec *)
  Definition rotA : option R :=
    if Req_EM_T (cos dec) 0 then (if Req_EM_T (sin d) 0 then None else Some 0) else dv e (sin d * sin dec / cos dec + - n * cos d).
  Lemma helper_eq three : offset_by_grad_helper (PI / 2 - dec, ra) (- a, b) three =
    ((acos (gz (sin dec) (cos dec) n (sin d) (cos d)), bind (dv (gy e (sin d)) r) (fun q => Some (ra + asin q))),
     if three then Some (bind rotA (fun A => Some (2 * (- n + e * A) ^ 2 / (1 + A ^ 2) - 1, 2 * (- n + e * A) * (e - - n * A) / (1 + A ^ 2)))) else None).
  Proof.
    unfold offset_by_grad_helper. cbn [fst snd].
    assert (E : (if Req_EM_T (- a) 0 then if Req_EM_T b 0 then (/ 10 ^ 20, / 10 ^ 20) else (- a, b) else (- a, b)) = (- a, b)).
    { destruct (Req_EM_T (- a) 0) as [A0|]; [|reflexivity]. destruct (Req_EM_T b 0) as [B0|]; [|reflexivity]. exfalso. destruct NZ as [H|H]; apply H; lra. }
    rewrite E. cbv zeta. replace ((- a) ^ 2 + b ^ 2) with (a ^ 2 + b ^ 2) by ring. fold d. replace (- a / d) with (- n) by (unfold n; field; lra). fold e.
    rewrite cos_shift, sin_shift.
    replace (cos d * sin dec - sin d * cos dec * - n) with (gz (sin dec) (cos dec) n (sin d) (cos d)) by (unfold gz; ring). fold (gr (sin dec) (cos dec) n (sin d) (cos d)). fold r.
    replace (sin d * e) with (gy e (sin d)) by (unfold gy; ring). fold rotA. destruct three; reflexivity.
  Qed.
  Lemma geo_pos three irot : r <> 0 -> let o := geodesic_one three (IP dec ra irot) (a, b) in o_dec o = turn_dec dec a b /\ o_ra o = Some (turn_ra dec ra a b).
  Proof.
    intros R0. unfold geodesic_one. cbn [i_dec i_ra i_rot fst snd]. rewrite helper_eq. cbn [o_dec o_ra fst snd]. rewrite dv_some by exact R0. split; reflexivity.
  Qed.
  Lemma geo_rot irot : r <> 0 -> 0 <= x ->
    let n' := dot (arriving dec ra a b) (north_at (turn_dec dec a b) (turn_ra dec ra a b)) in let e' := dot (arriving dec ra a b) (east_at (turn_ra dec ra a b)) in n' <> 0 ->
    let c := n * n' + e * e' in let s := e * n' - n * e' in
    exists t, o_rot (geodesic_one true (IP dec ra irot) (a, b)) = Some (Some (match irot with None => t | Some r0 => t + r0 end)) /\
      cos t = c ^ 2 - s ^ 2 /\ sin t = - (2 * c * s).
  Proof.
    intros R0 X n' e' N0 c s. pose proof (arr_comps dec ra a b NZ R0 X) as [P Q]. pose proof (arr_unit dec ra a b NZ R0 X) as U. fold d in P, Q. fold n e in P, Q. fold r in P, Q. fold n' in P, U. fold e' in Q, U.
    pose proof (proj2 (norm_split a b NZ)) as HN. fold d in HN. fold n e in HN.
    unfold geodesic_one. cbn [i_dec i_ra i_rot fst snd]. rewrite helper_eq. cbn [o_rot].
    assert (ZN : cos d * n * cos dec - sin d * sin dec <> 0) by (rewrite <- P; intros Z0; apply Rmult_integral in Z0; tauto).
    assert (AE : rotA = Some (- e' / n')).
    { unfold rotA. destruct (Req_EM_T (cos dec) 0) as [C0|C0].
      - destruct (Req_EM_T (sin d) 0) as [D0|D0]; [exfalso; apply ZN; rewrite C0, D0; ring|]. f_equal. rewrite C0 in Q.
        assert (e' = 0) by (apply (Rmult_eq_reg_l r); [rewrite Q; ring|exact R0]). rewrite H. field. exact N0.
      - assert (DE : sin d * sin dec / cos dec + - n * cos d = - (r * n') / cos dec) by (rewrite P; field; exact C0).
        rewrite DE. rewrite dv_some.
        + f_equal. replace e with (r * e' / cos dec) by (rewrite Q; field; exact C0). field. repeat split; assumption.
        + intros Z0. apply (Rmult_eq_compat_r (cos dec)) in Z0. unfold Rdiv in Z0. rewrite Rmult_assoc, Rinv_l in Z0 by exact C0. apply ZN. lra. }
    rewrite AE. cbn [bind].
    assert (SQ : 1 + (- e' / n') ^ 2 = / n' ^ 2) by (transitivity ((n' ^ 2 + e' ^ 2) / n' ^ 2); [field; exact N0|rewrite U; field; exact N0]).
    assert (CS : c ^ 2 + s ^ 2 = 1) by (unfold c, s; transitivity ((n ^ 2 + e ^ 2) * (n' ^ 2 + e' ^ 2)); [ring|rewrite U, HN; ring]).
    assert (E1 : 2 * (- n + e * (- e' / n')) ^ 2 / (1 + (- e' / n') ^ 2) - 1 = c ^ 2 - s ^ 2).
    { rewrite SQ. transitivity (2 * c ^ 2 - 1); [unfold c; field; exact N0|lra]. }
    assert (E2 : 2 * (- n + e * (- e' / n')) * (e - - n * (- e' / n')) / (1 + (- e' / n') ^ 2) = - (2 * c * s)).
    { rewrite SQ. unfold c, s. field. exact N0. }
    rewrite E1, E2. eexists. split; [reflexivity|]. cbn [fst snd].
    assert (SS : (c ^ 2 - s ^ 2) ^ 2 + (- (2 * c * s)) ^ 2 = 1) by (transitivity ((c ^ 2 + s ^ 2) ^ 2); [ring|rewrite CS; ring]).
    assert (NZ' : c ^ 2 - s ^ 2 <> 0 \/ - (2 * c * s) <> 0).
    { destruct (Req_dec (c ^ 2 - s ^ 2) 0) as [Z0|]; [right|left; assumption]. intros Z1. rewrite Z0, Z1 in SS. lra. }
    destruct (atan2_polar (- (2 * c * s)) (c ^ 2 - s ^ 2) NZ') as [A1 A2]. rewrite SS, sqrt_1, !Rmult_1_l in A1, A2. split; assumption.
  Qed.
End One.
