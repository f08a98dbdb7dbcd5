(* Lemmas for IplProps: the interpolation weights. *)
From Coq Require Import Reals Lra Lia FunctionalExtensionality.
From Verif Require Import Base AlmModel AlmLemmas IplSpec IplModel IplLemmas IplLemmas2 IplLemmas3 IplLemmas4 IplLemmas5 IplLemmas6.
Ltac Zify.zify_post_hook ::= idtac.
Open Scope R_scope.

(* ---------------------------------------------------------------- kernels that need no filter *)
Definition cardinal (t : kind) (order : Z) : Prop :=
  match t with Conv => order = 0 \/ order = 1 \/ order = 3 | Spline => order = 0 \/ order = 1 | Lanczos => 0 <= order end%Z.

Lemma sinc_0 x : x = 0 -> sinc x = 1.
Proof. intros E. subst. unfold sinc. rewrite Rmult_0_r, Rabs_R0. destruct (Rlt_dec 0 (/ 10 ^ 4)) as [H|H]; [field|]. exfalso. apply H. apply Rinv_0_lt_compat, pow_lt. lra. Qed.
Lemma sin_kPI k : sin (PI * IZR (Z.of_nat k)) = 0.
Proof.
  induction k as [|k IH]; [cbn; rewrite Rmult_0_r; apply sin_0|]. rewrite Nat2Z.inj_succ. unfold Z.succ. rewrite plus_IZR, Rmult_plus_distr_l, Rmult_1_r, neg_sin, IH. ring.
Qed.
Lemma sinc_int k : (1 <= k)%Z -> sinc (IZR k) = 0.
Proof.
  intros H. unfold sinc. assert (K : 1 <= IZR k) by (apply IZR_le; lia). pose proof PI_RGT_0 as P. pose proof PI2_1 as P2.
  rewrite Rabs_right by nra. destruct (Rlt_dec (PI * IZR k) (/ 10 ^ 4)) as [G|G].
  - exfalso. assert (/ 10 ^ 4 < 1). { rewrite <- Rinv_1 at 1. apply Rinv_lt_contravar; [rewrite Rmult_1_l; apply pow_lt; lra|]. simpl. lra. } unfold PI2 in P2. nra.
  - replace k with (Z.of_nat (Z.to_nat k)) at 1 by lia. rewrite sin_kPI. unfold Rdiv. ring.
Qed.

Lemma nint_int j : nint (IZR j) = j.
Proof.
  unfold nint. destruct (Rle_dec 0 (IZR j)).
  - apply rfloor_unique. lra.
  - rewrite <- opp_IZR, (rfloor_unique _ (- j)%Z); [lia|]. lra.
Qed.
Lemma weight_delta t order j k : cardinal t order -> (0 <= k < nweight t order)%Z ->
  weight_at t order (IZR j) k = if (k + offset t order (IZR j) =? j)%Z then 1 else 0.
Proof.
  intros C Hk. destruct (Z.eq_dec order 0) as [E|E].
  - subst order. unfold weight_at, offset. cbn [Z.eqb]. rewrite nint_int. assert (K : k = 0%Z) by (destruct t; cbn [nweight] in Hk; lia). subst k. rewrite Z.add_0_l, Z.eqb_refl. reflexivity.
  - assert (O : (1 <= order)%Z) by (destruct t; cbn [cardinal] in C; lia). rewrite weight_int, offset_int by exact O.
    destruct t; cbn [cardinal] in C.
    + destruct C as [C|[C|C]]; [contradiction|subst order; change (nweight Conv 1) with 2%Z in *; change ((2 - 1) / 2)%Z with 0%Z|subst order; change (nweight Conv 3) with 4%Z in *; change ((4 - 1) / 2)%Z with 1%Z].
      * assert (K : (k = 0 \/ k = 1)%Z) by lia. destruct K; subst k; [replace (0 + (j - 0) =? j)%Z with true by lia|replace (1 + (j - 0) =? j)%Z with false by lia]; [change (Z.abs (0 - 0)) with 0%Z|change (Z.abs (0 - 1)) with 1%Z]; unfold kernel; klt; lra.
      * assert (K : (k = 0 \/ k = 1 \/ k = 2 \/ k = 3)%Z) by lia.
        destruct K as [K|[K|[K|K]]]; subst k; [replace (0 + (j - 1) =? j)%Z with false by lia; change (Z.abs (1 - 0)) with 1%Z|replace (1 + (j - 1) =? j)%Z with true by lia; change (Z.abs (1 - 1)) with 0%Z|replace (2 + (j - 1) =? j)%Z with false by lia; change (Z.abs (1 - 2)) with 1%Z|replace (3 + (j - 1) =? j)%Z with false by lia; change (Z.abs (1 - 3)) with 2%Z]; unfold kernel; klt; lra.
    + destruct C as [C|C]; [contradiction|]. subst order. change (nweight Spline 1) with 2%Z in *. change ((2 - 1) / 2)%Z with 0%Z.
      assert (K : (k = 0 \/ k = 1)%Z) by lia. destruct K; subst k; [replace (0 + (j - 0) =? j)%Z with true by lia|replace (1 + (j - 0) =? j)%Z with false by lia]; [change (Z.abs (0 - 0)) with 0%Z|change (Z.abs (0 - 1)) with 1%Z]; unfold kernel; klt; lra.
    + set (h := ((nweight Lanczos order - 1) / 2)%Z). assert (H0 : 1 <= IZR order) by (apply IZR_le; lia).
      destruct (Z.eqb_spec (k + (j - h)) j) as [F|F].
      * replace (h - k)%Z with 0%Z by lia. change (Z.abs 0) with 0%Z. unfold kernel. klt. rewrite !sinc_0; [ring|unfold Rdiv; ring|reflexivity].
      * unfold kernel. destruct (Rlt_dec _ _); [|reflexivity]. rewrite sinc_int by lia. ring.
Qed.

Lemma rsuml_one (f : Z -> R) n a v : (0 <= a < n)%Z -> (forall k, (0 <= k < n)%Z -> f k = if (k =? a)%Z then v else 0) -> rsuml (map f (zrange 0 n)) = v.
Proof.
  intros Ha Hf. rewrite (rsuml_ext f (fun k => if (k =? a)%Z then v else 0)) by (intros k Hk; apply zrange_In in Hk; apply Hf; lia).
  rewrite (zrange_split 0 a n), map_app, rsuml_app by lia. rewrite (zrange_cons a n) by lia. cbn [map rsuml]. rewrite Z.eqb_refl.
  rewrite !rsuml_zero; [ring|..]; intros k Hk; apply zrange_In in Hk; destruct (Z.eqb_spec k a); try reflexivity; lia.
Qed.

Lemma nest_delta b t order shape J data e : cardinal t order -> inside shape J -> nest b t order shape (map IZR J) data e = data (ravel shape J e).
Proof.
  intros C. revert J e; induction shape as [|n shape IH]; intros [|j J] e HI; cbn [inside] in HI; try contradiction; [reflexivity|].
  cbn [map nest ravel]. destruct HI as [Hj HI]. rewrite <- IH by exact HI.
  assert (W : (0 <= j - offset t order (IZR j) < nweight t order)%Z).
  { destruct (Z.eq_dec order 0) as [E|E].
    - subst order. unfold offset. cbn [Z.eqb]. rewrite nint_int. destruct t; cbn [nweight]; lia.
    - rewrite offset_int by (destruct t; cbn [cardinal] in C; lia). assert (1 <= nweight t order)%Z by (destruct t; cbn [cardinal nweight] in *; [destruct C as [C|[C|C]]; subst; lia|lia|lia]).
      pose proof (Z.div_pos (nweight t order - 1) 2). pose proof (Z.div_le_upper_bound (nweight t order - 1) 2 (nweight t order - 1)). lia. }
  apply (rsuml_one _ _ (j - offset t order (IZR j))%Z); [exact W|].
  intros k Hk. rewrite weight_delta by assumption. destruct (Z.eqb_spec (k + offset t order (IZR j)) j) as [F|F].
  - replace (k =? j - offset t order (IZR j))%Z with true by lia. rewrite F. replace (map_border b n j) with j by (unfold map_border; replace ((j <? 0) || (j >=? n))%Z with false by lia; reflexivity). ring.
  - replace (k =? j - offset t order (IZR j))%Z with false by lia. ring.
Qed.

(* ---------------------------------------------------------------- sums of weights *)
Definition interpolating (t : kind) (order : Z) : Prop :=
  match t with Conv => order = 1 \/ order = 3 | Spline => 1 <= order <= 5 | Lanczos => False end%Z.

Ltac kcase := repeat match goal with |- context [Rlt_dec ?a ?b] => destruct (Rlt_dec a b) end.
Ltac kabs := repeat match goal with |- context [Rabs ?x] => first [rewrite (Rabs_right x) by lra | rewrite (Rabs_left1 x) by lra] end.

Lemma offset_bounds t order p : (1 <= order)%Z -> (IZR (nweight t order) - 2) * 0.5 <= p - IZR (offset t order p) < (IZR (nweight t order) - 2) * 0.5 + 1.
Proof. intros H. unfold offset. replace (order =? 0)%Z with false by lia. pose proof (rfloor_bounds (p - (IZR (nweight t order) - 2) * 0.5)). lra. Qed.

(* the weights as functions of the position u relative to the first cell *)
Lemma weight_u t order p k : (1 <= order)%Z -> weight_at t order p k = kernel t order (Rabs (p - IZR (offset t order p) - IZR k)).
Proof. intros H. unfold weight_at. replace (order =? 0)%Z with false by lia. f_equal. f_equal. ring. Qed.

Lemma weights_moments t order p : interpolating t order ->
  rsuml (map (fun k => weight_at t order p k) (zrange 0 (nweight t order))) = 1 /\
  rsuml (map (fun k => weight_at t order p k * IZR (k + offset t order p)) (zrange 0 (nweight t order))) = p.
Proof.
  intros I. assert (O : (1 <= order)%Z) by (destruct t; cbn [interpolating] in I; try lia; contradiction).
  pose proof (offset_bounds t order p O) as B.
  set (off := offset t order p) in *. set (u := p - IZR off) in *. assert (EP : p = u + IZR off) by (unfold u; ring).
  assert (M : forall l, rsuml (map (fun k => weight_at t order p k * IZR (k + off)) l) =
    rsuml (map (fun k => weight_at t order p k * IZR k) l) + IZR off * rsuml (map (fun k => weight_at t order p k) l)).
  { induction l as [|k l IH]; cbn [map rsuml]; [ring|]. rewrite IH, plus_IZR. ring. }
  enough (G : rsuml (map (fun k => kernel t order (Rabs (u - IZR k))) (zrange 0 (nweight t order))) = 1 /\
              rsuml (map (fun k => kernel t order (Rabs (u - IZR k)) * IZR k) (zrange 0 (nweight t order))) = u).
  { destruct G as [G1 G2].
    assert (E : forall k, weight_at t order p k = kernel t order (Rabs (u - IZR k))) by (intros k; apply weight_u, O).
    assert (S1 : rsuml (map (fun k => weight_at t order p k) (zrange 0 (nweight t order))) = 1) by (rewrite <- G1; apply rsuml_ext; intros; apply E).
    split; [exact S1|]. rewrite M, S1. rewrite (rsuml_ext _ (fun k => kernel t order (Rabs (u - IZR k)) * IZR k)) by (intros; rewrite E; reflexivity). rewrite G2, EP. ring. }
  clear M EP. clearbody u off.
  assert (D : (t = Conv /\ order = 1 \/ t = Conv /\ order = 3 \/ t = Spline /\ order = 1 \/ t = Spline /\ order = 2 \/ t = Spline /\ order = 3 \/ t = Spline /\ order = 4 \/ t = Spline /\ order = 5)%Z).
  { destruct t; cbn [interpolating] in I; [|..]; try contradiction; try (destruct I; subst; tauto). assert (J : (order = 1 \/ order = 2 \/ order = 3 \/ order = 4 \/ order = 5)%Z) by lia. tauto. }
  destruct D as [[E1 E2]|[[E1 E2]|[[E1 E2]|[[E1 E2]|[[E1 E2]|[[E1 E2]|[E1 E2]]]]]]]; subst t order; clear I O;
  [change (nweight Conv 1) with 2%Z in *; change (zrange 0 2) with [0; 1]%Z
  |change (nweight Conv 3) with 4%Z in *; change (zrange 0 4) with [0; 1; 2; 3]%Z
  |change (nweight Spline 1) with 2%Z in *; change (zrange 0 2) with [0; 1]%Z
  |change (nweight Spline 2) with 3%Z in *; change (zrange 0 3) with [0; 1; 2]%Z
  |change (nweight Spline 3) with 4%Z in *; change (zrange 0 4) with [0; 1; 2; 3]%Z
  |change (nweight Spline 4) with 5%Z in *; change (zrange 0 5) with [0; 1; 2; 3; 4]%Z
  |change (nweight Spline 5) with 6%Z in *; change (zrange 0 6) with [0; 1; 2; 3; 4; 5]%Z]; cbn [map rsuml]; unfold kernel.
  - assert (C : 0 <= u < 1) by lra. clear B. kabs. destruct (Req_dec u 0) as [Z0|Z0]; [subst u|]; klt; split; lra.
  - assert (C : 1 <= u < 2) by lra. clear B. kabs. destruct (Req_dec u 1) as [Z0|Z0]; [subst u|]; klt; split; lra.
  - assert (C : 0 <= u < 1) by lra. clear B. kabs. destruct (Req_dec u 0) as [Z0|Z0]; [subst u|]; klt; split; lra.
  - assert (C : 0.5 <= u < 1.5) by lra. clear B. destruct (Rle_dec 1 u); kabs; (destruct (Req_dec u 0.5) as [Z0|Z0]; [subst u; try lra|]); klt; split; lra.
  - assert (C : 1 <= u < 2) by lra. clear B. kabs. destruct (Req_dec u 1) as [Z0|Z0]; [subst u|]; klt; split; lra.
  - assert (C : 1.5 <= u < 2.5) by lra. clear B. destruct (Rle_dec 2 u); kabs; (destruct (Req_dec u 1.5) as [Z0|Z0]; [subst u; try lra|]); klt; split; lra.
  - assert (C : 2 <= u < 3) by lra. clear B. kabs. destruct (Req_dec u 2) as [Z0|Z0]; [subst u|]; klt; split; lra.
Qed.
