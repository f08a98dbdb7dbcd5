(* Interpolation (interpol.py, fortran/interpol.F90): C75-C79. *)
From Coq Require Import Reals Lra Lia FunctionalExtensionality.
From Verif Require Import Base AlmModel AlmLemmas IplSpec IplModel IplLemmas IplLemmas2 IplLemmas3 IplLemmas4 IplLemmas5 IplLemmas6 IplLemmas7 IplLemmas8 IplLemmas9.
Ltac Zify.zify_post_hook ::= idtac.
Open Scope R_scope.

(* ================================================================ C75: trans=True is the transpose *)

(* The threads may take the lines in any order, in either direction. *)
Theorem C75_spline_filter dims order border ndim L1 L2 x y : border <> Breflect -> (ndim <= length dims)%nat ->
  (forall n, In n dims -> (1 <= n)%Z) -> (forall n, In n (skipn (length dims - ndim) dims) -> (2 <= n)%Z) ->
  valid_lines dims L1 -> valid_lines dims L2 ->
  exists u v, spline_filter L1 true dims x order border ndim false = Some u /\ spline_filter L2 true dims y order border ndim true = Some v /\
    dot (zprod dims) u y = dot (zprod dims) x v.
Proof.
  intros H1 H2 H3 H4 H5 H6. destruct (spline_filter_adj dims order border ndim L1 L2 H1 H2 H3 H4 H5 H6) as (F & G & HF & HG & A).
  exists (F x), (G y). split; [apply HF|]. split; [apply HG|]. apply A.
Qed.

(* Whatever the order of the threads' additions. *)
Theorem C75_interpol t order b shape npre points x y res :
  (forall n, In n shape -> (1 <= n)%Z /\ (b = EMirror -> (2 <= n)%Z)) -> (forall pos, In pos points -> length pos = length shape) -> (0 <= npre)%Z ->
  interpol_T t order b shape npre points y res ->
  dot (npre * zlen points) (interpol t order b shape points x) y = dot (npre * zprod shape) x res.
Proof. intros H1 H2 H3 (us & P & E). subst res. apply interpol_adj; assumption. Qed.

Theorem C75_map_coordinates_partial pre post t order border prefilter points L1 L2 x y idata res : border <> Breflect ->
  (forall n, In n pre -> (1 <= n)%Z) -> (forall n, In n post -> (2 <= n)%Z) -> (forall pos, In pos points -> length pos = length post) ->
  valid_lines (pre ++ post) L1 -> valid_lines (pre ++ post) L2 ->
  map_coordinates_T L2 true true pre post t order border prefilter points idata y res ->
  exists u v, map_coordinates L1 true pre post t order border prefilter points x = Some u /\ res = Some v /\
    dot (zprod pre * zlen points) u y = dot (zprod (pre ++ post)) x v.
Proof.
  intros Hb Hpre Hpost Hpts V1 V2 (core & HC & HR). cbv zeta in HR. unfold map_coordinates.
  assert (Hp : (0 <= zprod pre)%Z) by (pose proof (zprod_pos pre Hpre); lia).
  assert (HS : forall n, In n post -> (1 <= n)%Z /\ (iborder border = EMirror -> (2 <= n)%Z)) by (intros n Hn; specialize (Hpost n Hn); lia).
  pose proof (fun z => C75_interpol t order (iborder border) post (zprod pre) points z y core HS Hpts Hp HC) as A.
  assert (Plain : exists u v, Some (interpol t order (iborder border) post points x) = Some u /\ Some core = Some v /\ dot (zprod pre * zlen points) u y = dot (zprod (pre ++ post)) x v).
  { exists (interpol t order (iborder border) post points x), core. split; [reflexivity|]. split; [reflexivity|]. rewrite zprod_app. apply A. }
  destruct t; cbn [bind]; [rewrite HR; exact Plain| |rewrite HR; exact Plain].
  destruct prefilter; cbn [bind]; [|rewrite HR; exact Plain].
  destruct (C75_spline_filter (pre ++ post) order border (length post) L1 L2 x core Hb) as (u & v & E1 & E2 & D).
  - rewrite app_length; lia.
  - intros n Hn. apply in_app_or in Hn as [Hn|Hn]; [apply Hpre, Hn|specialize (Hpost n Hn); lia].
  - rewrite app_length, Nat.add_sub, skipn_app, skipn_all, Nat.sub_diag. exact Hpost.
  - exact V1.
  - exact V2.
  - rewrite E1. cbn [bind]. exists (interpol Spline order (iborder border) post points u), v. split; [reflexivity|]. split; [rewrite HR; exact E2|].
    rewrite A, <- zprod_app. exact D.
Qed.

(* "reflect" is documented and accepted by map_coordinates, but the filter does not know it. *)
Theorem C75_reflect_refuted lines contig pre post order points idata : map_coordinates lines contig pre post Spline order Breflect true points idata = None.
Proof. reflexivity. Qed.
(* An axis with a single sample can be filtered but not filtered transposed: the code reads the element before the line. *)
Theorem C75_short_axis_refuted (data : arr) lines : lines O = [(0, 0)]%Z ->
  (exists r, spline_filter lines true [1%Z] data 3 Bcyclic 1 false = Some r) /\ spline_filter lines true [1%Z] data 3 Bcyclic 1 true = None.
Proof.
  intros E. unfold spline_filter. cbn [filter_border bind length Nat.sub seq rev app ofold]. rewrite E. unfold spline_filter1d. cbn [nth poles skipn zprod ofold].
  unfold do_line. cbn [fst snd pole_loop ofold rev app]. set (p := sqrt 3 - 2). set (h := horizon p). split.
  - unfold pole_fwd, causal_init. replace (zrange 0 (Z.min 1 h - 1)) with (@nil Z) by (symmetry; apply zrange_empty; lia). cbn [map ofold bind fst snd].
    assert (F : forall a, forwards 1 p a = Some a) by (intros a; unfold forwards; rewrite zrange_empty by lia; reflexivity).
    assert (B : forall a, backwards 1 p a = Some a) by (intros a; unfold backwards; rewrite zrange_empty by lia; reflexivity).
    assert (A : forall a, exists c, back_init ECyclic 1 h p a = Some c).
    { intros a. unfold back_init. rewrite rd_in by lia. cbn [bind]. rewrite (accum_spec 1) by (intros i Hi; apply zrange_In in Hi; lia). cbn [bind]. rewrite wr_in by lia. eauto. }
    destruct (h >=? 1)%Z; [unfold div1; rewrite rd_in by lia; cbn [bind]; rewrite wr_in by lia|]; cbn [bind]; rewrite F; cbn [bind];
      match goal with |- context [back_init ECyclic 1 h p ?a] => destruct (A a) as [c Ec]; rewrite Ec end; cbn [bind]; rewrite B; cbn [bind ofold]; eauto.
  - unfold pole_trans, backwards_T. rewrite rd_in by lia. cbn [bind]. rewrite wr_in by lia. cbn [bind]. rewrite zrange_empty by lia. cbn [ofold bind]. rewrite rd_in by lia. cbn [bind]. reflexivity.
Qed.

(* An array that is not in C order is returned unfiltered. *)
Theorem C75_layout_refuted : exists lines dims data r, valid_lines dims lines /\
  spline_filter lines true dims data 3 Bcyclic 1 false = Some r /\ spline_filter lines false dims data 3 Bcyclic 1 false = Some data /\ r 0%Z <> data 0%Z.
Proof.
  exists (fun axis => all_lines (zprod (skipn (S axis) [2; 2]%Z)) (zprod (firstn axis [2; 2]%Z))), [2; 2]%Z, (fun e => if (e =? 0)%Z then 1 else 0).
  set (lines := fun axis => all_lines (zprod (skipn (S axis) [2; 2]%Z)) (zprod (firstn axis [2; 2]%Z))). set (data := fun e => if (e =? 0)%Z then 1 else 0).
  assert (V : valid_lines [2; 2]%Z lines) by (intros axis Ha; apply Permutation_refl).
  assert (D1 : forall x, In x [2; 2]%Z -> (1 <= x)%Z) by (intros x [E|[E|[]]]; lia).
  assert (D2 : forall x, In x (skipn (length [2; 2]%Z - 1) [2; 2]%Z) -> (2 <= x)%Z) by (cbn [length Nat.sub skipn]; intros x [E|[]]; lia).
  destruct (C75_spline_filter [2; 2]%Z 3 Bcyclic 1 lines lines data data ltac:(discriminate) ltac:(cbn; lia) D1 D2 V V) as (r & _ & E & _).
  exists r. split; [exact V|]. split; [exact E|]. split; [apply filter_layout; try assumption; [discriminate|cbn; lia]|].
  apply (filter_is_ofold lines [2; 2]%Z data 3 ECyclic Bcyclic 1 r eq_refl) in E.
  set (p := sqrt 3 - 2) in *. assert (HP := poles_spec 3 [p] eq_refl). cbn [svals] in HP. inversion HP as [|p' s' ps' ss' HP1 HP2 E1 E2]. subst p' s' ps' ss'. destruct HP1 as [P0 [P1 PE]].
  assert (Hh : (2 <= horizon p)%Z).
  { apply short_horizon; [exact P0|exact P1|lia|]. change (Z.to_nat (2 - 1)) with 1%nat. rewrite pow_1. unfold p. assert (S3 : sqrt 3 < 1.8). { apply Rsqr_incrst_0; [|apply sqrt_pos|lra]. unfold Rsqr. rewrite sqrt_sqrt by lra. lra. }
    rewrite Rabs_left by lra. assert (/ 10 ^ 15 < / 10) by (apply Rinv_lt_contravar; [apply Rmult_lt_0_compat; [lra|apply pow_lt; lra]|simpl; lra]). lra. }
  assert (NZ : forall j, (0 <= j < 2)%Z -> nzone ECyclic 3 [p] [2%Z] [j]).
  { intros j Hj. cbn [nzone]. split; [lia|]. split; [exact Hj|]. split; [left; split; [left; reflexivity|intros q [Eq|[]]; subst q; exact Hh]|]. split; [|exact Logic.I]. intros k _. apply mb_range; [left; reflexivity|lia]. }
  assert (X := nest_exact ECyclic 3 [p] eq_refl [2; 2]%Z lines D1 V [2%Z] [2%Z] eq_refl [0%Z] data (NZ 0%Z ltac:(lia)) r E 0%Z ltac:(cbn; lia)).
  assert (Y := nest_exact ECyclic 3 [p] eq_refl [2; 2]%Z lines D1 V [2%Z] [2%Z] eq_refl [1%Z] data (NZ 1%Z ltac:(lia)) r E 0%Z ltac:(cbn; lia)).
  assert (N : forall j, nest ECyclic Spline 3 [2%Z] (map IZR [j]) r 0 = line_sum ECyclic Spline 3 2 (IZR j) (fun i => r (i - 1)%Z)).
  { intros j. cbn [map nest]. unfold line_sum. apply rsuml_ext. intros k _. f_equal. f_equal. lia. }
  rewrite N, sum_3 in X, Y. change (ravel [2%Z] [0%Z] 0) with 0%Z in X. change (ravel [2%Z] [1%Z] 0) with 1%Z in Y. unfold data in X at 1, Y at 1. cbn [Z.eqb] in X, Y.
  change (ext ECyclic 2 (fun i => r (i - 1)%Z) (0 - 1)) with (r 1%Z) in X. change (ext ECyclic 2 (fun i => r (i - 1)%Z) 0) with (r 0%Z) in X. change (ext ECyclic 2 (fun i => r (i - 1)%Z) (0 + 1)) with (r 1%Z) in X.
  change (ext ECyclic 2 (fun i => r (i - 1)%Z) (1 - 1)) with (r 0%Z) in Y. change (ext ECyclic 2 (fun i => r (i - 1)%Z) 1) with (r 1%Z) in Y. change (ext ECyclic 2 (fun i => r (i - 1)%Z) (1 + 1)) with (r 0%Z) in Y.
  unfold data. cbn [Z.eqb]. intros Z0. rewrite Z0 in X, Y. lra.
Qed.

(* With deriv=True the transpose is not the transpose: with one axis and two leading components, what is added for the
   second one lacks a factor of the weight... *)
Theorem C75_deriv_refuted odata dind : odata 2%Z 1%Z <> 0 ->
  exists us, deriv_T_cell Conv 1 [1 / 4] 2 odata dind [0%Z] = Some us /\
    nth_error us 1 = Some ((dind, 2%Z), odata 2%Z 1%Z * dweight_at Conv 1 (1 / 4) 0 / weight_at Conv 1 (1 / 4) 0) /\
    odata 2%Z 1%Z * dweight_at Conv 1 (1 / 4) 0 / weight_at Conv 1 (1 / 4) 0 <> odata 2%Z 1%Z * dweight_at Conv 1 (1 / 4) 0.
Proof.
  intros H. assert (O : offset Conv 1 (1 / 4) = 0%Z) by (unfold offset; cbn [Z.eqb nweight]; apply rfloor_unique; lra).
  assert (W0 : weight_at Conv 1 (1 / 4) 0 = 3 / 4) by (unfold weight_at; cbn [Z.eqb]; rewrite O; rewrite Rabs_right by lra; unfold kernel; klt; lra).
  assert (W1 : weight_at Conv 1 (1 / 4) 1 = 1 / 4) by (unfold weight_at; cbn [Z.eqb]; rewrite O; rewrite Rabs_left1 by lra; unfold kernel; klt; lra).
  assert (DW : dweight_at Conv 1 (1 / 4) 0 = -1).
  { unfold dweight_at. cbn [Z.eqb]. rewrite O. cbv zeta. destruct (Rlt_dec 0 (1 / 4 - 0 - 0)); [|exfalso; lra]. rewrite Rabs_right by lra. unfold dkernel. klt. lra. }
  eexists. split.
  - unfold deriv_T_cell. change (zlen [1 / 4]) with 1%Z. change (2 <? 1)%Z with false. cbv zeta. change (flat_map (fun j => map (fun i => (j, i)) (zrange 1 (1 + 1))) (zrange 1 (2 + 1))) with [(1, 1); (2, 1)]%Z.
    cbn [ofold nweight]. change (2 <? 1)%Z with false. change (2 <? 2)%Z with false. cbn iota.
    change (nth (Z.to_nat (1 - 1)) [1 / 4] 0) with (1 / 4). change (nth (Z.to_nat (1 - 1)) [0%Z] 0%Z) with 0%Z. change (1 - 1)%Z with 0%Z. change (2 - 1)%Z with 1%Z. change (0 + 1 - 1)%Z with 0%Z.
    rewrite W0, W1. destruct (Req_EM_T (3 / 4) 0); [lra|]. destruct (Req_EM_T (1 / 4) 0); [lra|]. change (2 <=? 1)%Z with false. cbn iota. rewrite <- W0. reflexivity.
  - split; [reflexivity|]. rewrite W0, DW. intros E. apply H. lra.
Qed.
(* ... and with more axes than leading components it accesses its work array out of bounds. *)
Theorem C75_deriv_bounds_refuted t order pos npre odata dind inds : (npre < zlen pos)%Z -> deriv_T_cell t order pos npre odata dind inds = None.
Proof. intros H. unfold deriv_T_cell. replace (npre <? zlen pos)%Z with true by lia. reflexivity. Qed.

Example C75_ex : exists u v, spline_filter (fun axis => all_lines (zprod (skipn (S axis) [2; 3]%Z)) (zprod (firstn axis [2; 3]%Z))) true [2; 3]%Z (fun e => IZR e) 3 Bmirror 2 false = Some u /\
  spline_filter (fun axis => all_lines (zprod (skipn (S axis) [2; 3]%Z)) (zprod (firstn axis [2; 3]%Z))) true [2; 3]%Z (fun e => IZR (e * e)) 3 Bmirror 2 true = Some v /\ dot 6 u (fun e => IZR (e * e)) = dot 6 (fun e => IZR e) v.
Proof.
  apply (C75_spline_filter [2; 3]%Z 3 Bmirror 2); [discriminate|cbn; lia|intros n [E|[E|[]]]; lia|cbn [length Nat.sub skipn]; intros n [E|[E|[]]]; lia|intros axis _; apply Permutation_refl|intros axis _; apply Permutation_refl].
Qed.

(* ================================================================ C76: the interpolated field passes through the samples *)

Theorem C76_cardinal pre post t order border prefilter points lines contig idata : cardinal t order -> border <> Bzero ->
  (t = Spline -> prefilter = true -> border <> Breflect) -> (forall n, In n post -> (1 <= n)%Z /\ (iborder border = EMirror -> (2 <= n)%Z)) ->
  exists out, map_coordinates lines contig pre post t order border prefilter points idata = Some out /\
    forall o si J, nth_error points si = Some (map IZR J) -> inside post J ->
      out (o * zlen points + Z.of_nat si)%Z = idata (o * zprod post + ravel post J 0)%Z.
Proof.
  intros C Hz Hr Hn. exists (interpol t order (iborder border) post points idata). split.
  - unfold map_coordinates. destruct t; try reflexivity. destruct prefilter; [|reflexivity]. cbn [cardinal] in C.
    rewrite filter_noop; [reflexivity|apply Hr; reflexivity|destruct C; subst; reflexivity].
  - intros o si J Hs HI. rewrite (interpol_at _ _ _ _ _ _ _ _ _ Hs). rewrite interpol1_nest'.
    + rewrite nest_delta by assumption. reflexivity.
    + destruct t; cbn [cardinal nweight] in *; [destruct C as [C|[C|C]]; subst; lia|lia|lia].
    + rewrite map_length. apply inside_length, HI.
    + destruct border; cbn [iborder]; try discriminate. contradiction.
    + exact Hn.
Qed.

Theorem C76_spline_partial pre post order border points lines idata : border <> Breflect -> (2 <= order <= 5)%Z ->
  (forall n, In n pre -> (1 <= n)%Z) -> (forall n, In n post -> (2 <= n)%Z) -> valid_lines (pre ++ post) lines ->
  exists out, map_coordinates lines true pre post Spline order border true points idata = Some out /\
    forall o si J, (0 <= o < zprod pre)%Z -> nth_error points si = Some (map IZR J) -> pixels_ok border order post J ->
      out (o * zlen points + Z.of_nat si)%Z = idata (o * zprod post + ravel post J 0)%Z.
Proof.
  intros Hb HO Hpre Hpost V. destruct (poles_some order HO) as [ps Hps].
  assert (D1 : forall n, In n (pre ++ post) -> (1 <= n)%Z) by (intros n Hn; apply in_app_or in Hn as [Hn|Hn]; [apply Hpre, Hn|specialize (Hpost n Hn); lia]).
  destruct (C75_spline_filter (pre ++ post) order border (length post) lines lines idata idata Hb) as (r & _ & E & _); [rewrite app_length; lia|exact D1|rewrite app_length, Nat.add_sub, skipn_app, skipn_all, Nat.sub_diag; exact Hpost|exact V|exact V|].
  unfold map_coordinates. rewrite E. cbn [bind]. eexists. split; [reflexivity|]. intros o si J Ho Hs HJ.
  pose proof (pixels_nzone border order ps post J Hb Hps Hpost HJ) as NZ. pose proof (nzone_inside _ _ _ _ _ NZ) as HI.
  rewrite (interpol_at _ _ _ _ _ _ _ _ _ Hs). rewrite interpol1_nest; [|cbn [nweight]; lia|rewrite map_length; apply inside_length, HI|intros is His; apply (nzone_cells _ _ ps); [exact NZ|exact His]].
  rewrite <- nest_shift by (rewrite map_length; apply inside_length, HI). rewrite Z.add_0_r.
  assert (Eb : filter_border border = Some (iborder border)) by (destruct border; try reflexivity; contradiction).
  apply (filter_is_ofold _ _ _ _ _ _ _ _ Eb) in E. rewrite app_length, Nat.add_sub in E.
  rewrite (nest_exact (iborder border) order ps Hps (pre ++ post) lines D1 V post pre eq_refl J idata NZ r E o Ho). rewrite ravel_shift by (apply inside_length, HI). reflexivity.
Qed.

(* order 0: the value of the pixel whose centre is nearest *)
Theorem C76_nearest_pixel t b shape pos J data : Forall2 (fun p j => Rabs (p - IZR j) < / 2) pos J -> inside shape J -> interpol1 t 0 b shape pos data = data (ravel shape J 0%Z).
Proof.
  intros HF HI. assert (L : length pos = length J) by (clear HI; induction HF; cbn [length]; congruence). assert (N : nweight t 0 = 1%Z) by (destruct t; reflexivity).
  assert (O : map (offset t 0) pos = J).
  { clear HI L N. induction HF as [|p j pos J H HF IH]; [reflexivity|]. cbn [map]. rewrite IH. f_equal. unfold offset. cbn [Z.eqb]. apply Rabs_def2 in H. unfold nint. destruct (Rle_dec 0 p).
    - apply rfloor_unique. lra.
    - rewrite (rfloor_unique _ (- j)%Z); [lia|]. rewrite opp_IZR. split; [lra|lra]. }
  assert (C : forall shape J e, inside shape J -> cell b shape J (repeat 0%Z (length J)) e = Some (ravel shape J e)).
  { clear. induction shape as [|n shape IH]; intros [|j J] e H; cbn [inside] in H; try contradiction; [reflexivity|]. destruct H as [H1 H2]. cbn [length repeat cell ravel]. rewrite Z.add_0_l.
    unfold map_border. replace ((j <? 0) || (j >=? n))%Z with false by lia. replace (j <? 0)%Z with false by lia. apply IH, H2. }
  unfold interpol1, visits. rewrite N, O. change (Z.to_nat 1) with 1%nat. rewrite Nat.pow_1_l. cbn [cloop]. rewrite L, C by exact HI. cbn [fold_left].
  assert (W : forall l (q : list Z) v, fold_left Rmult (cell_weights t 0 l q) v = v).
  { clear. induction l as [|p l IH]; intros [|q qs] v; cbn [cell_weights combine map fold_left]; try reflexivity. unfold cell_weights in IH. rewrite IH. unfold weight_at. cbn [Z.eqb]. ring. }
  rewrite W. ring.
Qed.
(* With a zero border, a position whose first cell lies before the array gets 0, although its other cells do not. *)
Theorem C76_zero_edge_refuted n data order : (1 <= n)%Z -> (2 <= order <= 5)%Z ->
  interpol1 Conv 3 EZero [n] [IZR 0] data = 0 /\ interpol1 Spline order EZero [n] [IZR 0] data = 0.
Proof.
  intros Hn HO. assert (S : forall t o, (1 <= o)%Z -> (3 <= nweight t o)%Z -> interpol1 t o EZero [n] [IZR 0] data = 0).
  { intros t o Ho Hw. unfold interpol1, visits. rewrite cloop_stuck; [reflexivity|]. cbn [map length repeat cell]. rewrite offset_int by exact Ho.
    assert (1 <= (nweight t o - 1) / 2)%Z by (apply Z.div_le_lower_bound; lia). unfold map_border. replace ((0 + (0 - (nweight t o - 1) / 2) <? 0) || (0 + (0 - (nweight t o - 1) / 2) >=? n))%Z with true by lia. reflexivity. }
  split; apply S; cbn [nweight]; lia.
Qed.

(* With a nearest border, filtering assumes another edge than interpolating does: the value at the first pixel is not the sample. *)
Theorem C76_nearest_refuted : exists lines data out, valid_lines [2%Z] lines /\
  map_coordinates lines true [] [2%Z] Spline 3 Bnearest true [[IZR 0]] data = Some out /\ out 0%Z <> data 0%Z.
Proof.
  set (p := sqrt 3 - 2). set (data := fun e => if (e =? 0)%Z then 1 else 0 : R).
  assert (V : valid_lines [2%Z] (fun axis => all_lines (zprod (skipn (S axis) [2%Z])) (zprod (firstn axis [2%Z])))) by (intros axis _; apply Permutation_refl).
  exists (fun axis => all_lines (zprod (skipn (S axis) [2%Z])) (zprod (firstn axis [2%Z]))), data.
  destruct (pole_loop_total ENearest 2 [p] (fun k => take_line 2 1 data 0 k * weight [p]) ltac:(lia)) as [c Ec].
  assert (F : spline_filter (fun axis => all_lines (zprod (skipn (S axis) [2%Z])) (zprod (firstn axis [2%Z]))) true ([] ++ [2%Z]) data 3 Bnearest (length [2%Z]) false = Some (put_line 2 1 data 0 c)).
  { unfold spline_filter. cbn [filter_border bind app length Nat.sub seq ofold]. unfold spline_filter1d. cbn [nth poles skipn zprod firstn]. change (all_lines 1 1) with [(0, 0)]%Z. cbn [ofold]. fold p. unfold do_line. cbn [fst snd].
    change (0 + 0 * 2 * 1)%Z with 0%Z. rewrite Ec. reflexivity. }
  unfold map_coordinates. rewrite F. cbn [bind]. eexists. split; [exact V|]. split; [reflexivity|].
  pose proof (interpol_at Spline 3 (iborder Bnearest) [2%Z] [[IZR 0]] (put_line 2 1 data 0 c) 0 0 [IZR 0] eq_refl) as IA. change (0 * zlen [[IZR 0]] + Z.of_nat 0)%Z with 0%Z in IA. rewrite IA. clear IA.
  cbn [iborder]. rewrite interpol1_nest'; [|cbn; lia|reflexivity|discriminate|intros n [E|[]]; split; [lia|discriminate]].
  assert (N : nest ENearest Spline 3 [2%Z] [IZR 0] (fun d => put_line 2 1 data 0 c (0 * zprod [2%Z] + d)%Z) 0 = line_sum ENearest Spline 3 2 (IZR 0) c).
  { cbn [nest]. unfold line_sum. apply rsuml_ext. intros k _. f_equal. change (0 * zprod [2%Z])%Z with 0%Z.
    pose proof (map_border_range ENearest 2 (k + offset Spline 3 (IZR 0)) ltac:(lia) ltac:(discriminate)) as M.
    assert (M2 : (0 <= map_border ENearest 2 (k + offset Spline 3 (IZR 0)) < 2)%Z) by (unfold map_border in *; destruct ((k + offset Spline 3 (IZR 0) <? 0) || (k + offset Spline 3 (IZR 0) >=? 2))%Z eqn:X; lia).
    set (x := map_border ENearest 2 (k + offset Spline 3 (IZR 0))) in *. unfold put_line. replace (0 + (0 * 2 + x) - 0)%Z with x by lia. rewrite Z.mod_1_r, Z.div_1_r.
    replace ((0 <=? x) && (0 =? 0) && (x <? 2))%Z with true by lia. reflexivity. }
  rewrite N, sum_3. change (ext ENearest 2 c (0 - 1)) with (c 1%Z). change (ext ENearest 2 c 0) with (c 1%Z). change (ext ENearest 2 c (0 + 1)) with (c 2%Z).
  change (data 0%Z) with 1.
  (* the filtered line *)
  unfold pole_loop in Ec. cbn [ofold] in Ec. set (a := fun k => take_line 2 1 data 0 k * weight [p]) in *.
  assert (A1 : a 1%Z = 1 * weight [p]) by reflexivity. assert (A2 : a 2%Z = 0 * weight [p]) by reflexivity.
  destruct (pole_steps ENearest 2 (horizon p) p a ltac:(lia)) as (a0 & cp & a2 & c' & E0 & E2 & E & F1 & FF & B1 & B). rewrite E in Ec. apply Some_inj in Ec. subst c'.
  unfold causal_init, div1 in E0. rewrite rd_in in E0 by lia. cbn [bind] in E0. rewrite wr_in in E0 by lia. apply Some_inj in E0.
  unfold back_init in E2. rewrite rd_in in E2 by lia. cbn [bind] in E2. rewrite rd_in in E2 by lia. cbn [bind] in E2. rewrite wr_in in E2 by lia. apply Some_inj in E2.
  pose proof (FF 2%Z ltac:(lia)) as C2. change (2 - 1)%Z with 1%Z in *. pose proof (B 1%Z ltac:(lia)) as C1. change (1 + 1)%Z with 2%Z in C1.
  assert (C0 : cp 1%Z = weight [p] / (1 - p)) by (rewrite F1, <- E0, setf_same, A1; unfold Rdiv; ring).
  assert (C3 : c 2%Z = - p / (1 - p ^ 2) / (1 - p) * (cp 2%Z - p ^ 2 * cp 1%Z)) by (rewrite B1, <- E2, setf_same; reflexivity).
  pose proof (poles_spec 3 [p] eq_refl) as HP. cbn [svals] in HP. inversion HP as [|p' s' ps' ss' HP1 HP2 X1 X2]. subst p' s' ps' ss'. pose proof (pole_gain p (-4) HP1) as W. destruct HP1 as [P0 [P1 PE]].
  assert (W6 : weight [p] = 6) by (unfold weight; cbn [map rprodl]; rewrite W; lra). rewrite W6 in *.
  assert (Q1 := pow_abs_lt1 p 1 P1 ltac:(lia)). rewrite pow_1 in Q1. assert (Q2 := pow_abs_lt1 p 2 P1 ltac:(lia)).
  rewrite A2 in C2. rewrite C1. intros R1.
  assert (PP : p * p = -4 * p - 1). { apply (f_equal (fun x => x * p)) in PE. replace ((p + / p) * p) with (p * p + 1) in PE by (field; exact P0). lra. }
  assert (PC : p ^ 3 + 4 * p + 1 = 0).
  { assert (X : (p * (c 2%Z - cp 1%Z) + 4 * (p * (c 2%Z - cp 1%Z)) + c 2%Z) / 6 * ((1 - p ^ 2) * (1 - p)) = 1 * ((1 - p ^ 2) * (1 - p))) by (rewrite R1; reflexivity).
    rewrite C3, C2, C0 in X. match type of X with ?l = _ => replace l with (- 5 * p ^ 3 - p ^ 2 - 5 * p * (1 - p ^ 2)) in X by (field; split; assumption) end. lra. }
  assert (P19 : 19 * p + 5 = 0) by (simpl in PC; nra).
  assert (S3 : sqrt 3 = 33 / 19) by (unfold p in P19; lra). assert (SS : sqrt 3 * sqrt 3 = 3) by (apply sqrt_sqrt; lra). rewrite S3 in SS. lra.
Qed.

Example C76_ex : pixels_ok Bcyclic 3 [4; 4]%Z [0; 3]%Z /\ pixels_ok Bzero 5 [100; 7]%Z [50; 3]%Z /\ cardinal Lanczos 3.
Proof.
  split; [|split; [|cbn; lia]].
  - assert (G : forall ps p, poles 3 = Some ps -> In p ps -> / 10 ^ 15 < Rabs p ^ Z.to_nat (4 - 1)).
    { intros ps p E Hp. cbn [poles] in E. apply Some_inj in E. subst ps. destruct Hp as [Hp|[]]. subst p. change (Z.to_nat (4 - 1)) with 3%nat.
      assert (S3 : sqrt 3 < 1.8). { apply Rsqr_incrst_0; [|apply sqrt_pos|lra]. unfold Rsqr. rewrite sqrt_sqrt by lra. lra. }
      rewrite Rabs_left by lra. set (x := - (sqrt 3 - 2)). assert (X : 0.2 < x) by (unfold x; lra). assert (Y : 0.2 ^ 3 <= x ^ 3) by (apply pow_incr; lra).
      assert (/ 10 ^ 15 < / 1000) by (apply Rinv_lt_contravar; [apply Rmult_lt_0_compat; [lra|apply pow_lt; lra]|simpl; lra]). simpl in Y |- *. lra. }
    cbn [pixels_ok]. split; [split; [lia|left; split; [left; reflexivity|exact G]]|]. split; [split; [lia|left; split; [left; reflexivity|exact G]]|exact Logic.I].
  - cbn [pixels_ok]. split; [split; [lia|right; cbn; lia]|]. split; [split; [lia|right; cbn; lia]|exact Logic.I].
Qed.

(* ================================================================ C77: which samples contribute beyond the edge *)

(* Whatever the order, the value is the weighted sum over all the cells around the position, each with the
   sample that the boundary condition says stands for it. *)
Theorem C77_edges t order b shape pos data rep : (1 <= nweight t order)%Z -> length pos = length shape ->
  (forall n, In n shape -> (1 <= n)%Z /\ (b = EMirror -> (2 <= n)%Z)) ->
  (forall is, In is (tuples (nweight t order) (length shape)) -> inside shape (rep is) /\ stand b shape (map (offset t order) pos) is (rep is)) ->
  interpol1 t order b shape pos data =
  rsuml (map (fun is => data (ravel shape (rep is) 0%Z) * rprodl (cell_weights t order pos is)) (tuples (nweight t order) (length shape))).
Proof.
  intros Hw L O HR. assert (C : forall is, In is (tuples (nweight t order) (length shape)) -> cell b shape (map (offset t order) pos) is 0 = Some (ravel shape (rep is) 0%Z)).
  { intros is His. destruct (HR is His) as [H1 H2]. apply cell_stand; [exact O|exact H2|exact H1]. }
  rewrite interpol1_nest; [|exact Hw|exact L|intros is His; eauto].
  rewrite <- nest_sum; [|exact L|intros is His; eauto]. apply rsuml_ext. intros is His. rewrite C by exact His. reflexivity.
Qed.
(* and such samples exist, unless the border is zero *)
Theorem C77_edges_exist b n i : b <> EZero -> (1 <= n)%Z -> (b = EMirror -> (2 <= n)%Z) -> exists j, (0 <= j < n)%Z /\ stands_for b n i j.
Proof.
  intros Hb Hn Hm. destruct b; [contradiction|..]; cbn [stands_for].
  - exists (Z.max 0 (Z.min (n - 1) i)). lia.
  - exists (i mod n)%Z. split; [apply Z.mod_pos_bound; lia|]. exists (i / n)%Z. pose proof (Z.div_mod i n). lia.
  - specialize (Hm eq_refl). pose proof (Z.div_mod i (2 * n - 2) ltac:(lia)) as D. pose proof (Z.mod_pos_bound i (2 * n - 2) ltac:(lia)) as M.
    set (q := (i / (2 * n - 2))%Z) in *. set (r := (i mod (2 * n - 2))%Z) in *. destruct (Z.ltb_spec r n).
    + exists r. split; [lia|]. exists q. left. lia.
    + exists (2 * n - 2 - r)%Z. split; [lia|]. exists (q + 1)%Z. right. lia.
Qed.
(* With a zero border the cells outside should be left out. The first of them ends the sum instead. *)
Theorem C77_zero_refuted : exists data, (forall J, (0 <= J < 4)%Z -> data J = 1) /\
  interpol1 Conv 3 EZero [4%Z] [1 / 2] data = 0 /\ interpol1 Conv 3 ENearest [4%Z] [1 / 2] data = 1.
Proof.
  exists (fun _ => 1). split; [reflexivity|]. assert (O : offset Conv 3 (1 / 2) = (-1)%Z) by (unfold offset; cbn [Z.eqb nweight]; apply rfloor_unique; lra). split.
  - unfold interpol1, visits. rewrite cloop_stuck; [reflexivity|]. cbn [map length repeat cell]. rewrite O. reflexivity.
  - rewrite interpol1_nest'; [|cbn; lia|reflexivity|discriminate|intros n [E|[]]; split; [lia|discriminate]]. apply nest_const; [right; reflexivity|reflexivity].
Qed.
Example C77_ex : stand EMirror [5; 7]%Z [-2; 6]%Z [0; 3]%Z [2; 3]%Z /\ inside [5; 7]%Z [2; 3]%Z.
Proof. cbn [stand stands_for inside]. split; [split; [exists 0%Z; lia|split; [exists 1%Z; lia|exact Logic.I]]|lia]. Qed.

(* ================================================================ C78: constants and gradients *)

Theorem C78_constant t order b shape pos v : interpolating t order -> length pos = length shape -> b <> EZero ->
  (forall n, In n shape -> (1 <= n)%Z /\ (b = EMirror -> (2 <= n)%Z)) -> interpol1 t order b shape pos (fun _ => v) = v.
Proof.
  intros H L Hb O. rewrite interpol1_nest'; [apply nest_const; assumption| |exact L|exact Hb|exact O].
  destruct t; cbn [interpolating nweight] in *; [destruct H; subst; lia|lia|contradiction].
Qed.
Theorem C78_gradient t order b shape pos data alpha beta : interpolating t order -> covered t order shape pos -> length beta = length shape ->
  (forall J, inside shape J -> data (ravel shape J 0) = alpha + lin_at beta (map IZR J)) ->
  interpol1 t order b shape pos data = alpha + lin_at beta pos.
Proof.
  intros H C L HD. rewrite interpol1_nest; [apply (nest_linear b t order shape pos data alpha beta 0); assumption| |apply (covered_length t order), C|intros is His; apply covered_cells; assumption].
  destruct t; cbn [interpolating nweight] in *; [destruct H; subst; lia|lia|contradiction].
Qed.
(* and through the filter *)
Theorem C78_spline_constant_partial pre post order border points lines v : border <> Breflect -> border <> Bzero -> (1 <= order <= 5)%Z ->
  (forall n, In n pre -> (1 <= n)%Z) ->
  (forall n, In n post -> (2 <= n)%Z /\ (border <> Bnearest -> forall ps p, poles order = Some ps -> In p ps -> / 10 ^ 15 < Rabs p ^ Z.to_nat (n - 1))) ->
  valid_lines (pre ++ post) lines -> (forall pos, In pos points -> length pos = length post) ->
  exists out, map_coordinates lines true pre post Spline order border true points (fun _ => v) = Some out /\
    forall o si, (si < length points)%nat -> out (o * zlen points + Z.of_nat si)%Z = v.
Proof.
  intros Hr Hz HO Hpre Hpost V Hpts.
  assert (F : spline_filter lines true (pre ++ post) (fun _ => v) order border (length post) false = Some (fun _ => v)).
  { destruct (Z.eq_dec order 1) as [E1|E1]; [subst; apply filter_noop; [exact Hr|reflexivity]|].
    destruct (poles_some order ltac:(lia)) as [ps Hps]. apply (filter_const _ _ _ _ _ ps); [exact Hr|exact Hps|rewrite app_length; lia| | |exact V].
    - intros n Hn. apply in_app_or in Hn as [Hn|Hn]; [apply Hpre, Hn|destruct (Hpost n Hn); lia].
    - rewrite app_length, Nat.add_sub, skipn_app, skipn_all, Nat.sub_diag. cbn [skipn app]. intros n Hn. destruct (Hpost n Hn) as [H2 HS]. split; [exact H2|].
      assert (NP : border <> Bnearest -> forall p, In p ps -> (n <= horizon p)%Z).
      { intros Hne p Hp. pose proof (poles_spec order ps Hps) as PF. assert (Q : exists s, okpole p s).
        { clear - PF Hp. induction PF as [|a b l m HF PF IH]; [contradiction|]. destruct Hp as [E|Hp]; [subst; exists b; exact HF|apply IH, Hp]. }
        destruct Q as (s & P0 & P1 & _). apply short_horizon; [exact P0|exact P1|lia|]. apply (HS Hne ps p Hps Hp). }
      destruct border; cbn [iborder]; [contradiction|left; reflexivity|right; split; [left; reflexivity|apply NP; discriminate]|right; split; [right; reflexivity|apply NP; discriminate]|contradiction]. }
  unfold map_coordinates. rewrite F. cbn [bind]. eexists. split; [reflexivity|]. intros o si Hsi.
  destruct (nth_error points si) as [pos|] eqn:E; [|apply nth_error_None in E; lia]. rewrite (interpol_at _ _ _ _ _ _ _ _ _ E).
  apply C78_constant; [cbn; lia|apply Hpts, (nth_error_In _ _ E)|destruct border; cbn; congruence|].
  intros n Hn. destruct (Hpost n Hn). split; [lia|intros; lia].
Qed.
(* "conv" of order 2 is accepted, and gives zero everywhere *)
Theorem C78_conv2_refuted b n shape p pos data : interpol1 Conv 2 b (n :: shape) (p :: pos) data = 0.
Proof. unfold interpol1, visits. cbn [nweight length Z.to_nat Nat.pow]. rewrite Nat.mul_0_l. reflexivity. Qed.
Example C78_ex : covered Spline 3 [6; 9]%Z [2.5; 4.25] /\ interpolating Spline 5 /\ interpolating Conv 3.
Proof.
  assert (O : forall x z, IZR z <= x - 1 < IZR z + 1 -> offset Spline 3 x = z) by (intros x z H; unfold offset; cbn [Z.eqb nweight]; change (3 + 1)%Z with 4%Z; apply rfloor_unique; lra).
  split; [|cbn; lia]. cbn [covered]. rewrite (O 2.5 1%Z), (O 4.25 3%Z) by lra. cbn [nweight]. lia.
Qed.

(* ================================================================ C79: deriv=True gives the derivative of the interpolation *)

Theorem C79_derivative_partial t order b shape pos i data : differentiable t order -> length pos = length shape -> (i < length pos)%nat ->
  smooth t order (nth i pos 0) -> b <> EZero -> (forall n, In n shape -> (1 <= n)%Z /\ (b = EMirror -> (2 <= n)%Z)) ->
  derivable_pt_lim (fun q => interpol1 t order b shape (upd i q pos) data) (nth i pos 0) (deriv1 t order b shape pos i data).
Proof.
  intros D L Hi S Hb O. apply Coquelicot.Derive.is_derive_Reals. apply interpol1_derive; try assumption.
  intros is His. apply cell_some; [exact Hb|exact O|rewrite map_length; exact L|]. apply tuples_In in His. apply His.
Qed.

(* The field of samples 0, 1, 2, ... has slope 1. *)
Lemma slope_one t order n q : interpolating t order -> (0 <= offset t order q)%Z -> (offset t order q + nweight t order <= n)%Z ->
  interpol1 t order ECyclic [n] [q] IZR = q.
Proof.
  intros H H1 H2. rewrite (C78_gradient t order ECyclic [n] [q] IZR 0 [1]); [cbn [lin_at]; ring|exact H|cbn [covered]; auto|reflexivity|].
  intros J HJ. destruct J as [|j [|k J]]; cbn [inside] in HJ; try tauto. cbn [ravel map lin_at]. rewrite Z.mul_0_l, Z.add_0_l. ring.
Qed.
(* Order 3, the default of map_coordinates: the weights are not the derivatives of the spline. *)
Theorem C79_cubic_refuted : (forall q, 3 < q < 4 -> interpol1 Spline 3 ECyclic [8%Z] [q] IZR = q) /\
  deriv1 Spline 3 ECyclic [8%Z] [7 / 2] 0 IZR = 11 / 24.
Proof.
  split.
  - intros q Hq. assert (O : offset Spline 3 q = 2%Z) by (unfold offset; cbn [Z.eqb nweight]; change (3 + 1)%Z with 4%Z; apply rfloor_unique; lra).
    apply slope_one; [cbn; lia|rewrite O; lia|rewrite O; cbn; lia].
  - assert (O : offset Spline 3 (7 / 2) = 2%Z) by (unfold offset; cbn [Z.eqb nweight]; change (3 + 1)%Z with 4%Z; apply rfloor_unique; lra).
    rewrite deriv1_gnest; [|cbn; lia|reflexivity|cbn; lia|intros is His; apply cell_some; [discriminate|intros n [E|[]]; split; [lia|discriminate]|reflexivity|apply tuples_In in His; apply His]|].
    + cbn [daxes waxes map gnest nweight]. rewrite O. change (zrange 0 (3 + 1)) with [0; 1; 2; 3]%Z. cbn [map rsuml].
      change (0 * 8 + map_border ECyclic 8 (0 + 2))%Z with 2%Z. change (0 * 8 + map_border ECyclic 8 (1 + 2))%Z with 3%Z. change (0 * 8 + map_border ECyclic 8 (2 + 2))%Z with 4%Z. change (0 * 8 + map_border ECyclic 8 (3 + 2))%Z with 5%Z.
      assert (D : forall k, dweight_at Spline 3 (7 / 2) k = (if Rlt_dec 0 (7 / 2 - IZR k - 2) then 1 else -1) * dkernel Spline 3 (Rabs (7 / 2 - IZR k - 2))) by (intros k; unfold dweight_at; cbn [Z.eqb]; rewrite O; reflexivity).
      rewrite !D. clear D. rewrite (Rabs_right (7 / 2 - 0 - 2)), (Rabs_right (7 / 2 - 1 - 2)), (Rabs_left1 (7 / 2 - 2 - 2)), (Rabs_left1 (7 / 2 - 3 - 2)) by lra.
      unfold dkernel. klt. simpl. lra.
    + cbn [nweight nth]. intros k Hk. unfold weight_at. cbn [Z.eqb]. rewrite O. assert (K : k = 0%Z \/ k = 1%Z \/ k = 2%Z \/ k = 3%Z) by lia.
      destruct K as [K|[K|[K|K]]]; subst k; [rewrite Rabs_right by lra|rewrite Rabs_right by lra|rewrite Rabs_left1 by lra|rewrite Rabs_left1 by lra]; unfold kernel; klt; simpl; lra.
Qed.
(* Order 5: there are no derivative weights at all. *)
Theorem C79_quintic_refuted : (forall b shape pos i data, deriv1 Spline 5 b shape pos i data = 0) /\
  (forall q, 3 < q < 4 -> interpol1 Spline 5 ECyclic [8%Z] [q] IZR = q).
Proof.
  split.
  - intros. unfold deriv1. generalize (visits Spline 5 b shape pos) as l. intros l.
    cut (forall s, fold_left (fun res '(dind, inds) => let v := fold_left Rmult (cell_weights Spline 5 pos inds) (data dind) in
      if Req_EM_T v 0 then res else let p := nth i pos 0 in let k := nth i inds 0%Z in res + v * dweight_at Spline 5 p k / weight_at Spline 5 p k) l s = s); [intros H; apply H|].
    induction l as [|[d is] l IH]; intros s; cbn [fold_left]; [reflexivity|]. rewrite IH. cbv zeta. destruct (Req_EM_T _ 0); [reflexivity|].
    unfold dweight_at. cbn [Z.eqb dkernel]. unfold Rdiv. ring.
  - intros q Hq. assert (O : offset Spline 5 q = 1%Z) by (unfold offset; cbn [Z.eqb nweight]; change (5 + 1)%Z with 6%Z; apply rfloor_unique; lra).
    apply slope_one; [cbn; lia|rewrite O; lia|rewrite O; cbn; lia].
Qed.
(* On a pixel the terms of the neighbours are skipped, since their weights there are 0. *)
Theorem C79_pixel_refuted : (forall q, 2 <= q < 4 -> interpol1 Conv 3 ECyclic [8%Z] [q] IZR = q) /\
  deriv1 Conv 3 ECyclic [8%Z] [3] 0 IZR = 0.
Proof.
  split.
  - intros q Hq. assert (O : offset Conv 3 q = 1%Z \/ offset Conv 3 q = 2%Z).
    { destruct (Rlt_dec q 3); [left|right]; unfold offset; cbn [Z.eqb nweight]; apply rfloor_unique; lra. }
    apply slope_one; [cbn; lia|lia|cbn [nweight]; lia].
  - assert (O : offset Conv 3 3 = 2%Z) by (unfold offset; cbn [Z.eqb nweight]; apply rfloor_unique; lra).
    assert (W : forall k, weight_at Conv 3 3 k = 0 \/ dweight_at Conv 3 3 k = 0).
    { intros k. destruct (Z.eq_dec k 1) as [E|E].
      - right. subst k. unfold dweight_at. cbn [Z.eqb]. rewrite O. replace (3 - 1 - 2) with 0 by lra. rewrite Rabs_R0. unfold dkernel. klt. simpl. lra.
      - left. unfold weight_at. cbn [Z.eqb]. rewrite O. replace (3 - IZR k - 2) with (IZR (1 - k)) by (rewrite minus_IZR; lra). rewrite <- abs_IZR.
        assert (A : (Z.abs (1 - k) = 1 \/ 2 <= Z.abs (1 - k))%Z) by lia. destruct A as [A|A]; [rewrite A; unfold kernel; klt; simpl; lra|].
        apply IZR_le in A. unfold kernel. klt. reflexivity. }
    unfold deriv1, visits. rewrite cloop_tuples by (cbn; lia). cbn [length]. set (l := takewhile _ _).
    assert (L : forall is, In is l -> length is = 1%nat) by (intros is His; apply (tuples_In (nweight Conv 3)), (takewhile_In _ _ _ His)).
    clearbody l. match goal with |- fold_left ?f _ _ = _ => cut (forall s, fold_left f (map (fun is => (cell0 ECyclic [8%Z] (map (offset Conv 3) [3]) is, is)) l) s = s); [intros H; apply H|] end.
    induction l as [|is l IH]; intros s; cbn [map fold_left]; [reflexivity|]. rewrite IH by (intros; apply L; right; assumption). cbv zeta.
    specialize (L is (or_introl eq_refl)). destruct is as [|k [|k' is]]; try discriminate. cbn [cell_weights combine map fold_left nth].
    destruct (Req_EM_T _ 0) as [Z0|Z0]; [reflexivity|]. destruct (W k) as [Wk|Wk]; [exfalso; apply Z0; rewrite Wk; ring|]. rewrite Wk. unfold Rdiv. ring.
Qed.
Example C79_ex : differentiable Conv 3 /\ smooth Conv 3 (nth 1 [2; 2.5] 0).
Proof.
  split; [cbn; lia|]. unfold smooth. cbn [nth nweight]. intros z H. assert (E : 3 = IZR (2 * z)) by (rewrite mult_IZR; lra). apply eq_IZR in E. lia.
Qed.

Print Assumptions C75_spline_filter.
Print Assumptions C75_interpol.
Print Assumptions C75_map_coordinates_partial.
Print Assumptions C76_spline_partial.
Print Assumptions C76_nearest_pixel.
Print Assumptions C76_nearest_refuted.
Print Assumptions C77_edges.
Print Assumptions C78_gradient.
Print Assumptions C78_spline_constant_partial.
Print Assumptions C79_derivative_partial.
