(* C01, C02, C03: slicing. *)
From Verif Require Import Base SliceSpec SliceModel SliceLemmas.

(* C01, general step: value of input pixel start+step*i, sky position of the centre of the
   block of |step| input pixels that starts there. *)
Theorem C01_slice_pixels : forall {A} (m : ndmap A) sy sx i j, nd_wf m ->
  in_range sy (nm_ny m) -> in_range sx (nm_nx m) ->
  0 <= i < py_len sy (nm_ny m) -> 0 <= j < py_len sx (nm_nx m) ->
  let o := getitem m (sy, sx) in
  let y := py_start sy (nm_ny m) + py_step sy * i in
  let x := py_start sx (nm_nx m) + py_step sx * j in
  0 <= y < nm_ny m /\ 0 <= x < nm_nx m /\
  nd_wf o /\ nm_ny o = py_len sy (nm_ny m) /\ nm_nx o = py_len sx (nm_nx m) /\
  pixel o i j = pixel m y x /\ pixel o i j <> None /\
  (sky_y (nm_wcs o) (inject_Z i) == sky_y (nm_wcs m) (inject_Z y + (inject_Z (py_step sy) - inject_Z (Z.sgn (py_step sy))) / 2))%Q /\
  (sky_x (nm_wcs o) (inject_Z j) == sky_x (nm_wcs m) (inject_Z x + (inject_Z (py_step sx) - inject_Z (Z.sgn (py_step sx))) / 2))%Q.
Proof. exact @slice_pixels. Qed.
Print Assumptions C01_slice_pixels.

(* C01, steps +1/-1: exactly the sky position of the selected pixel. *)
Theorem C01_slice_unit_pixels : forall {A} (m : ndmap A) sy sx i j, nd_wf m ->
  in_range sy (nm_ny m) -> in_range sx (nm_nx m) ->
  Z.abs (py_step sy) = 1 -> Z.abs (py_step sx) = 1 ->
  0 <= i < py_len sy (nm_ny m) -> 0 <= j < py_len sx (nm_nx m) ->
  let o := getitem m (sy, sx) in
  let y := py_start sy (nm_ny m) + py_step sy * i in
  let x := py_start sx (nm_nx m) + py_step sx * j in
  pixel o i j = pixel m y x /\
  (sky_y (nm_wcs o) (inject_Z i) == sky_y (nm_wcs m) (inject_Z y))%Q /\
  (sky_x (nm_wcs o) (inject_Z j) == sky_x (nm_wcs m) (inject_Z x))%Q.
Proof. exact @slice_unit_pixels. Qed.
Print Assumptions C01_slice_unit_pixels.

Definition ex_wcs : wcs := Wcs 10 (7#2) (-(1#2)) 0 2 (1#3).
Definition ex_map : ndmap Z := NdMap 3 4 [[0;1;2;3];[10;11;12;13];[20;21;22;23]] ex_wcs.

(* hypotheses of both theorems: m[::-1, 1:-1] at output pixel (0,1), i.e. input pixel (2,2) *)
Example C01_ex : nd_wf ex_map /\ in_range (PS None None (Some (-1))) 3 /\
  in_range (PS (Some 1) (Some (-1)) None) 4 /\ 0 <= 0 < py_len (PS None None (Some (-1))) 3 /\
  0 <= 1 < py_len (PS (Some 1) (Some (-1)) None) 4 /\
  pixel (getitem ex_map (PS None None (Some (-1)), PS (Some 1) (Some (-1)) None)) 0 1 = Some 22.
Proof.
  split; [split; [reflexivity | repeat constructor]|].
  split; [in_range_tac|]. split; [in_range_tac|].
  split; [vm_compute; split; congruence|]. split; [vm_compute; split; congruence|]. reflexivity.
Qed.

(* C02: geometry of two slices in a row = geometry of the slice selecting the same pixels at
   once, whenever the second step is positive or the first is +-1 (all other cases: see below). *)
Theorem C02_slice_compose_partial : forall ny nx w s1 t1 s2 t2 s12 t12, 0 <= ny -> 0 <= nx ->
  in_range s1 ny -> in_range t1 nx ->
  in_range s2 (py_len s1 ny) -> in_range t2 (py_len t1 nx) ->
  in_range s12 ny -> in_range t12 nx ->
  composes s1 s2 s12 ny -> composes t1 t2 t12 nx ->
  0 < py_len s12 ny -> 0 < py_len t12 nx ->
  (0 < py_step s2 \/ Z.abs (py_step s1) = 1) -> (0 < py_step t2 \/ Z.abs (py_step t1) = 1) ->
  let g1 := slice_geometry (ny, nx) w (s1, t1) false in
  let g2 := slice_geometry (fst g1) (snd g1) (s2, t2) false in
  let g := slice_geometry (ny, nx) w (s12, t12) false in
  fst g2 = fst g /\ same_sky (snd g2) (snd g).
Proof. exact slice_geometry_compose. Qed.
Print Assumptions C02_slice_compose_partial.

(* m[1:9:2][::2] = m[1:9:4] on an axis of 10; the other axis is flipped twice *)
Example C02_ex :
  let s1 := PS (Some 1) (Some 9) (Some 2) in let s2 := PS None None (Some 2) in
  let s12 := PS (Some 1) (Some 9) (Some 4) in let f := PS None None (Some (-1)) in
  in_range s1 10 /\ in_range s2 (py_len s1 10) /\ in_range s12 10 /\ composes s1 s2 s12 10 /\
  0 < py_len s12 10 /\ composes f f (PS None None None) 7 /\ in_range f 7.
Proof.
  cbv zeta. split; [in_range_tac|]. split; [in_range_tac|]. split; [in_range_tac|].
  split; [split; reflexivity|]. split; [reflexivity|]. split; [split; reflexivity|]. in_range_tac.
Qed.

(* The unguarded law fails: m[::2][::-1] and m[::-2] select the same pixels of an axis of
   length 5 but get different sky positions. *)
Theorem C02_slice_compose_refuted : exists n w s1 s2 s12 all, 0 <= n /\
  in_range s1 n /\ in_range s2 (py_len s1 n) /\ in_range s12 n /\ composes s1 s2 s12 n /\
  0 < py_len s12 n /\
  let g1 := slice_geometry (n, n) w (s1, all) false in
  let g2 := slice_geometry (fst g1) (snd g1) (s2, all) false in
  let g := slice_geometry (n, n) w (s12, all) false in
  ~ same_sky (snd g2) (snd g).
Proof.
  exists 5, ex_wcs, (PS None None (Some 2)), (PS None None (Some (-1))), (PS None None (Some (-2))), (PS None None None).
  split; [lia|]. split; [in_range_tac|]. split; [in_range_tac|]. split; [in_range_tac|].
  split; [split; reflexivity|]. split; [reflexivity|].
  cbv zeta. intros H. destruct (H 0%Q) as [_ H2]. vm_compute in H2. discriminate.
Qed.
Print Assumptions C02_slice_compose_refuted.

(* C03: on in-range slices expand_slice selects what python selects and slice_geometry's shape
   is numpy's (up to negative numbers standing for empty). *)
Theorem C03_expand_slice_partial : forall s n, 0 <= n -> in_range s n ->
  raw_sel (expand_slice s n false) = py_sel s n.
Proof. exact expand_slice_sel. Qed.
Print Assumptions C03_expand_slice_partial.

Theorem C03_slice_shape_partial : forall ny nx w sy sx, 0 <= ny -> 0 <= nx ->
  in_range sy ny -> in_range sx nx ->
  let sh := fst (slice_geometry (ny, nx) w (sy, sx) false) in
  Z.max 0 (fst sh) = py_len sy ny /\ Z.max 0 (snd sh) = py_len sx nx.
Proof. exact slice_shape. Qed.
Print Assumptions C03_slice_shape_partial.

Example C03_ex : in_range (PS (Some (-3)) (Some 100) (Some 2)) 7 /\
  py_sel (PS (Some (-3)) (Some 100) (Some 2)) 7 = [4;6].
Proof. split; [in_range_tac|reflexivity]. Qed.

(* m[-10:] on a length-5 axis, and a negative step starting beyond the end *)
Theorem C03_expand_slice_refuted :
  (exists s n, 0 <= n /\ py_step s = 1 /\ raw_sel (expand_slice s n false) <> py_sel s n) /\
  (exists s n, 0 <= n /\ py_step s = -1 /\ raw_sel (expand_slice s n false) <> py_sel s n).
Proof.
  split.
  - exists (PS (Some (-10)) None None), 5. repeat split; try lia. vm_compute. discriminate.
  - exists (PS (Some 8) None (Some (-1))), 5. repeat split; try lia. vm_compute. discriminate.
Qed.
Print Assumptions C03_expand_slice_refuted.

(* an empty in-range selection m[5:3] is given a negative length *)
Theorem C03_slice_shape_refuted : exists ny nx w sy sx, in_range sy ny /\ in_range sx nx /\
  py_len sy ny = 0 /\ fst (fst (slice_geometry (ny, nx) w (sy, sx) false)) < 0.
Proof.
  exists 6, 6, ex_wcs, (PS (Some 5) (Some 3) None), (PS None None None).
  split; [in_range_tac|]. split; [in_range_tac|]. split; reflexivity.
Qed.
Print Assumptions C03_slice_shape_refuted.
