(* C04: downgrade and upgrade; C12: wcsutils.scale. *)
From Verif Require Import Base SliceSpec SliceModel BlockSpec BlockModel DownModel DownSpec DownLemmas.

(* upgrade followed by downgrade with the same arguments gives the map back, values and grid *)
Theorem C04_downgrade_upgrade_partial : forall (m : ndmap Q) fy fx oy ox incl, nd_wf m -> 0 < nm_ny m -> 0 < nm_nx m ->
  1 <= fy -> 0 <= oy -> (fy = 1 -> oy = 0) -> 1 <= fx -> 0 <= ox -> (fx = 1 -> ox = 0) ->
  exists u d, upgrade m fy fx oy ox incl = Some u /\ downgrade u fy fx oy ox incl = Some d /\ same_map d m.
Proof. exact downgrade_upgrade. Qed.
Print Assumptions C04_downgrade_upgrade_partial.

(* each pixel of the result is the mean of its block, and its centre is the centre of the block *)
Theorem C04_downgrade_partial : forall (m : ndmap Q) fy fx oy ox incl, nd_wf m ->
  good_axis incl (nm_ny m) fy oy -> good_axis incl (nm_nx m) fx ox ->
  exists d, downgrade m fy fx oy ox incl = Some d /\ nd_wf d /\
    nm_ny d = blk_n incl (nm_ny m) fy oy /\ nm_nx d = blk_n incl (nm_nx m) fx ox /\
    (forall Y X, 0 <= Y < nm_ny d -> 0 <= X < nm_nx d ->
      let y0 := blk_lo incl fy oy Y in let y1 := blk_hi incl (nm_ny m) fy oy Y in
      let x0 := blk_lo incl fx ox X in let x1 := blk_hi incl (nm_nx m) fx ox X in
      exists v, pixel d Y X = Some v /\
        (v * inject_Z ((y1 - y0) * (x1 - x0))%Z == qsum_on (fun y => qsum_on (fun x => pixq m y x) x0 x1) y0 y1)%Q) /\
    centres_match m d fy fx oy ox incl.
Proof. exact downgrade_spec. Qed.
Print Assumptions C04_downgrade_partial.

Theorem C04_total_partial : forall (m : ndmap Q) fy fx oy ox d, nd_wf m ->
  good_axis false (nm_ny m) fy oy -> good_axis false (nm_nx m) fx ox -> downgrade m fy fx oy ox false = Some d ->
  (inject_Z (fy * fx)%Z * qsum_on (fun Y => qsum_on (fun X => pixq d Y X) 0 (nm_nx d)) 0 (nm_ny d) ==
   qsum_on (fun y => qsum_on (fun x => pixq m y x) ox (ox + nm_nx d * fx)) oy (oy + nm_ny d * fy))%Q.
Proof. exact downgrade_total. Qed.
Print Assumptions C04_total_partial.

(* upgrade copies each pixel over its block, and puts the block where the pixel was *)
Theorem C04_upgrade_partial : forall (m : ndmap Q) fy fx oy ox incl, nd_wf m -> 0 < nm_ny m -> 0 < nm_nx m ->
  1 <= fy -> 0 <= oy -> (fy = 1 -> oy = 0) -> 1 <= fx -> 0 <= ox -> (fx = 1 -> ox = 0) ->
  exists u, upgrade m fy fx oy ox incl = Some u /\ nd_wf u /\
    nm_ny u = up_len (nm_ny m) fy oy incl /\ nm_nx u = up_len (nm_nx m) fx ox incl /\
    (forall Y X y x, 0 <= Y < nm_ny m -> 0 <= X < nm_nx m ->
      blk_lo incl fy oy Y <= y < blk_hi incl (nm_ny u) fy oy Y -> blk_lo incl fx ox X <= x < blk_hi incl (nm_nx u) fx ox X ->
      pixel u y x = pixel m Y X) /\
    centres_match u m fy fx oy ox incl.
Proof. exact upgrade_spec. Qed.
Print Assumptions C04_upgrade_partial.

(* downgrade_geometry predicts the geometry of the downgraded map *)
Theorem C04_downgrade_geometry : forall (m d : ndmap Q) fy fx, nd_wf m -> good_axis false (nm_ny m) fy 0 -> good_axis false (nm_nx m) fx 0 ->
  downgrade m fy fx 0 0 false = Some d ->
  let g := downgrade_geometry (nm_ny m) (nm_nx m) (nm_wcs m) fy fx in
  fst g = (nm_ny d, nm_nx d) /\ (forall p, sky_x (snd g) p == sky_x (nm_wcs d) p)%Q /\ (forall p, sky_y (snd g) p == sky_y (nm_wcs d) p)%Q.
Proof. exact downgrade_geometry_agrees. Qed.
Print Assumptions C04_downgrade_geometry.

Definition ex_map : ndmap Q := NdMap 3 5 [[1;2;3;4;5]; [6;7;8;9;10]; [11;12;13;14;15]]%Q (Wcs 10 3 (-1#2) 0 2 (1#2)).
Example C04_ex : nd_wf ex_map /\ good_axis false (nm_ny ex_map) 2 1 /\ good_axis false (nm_nx ex_map) 2 0 /\ good_axis true (nm_nx ex_map) 2 1 /\
  option_map (fun d => map (map Qred) (nm_arr d)) (downgrade ex_map 2 2 1 0 false) = Some [[9; 11]]%Q /\
  option_map (fun d => map (map Qred) (nm_arr d)) (downgrade ex_map 2 2 1 0 true) = Some [[3#2; 7#2; 5]; [9; 11; 25#2]]%Q.
Proof. unfold good_axis. cbn [nm_ny nm_nx ex_map]. repeat split; try lia; try reflexivity. repeat constructor. Qed.

(* The property names every map size and factor: a map smaller than the factor is an error, and a factor
   of 1 along an axis with an offset shifts the coordinates without dropping the pixels. *)
Theorem C04_unguarded_refuted :
  (exists m : ndmap Q, nd_wf m /\ 0 < nm_ny m /\ 0 < nm_nx m /\ downgrade m 2 2 0 0 false = None) /\
  (exists (m d : ndmap Q), nd_wf m /\ downgrade m 2 1 0 1 false = Some d /\ nm_nx d = nm_nx m /\
     ~ (sky_x (nm_wcs d) 0 == sky_x (nm_wcs m) 0)%Q).
Proof.
  split.
  - exists (NdMap 1 2 [[1; 2]]%Q (Wcs 0 1 1 0 1 1)). repeat split; cbn; try lia. repeat constructor.
  - exists (NdMap 2 2 [[1; 2]; [3; 4]]%Q (Wcs 0 1 1 0 1 1)). eexists. split; [split; [reflexivity|repeat constructor]|].
    split; [reflexivity|]. split; [reflexivity|]. vm_compute. discriminate.
Qed.
Print Assumptions C04_unguarded_refuted.

(* C12: with corner=True the pixel-edge coordinate e (edges at p = e - 1/2) goes to s*e *)
Theorem C12_scale : forall w sx sy e, ~ (sx == 0)%Q -> ~ (sy == 0)%Q ->
  (sky_x (wcs_scale w sx sy true) (sx * e - (1#2)) == sky_x w (e - (1#2)))%Q /\
  (sky_y (wcs_scale w sx sy true) (sy * e - (1#2)) == sky_y w (e - (1#2)))%Q.
Proof.
  intros w sx sy e Hx Hy. destruct (wcs_scale_corner w sx sy (e - (1#2)) Hx Hy) as [H1 H2]. unfold sky_x, sky_y, sky_at in *.
  split; [rewrite <- H1|rewrite <- H2]; field.
Qed.
Print Assumptions C12_scale.
Theorem C12_scale_inverse : forall w sx sy c p, ~ (sx == 0)%Q -> ~ (sy == 0)%Q ->
  (sky_x (wcs_scale (wcs_scale w sx sy c) (/ sx) (/ sy) c) p == sky_x w p)%Q /\
  (sky_y (wcs_scale (wcs_scale w sx sy c) (/ sx) (/ sy) c) p == sky_y w p)%Q.
Proof. intros w sx sy c p Hx Hy. unfold sky_x, sky_y, sky_at, wcs_scale. cbn [crval_x crpix_x cdelt_x crval_y crpix_y cdelt_y]. destruct c; split; field; assumption. Qed.
Print Assumptions C12_scale_inverse.
Theorem C12_scale_compose : forall w sx sy tx ty c p, ~ (sx == 0)%Q -> ~ (sy == 0)%Q -> ~ (tx == 0)%Q -> ~ (ty == 0)%Q ->
  (sky_x (wcs_scale (wcs_scale w sx sy c) tx ty c) p == sky_x (wcs_scale w (sx * tx) (sy * ty) c) p)%Q /\
  (sky_y (wcs_scale (wcs_scale w sx sy c) tx ty c) p == sky_y (wcs_scale w (sx * tx) (sy * ty) c) p)%Q.
Proof. exact wcs_scale_compose. Qed.
Print Assumptions C12_scale_compose.
(* corner=False is documented to scale the area between the first and the last pixel centre; the first
   pixel centre (p = 0) moves instead *)
Theorem C12_scale_centre_refuted : exists w s, ~ (s == 0)%Q /\ ~ (sky_x (wcs_scale w s s false) 0 == sky_x w 0)%Q.
Proof. exists (Wcs 0 5 1 0 5 1), 2%Q. split; vm_compute; discriminate. Qed.
Print Assumptions C12_scale_centre_refuted.
Example C12_ex : map (fun p => Qred (sky_x (wcs_scale (Wcs 10 3 (-1) 0 3 1) 2 2 true) p)) [-(1#2); 9 # 2]%Q =
  map (fun p => Qred (sky_x (Wcs 10 3 (-1) 0 3 1) p)) [-(1#2); 2]%Q.
Proof. reflexivity. Qed.
