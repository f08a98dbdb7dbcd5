(* C05 extract_pixbox/insert, C06 pad, C07 autocrop, C08 padslice. *)
From Coq Require Import Lqa Qabs.
From Verif Require Import Base SliceSpec SliceModel SboxSpec SboxModel WindModel ArrModel PixSpec PixModel PixLemmas PixLemmas2 PixLemmas3.

(* Pixel (i,j) of the result is the map at the (i,j)-th pixel of the box, with the fill value outside the map,
   and has that pixel's sky position. The map is left alone. *)
Theorem C05_extract_pixbox_partial {A} (m : fmap A) by_ bx plain wrap cval wy wx :
  unit_box by_ -> unit_box bx -> 0 < f_ny (fm_arr m) -> 0 < f_nx (fm_arr m) ->
  wrap_lens (fm_wcs m) (f_nx (fm_arr m)) plain wrap = (wy, wx) -> wrap_ok wy (f_ny (fm_arr m)) -> wrap_ok wx (f_nx (fm_arr m)) ->
  exists o, extract_pixbox m (by_, bx) None plain wrap (fun _ b => b) cval false = Some (m, o) /\
    f_ny (fm_arr o) = zlen (indices by_) /\ f_nx (fm_arr o) = zlen (indices bx) /\
    forall i j ky kx, zget (indices by_) i = Some ky -> zget (indices bx) j = Some kx ->
      f_at (fm_arr o) i j = match source wy (f_ny (fm_arr m)) ky, source wx (f_nx (fm_arr m)) kx with
                            | Some y, Some x => f_at (fm_arr m) y x | _, _ => cval end /\
      same_sky_at (fm_wcs o) (fm_wcs m) i j ky kx.
Proof. exact (extract_pixbox_spec m by_ bx plain wrap cval wy wx). Qed.

(* With an output map, op combines each pixel of it with the map pixel it corresponds to, once; others are untouched. *)
Theorem C05_extract_onto_partial {A} (m o : fmap A) by_ bx plain wrap op cval wy wx :
  unit_box by_ -> unit_box bx -> 0 < f_ny (fm_arr m) -> 0 < f_nx (fm_arr m) ->
  f_ny (fm_arr o) = zlen (indices by_) -> f_nx (fm_arr o) = zlen (indices bx) ->
  wrap_lens (fm_wcs m) (f_nx (fm_arr m)) plain wrap = (wy, wx) -> wrap_ok wy (f_ny (fm_arr m)) -> wrap_ok wx (f_nx (fm_arr m)) ->
  exists o', extract_pixbox m (by_, bx) (Some o) plain wrap op cval false = Some (m, o') /\
    f_ny (fm_arr o') = f_ny (fm_arr o) /\ f_nx (fm_arr o') = f_nx (fm_arr o) /\ fm_wcs o' = fm_wcs o /\
    forall i j ky kx, zget (indices by_) i = Some ky -> zget (indices bx) j = Some kx ->
      f_at (fm_arr o') i j = match source wy (f_ny (fm_arr m)) ky, source wx (f_nx (fm_arr m)) kx with
                             | Some y, Some x => op (f_at (fm_arr o) i j) (f_at (fm_arr m) y x) | _, _ => f_at (fm_arr o) i j end.
Proof. exact (extract_onto_spec m o by_ bx plain wrap op cval wy wx). Qed.

(* Inserting: op is applied once to each map pixel the box covers, the others are untouched. *)
Theorem C05_insert_at_partial {A} (m im : fmap A) y x plain wrap op wy wx :
  let by_ := (y, y + f_ny (fm_arr im), 1) in let bx := (x, x + f_nx (fm_arr im), 1) in
  0 < f_ny (fm_arr m) -> 0 < f_nx (fm_arr m) -> 0 <= f_ny (fm_arr im) -> 0 <= f_nx (fm_arr im) ->
  wrap_lens (fm_wcs m) (f_nx (fm_arr m)) plain wrap = (wy, wx) -> wrap_ok wy (f_ny (fm_arr m)) -> wrap_ok wx (f_nx (fm_arr m)) ->
  (wy = 0 \/ f_ny (fm_arr im) <= wy) -> (wx = 0 \/ f_nx (fm_arr im) <= wx) ->
  exists m', insert_at m y x im plain wrap op = Some m' /\ fm_wcs m' = fm_wcs m /\
    f_ny (fm_arr m') = f_ny (fm_arr m) /\ f_nx (fm_arr m') = f_nx (fm_arr m) /\
    (forall i j y' x', 0 <= i < f_ny (fm_arr im) -> 0 <= j < f_nx (fm_arr im) ->
       source wy (f_ny (fm_arr m)) (y + i) = Some y' -> source wx (f_nx (fm_arr m)) (x + j) = Some x' ->
       f_at (fm_arr m') y' x' = op (f_at (fm_arr m) y' x') (f_at (fm_arr im) i j)) /\
    (forall y' x', (forall i j, 0 <= i < f_ny (fm_arr im) -> 0 <= j < f_nx (fm_arr im) ->
       source wy (f_ny (fm_arr m)) (y + i) = Some y' -> source wx (f_nx (fm_arr m)) (x + j) = Some x' -> False) ->
       f_at (fm_arr m') y' x' = f_at (fm_arr m) y' x').
Proof.
  cbv zeta. intros Hny Hnx H1 H2 Ew Wy Wx Fy Fx.
  assert (Hu : forall a n, 0 <= n -> unit_box (a, a + n, 1)) by (intros a n Hn; split; [split; [lia|cbn [Z.sgn]; lia]|reflexivity]).
  assert (Hz : forall a n j k, 0 <= n -> zget (indices (a, a + n, 1)) j = Some k <-> 0 <= j < n /\ k = a + j).
  { intros a n j k Hn. replace (a + n) with (a + n * 1) by lia. rewrite zget_indices_unit by lia. lia. }
  assert (Hl : forall a n, 0 <= n -> zlen (indices (a, a + n, 1)) = n).
  { intros a n Hn. rewrite <- SboxLemmas.sbox_size_spec by apply Hu, Hn. rewrite SboxLemmas.size1. lia. }
  destruct (extract_reverse_spec m im (y, y + f_ny (fm_arr im), 1) (x, x + f_nx (fm_arr im), 1) plain wrap op (f_at (fm_arr im) 0 0) wy wx) as (m' & E & G1 & G2 & G3 & G4 & _); auto; try (rewrite Hl; auto).
  unfold insert_at. rewrite E. exists m'. repeat (split; [first [reflexivity|assumption]|]).
  unfold fits in G4. rewrite !Hl in G4 by assumption. destruct (G4 Fy Fx) as [G5 G6]. split.
  - intros i j y' x' Hi Hj Sy Sx. apply (G5 i j (y + i) (x + j)); auto; apply Hz; auto.
  - intros y' x' Hno. apply G6. intros i j ky kx Hi Hj Sy Sx. apply Hz in Hi as [Hi ->]; [|assumption]. apply Hz in Hj as [Hj ->]; [|assumption]. eapply Hno; eauto.
Qed.

(* Inserting what was extracted at the same place changes nothing, however the box wraps. *)
Theorem C05_roundtrip_partial {A} (m o : fmap A) by_ bx plain wrap cval cval' wy wx :
  unit_box by_ -> unit_box bx -> 0 < f_ny (fm_arr m) -> 0 < f_nx (fm_arr m) ->
  wrap_lens (fm_wcs m) (f_nx (fm_arr m)) plain wrap = (wy, wx) -> wrap_ok wy (f_ny (fm_arr m)) -> wrap_ok wx (f_nx (fm_arr m)) ->
  extract_pixbox m (by_, bx) None plain wrap (fun _ b => b) cval false = Some (m, o) ->
  exists m', extract_pixbox m (by_, bx) (Some o) plain wrap (fun _ b => b) cval' true = Some (m', o) /\
    arr_eq (fm_arr m') (fm_arr m) /\ fm_wcs m' = fm_wcs m.
Proof.
  intros Uy Ux Hny Hnx Ew Wy Wx E.
  destruct (extract_pixbox_spec m by_ bx plain wrap cval wy wx Uy Ux Hny Hnx Ew Wy Wx) as (o' & E' & L1 & L2 & H). rewrite E in E'. injection E' as <-.
  destruct (extract_reverse_spec m o by_ bx plain wrap (fun _ b => b) cval' wy wx Uy Ux Hny Hnx L1 L2 Ew Wy Wx) as (m' & E2 & G1 & G2 & G3 & _ & G5).
  exists m'. split; [exact E2|]. split; [|exact G1]. split; [exact G2|]. split; [exact G3|]. intros y x _ _. apply G5.
  intros i j ky kx y' x' Hi Hj Sy Sx. destruct (H i j ky kx Hi Hj) as [-> _]. rewrite Sy, Sx. reflexivity.
Qed.

(* extract by geometry: for an output geometry whose pixels coincide with those of the map (pixel (0,0) of it is
   pixel (dy,dx) of the map's grid) every output pixel gets the map's pixel at the same sky position. *)
Theorem C05_extract_partial {A} (m : fmap A) shape ow plain wrap cval wy wx dy dx :
  0 <= fst shape -> 0 <= snd shape -> 0 < f_ny (fm_arr m) -> 0 < f_nx (fm_arr m) ->
  wrap_lens (fm_wcs m) (f_nx (fm_arr m)) plain wrap = (wy, wx) -> wrap_ok wy (f_ny (fm_arr m)) -> wrap_ok wx (f_nx (fm_arr m)) ->
  (cdelt_x ow == cdelt_x (fm_wcs m))%Q -> (cdelt_y ow == cdelt_y (fm_wcs m))%Q -> ~ (cdelt_x ow == 0)%Q -> ~ (cdelt_y ow == 0)%Q ->
  same_sky_at ow (fm_wcs m) 0 0 dy dx ->
  exists o, extract m shape ow plain wrap cval = Some o /\ fm_wcs o = ow /\
    f_ny (fm_arr o) = fst shape /\ f_nx (fm_arr o) = snd shape /\
    forall i j, 0 <= i < fst shape -> 0 <= j < snd shape ->
      same_sky_at (fm_wcs o) (fm_wcs m) i j (dy + i) (dx + j) /\
      f_at (fm_arr o) i j = match source wy (f_ny (fm_arr m)) (dy + i), source wx (f_nx (fm_arr m)) (dx + j) with
                            | Some y, Some x => f_at (fm_arr m) y x | _, _ => cval end.
Proof.
  intros H1 H2 Hny Hnx Ew Wy Wx Cx Cy Nx Ny [Sy Sx]. unfold extract, pixbox_of.
  assert (Ex : qround (crpix_x (fm_wcs m) - crpix_x ow - (crval_x (fm_wcs m) - crval_x ow) / cdelt_x (fm_wcs m)) = dx).
  { apply qround_int. unfold sky_x, sky_at in Sx. change (inject_Z 0) with 0%Q in Sx. rewrite Cx in Nx.
    apply (Qmult_inj_l _ _ (cdelt_x (fm_wcs m))); [exact Nx|].
    assert (E : (cdelt_x (fm_wcs m) * (crpix_x (fm_wcs m) - crpix_x ow - (crval_x (fm_wcs m) - crval_x ow) / cdelt_x (fm_wcs m)) == cdelt_x (fm_wcs m) * (crpix_x (fm_wcs m) - crpix_x ow) - (crval_x (fm_wcs m) - crval_x ow))%Q) by (field; exact Nx).
    rewrite E. rewrite Cx in Sx. lra. }
  assert (Ey : qround (crpix_y (fm_wcs m) - crpix_y ow - (crval_y (fm_wcs m) - crval_y ow) / cdelt_y (fm_wcs m)) = dy).
  { apply qround_int. unfold sky_y, sky_at in Sy. change (inject_Z 0) with 0%Q in Sy. rewrite Cy in Ny.
    apply (Qmult_inj_l _ _ (cdelt_y (fm_wcs m))); [exact Ny|].
    assert (E : (cdelt_y (fm_wcs m) * (crpix_y (fm_wcs m) - crpix_y ow - (crval_y (fm_wcs m) - crval_y ow) / cdelt_y (fm_wcs m)) == cdelt_y (fm_wcs m) * (crpix_y (fm_wcs m) - crpix_y ow) - (crval_y (fm_wcs m) - crval_y ow))%Q) by (field; exact Ny).
    rewrite E. rewrite Cy in Sy. lra. }
  rewrite Ex, Ey.
  assert (Hu : forall a n, 0 <= n -> unit_box (a, a + n, 1)) by (intros a n Hn; split; [split; [lia|cbn [Z.sgn]; lia]|reflexivity]).
  assert (Hz : forall a n j k, 0 <= n -> zget (indices (a, a + n, 1)) j = Some k <-> 0 <= j < n /\ k = a + j).
  { intros a n j k Hn. replace (a + n) with (a + n * 1) by lia. rewrite zget_indices_unit by lia. lia. }
  assert (Hl : forall a n, 0 <= n -> zlen (indices (a, a + n, 1)) = n).
  { intros a n Hn. rewrite <- SboxLemmas.sbox_size_spec by apply Hu, Hn. rewrite SboxLemmas.size1. lia. }
  destruct (extract_pixbox_spec m (dy, dy + fst shape, 1) (dx, dx + snd shape, 1) plain wrap cval wy wx) as (o & -> & L1 & L2 & H); auto.
  eexists. split; [reflexivity|]. cbn [fm_arr fm_wcs]. split; [reflexivity|]. rewrite Hl in L1, L2 by assumption. split; [exact L1|]. split; [exact L2|].
  intros i j Hi Hj. split.
  - unfold same_sky_at, sky_x, sky_y, sky_at in *. rewrite !inject_Z_plus. change (inject_Z 0) with 0%Q in *. rewrite Cx in *. rewrite Cy in *. split; lra.
  - apply (H i j (dy + i) (dx + j)); apply Hz; auto.
Qed.

(* wrap="auto" on a sky map: the period is the number of pixels around the sky, or the smallest multiple of it that
   is not smaller than the map *)
Theorem C05_auto_period w nx : let n := qround (360 / Qabs (cdelt_x w)) in 0 < n -> 0 < nx ->
  wrap_lens w nx false None = (0, nphi w nx) /\ (n | nphi w nx) /\ nx <= nphi w nx < nx + n.
Proof. intros n Hn Hx. split; [reflexivity|]. apply nphi_spec; assumption. Qed.

(* the rows of an array *)
Definition rows_of {A} (a : farr A) : list (list A) := map (fun y => map (f_at a y) (zrange 0 (f_nx a))) (zrange 0 (f_ny a)).
Definition exm : fmap Z := FM (FA 3 8 (fun y x => 10 * y + x)) (Wcs 0 1 (36 # 1) 0 1 (36 # 1)).
(* a box hanging over the bottom and across the wrapping point (period 10, map 8 wide) *)
Example C05_ex : option_map (fun r => rows_of (fm_arr (snd r))) (extract_pixbox exm ((-1, 2, 1), (6, 12, 1)) None false None (fun _ b => b) (-7) false) =
    Some [[-7; -7; -7; -7; -7; -7]; [6; 7; -7; -7; 0; 1]; [16; 17; -7; -7; 10; 11]].
Proof. vm_compute. reflexivity. Qed.

(* boxes with a stride above 1 that start outside the map: the read fails *)
Theorem C05_stride_refuted : exists (m : fmap Z) by_ bx, box_ok by_ /\ box_ok bx /\ 0 < f_ny (fm_arr m) /\ 0 < f_nx (fm_arr m) /\
  extract_pixbox m (by_, bx) None true None (fun _ b => b) 0 false = None.
Proof.
  exists exm, (-1, 5, 3), (0, 4, 1). split; [split; [discriminate|vm_compute; discriminate]|]. split; [split; [discriminate|vm_compute; discriminate]|]. split; [reflexivity|]. split; [reflexivity|]. vm_compute. reflexivity.
Qed.
(* a map with a zero-length axis counts as unlimited along it *)
Theorem C05_empty_map_refuted : exists (m : fmap Z) by_ bx, unit_box by_ /\ unit_box bx /\
  f_ny (fm_arr m) = 0 /\ extract_pixbox m (by_, bx) None true None (fun _ b => b) 0 false = None.
Proof.
  exists (FM (FA 0 5 (fun _ _ => 0)) (fm_wcs exm)), (0, 2, 1), (0, 4, 1). split; [split; [split; [discriminate|vm_compute; discriminate]|reflexivity]|]. split; [split; [split; [discriminate|vm_compute; discriminate]|reflexivity]|]. split; [reflexivity|]. vm_compute. reflexivity.
Qed.

(* pad without wrapping *)
Theorem C06_pad {A} (m : fmap A) y0 x0 y1 x1 v : let ny := f_ny (fm_arr m) in let nx := f_nx (fm_arr m) in
  0 <= ny -> 0 <= nx -> 0 <= y0 -> 0 <= x0 -> 0 <= y1 -> 0 <= x1 ->
  exists r sy sx, pad m y0 x0 y1 x1 false v = Some (r, (sy, sx)) /\
    f_ny (fm_arr r) = ny + y0 + y1 /\ f_nx (fm_arr r) = nx + x0 + x1 /\
    (forall y x, 0 <= y < ny -> 0 <= x < nx -> f_at (fm_arr r) (y + y0) (x + x0) = f_at (fm_arr m) y x /\ same_sky_at (fm_wcs r) (fm_wcs m) (y + y0) (x + x0) y x) /\
    (forall y x, 0 <= y < f_ny (fm_arr r) -> 0 <= x < f_nx (fm_arr r) -> ~ (y0 <= y < y0 + ny /\ x0 <= x < x0 + nx) -> f_at (fm_arr r) y x = v) /\
    (let c := getmap r sy sx in arr_eq (fm_arr c) (fm_arr m) /\ forall y x, same_sky_at (fm_wcs c) (fm_wcs m) y x y x).
Proof.
  cbv zeta. intros H1 H2 H3 H4 H5 H6. destruct (pad_plain m y0 x0 y1 x1 v) as (r & E & L1 & L2 & W & HV); [assumption..|].
  do 3 eexists. split; [exact E|]. split; [exact L1|]. split; [exact L2|]. split; [|split].
  - intros y x Hy Hx. split; [|rewrite W; apply crpix_add_sky]. rewrite HV. replace (_ && _) with true by lia. f_equal; lia.
  - intros y x Hy Hx Hn. rewrite HV. replace (_ && _) with false by lia. reflexivity.
  - destruct (getmap_spec r y0 (y0 + f_ny (fm_arr m)) x0 (x0 + f_nx (fm_arr m))) as (G1 & G2 & G3 & G4); try lia. split.
    + split; [rewrite G1; lia|]. split; [rewrite G2; lia|]. rewrite G1, G2. intros y x Hy Hx. rewrite G3, HV. replace (_ && _) with true by lia. f_equal; lia.
    + intros y x. destruct (G4 y x) as [S1 S2]. pose proof (crpix_add_sky (fm_wcs m) y0 x0 y x) as [S3 S4]. rewrite <- W in S3, S4.
      rewrite (Z.add_comm y y0) in S3. rewrite (Z.add_comm x x0) in S4. split; [rewrite S1; exact S3|rewrite S2; exact S4].
Qed.
(* pad with wrapping, when the upper pads are not zero and no pad exceeds the map *)
Theorem C06_pad_wrap_partial {A} (m : fmap A) y0 x0 y1 x1 v : let ny := f_ny (fm_arr m) in let nx := f_nx (fm_arr m) in
  0 <= y0 <= ny -> 0 <= x0 <= nx -> 0 < y1 <= ny -> 0 < x1 <= nx ->
  exists r sy sx, pad m y0 x0 y1 x1 true v = Some (r, (sy, sx)) /\
    f_ny (fm_arr r) = ny + y0 + y1 /\ f_nx (fm_arr r) = nx + x0 + x1 /\
    (forall y x, 0 <= y < f_ny (fm_arr r) -> 0 <= x < f_nx (fm_arr r) ->
       f_at (fm_arr r) y x = f_at (fm_arr m) ((y - y0) mod ny) ((x - x0) mod nx) /\ same_sky_at (fm_wcs r) (fm_wcs m) y x (y - y0) (x - x0)) /\
    (let c := getmap r sy sx in arr_eq (fm_arr c) (fm_arr m) /\ forall y x, same_sky_at (fm_wcs c) (fm_wcs m) y x y x).
Proof.
  cbv zeta. intros H1 H2 H3 H4. destruct (pad_wrap m y0 x0 y1 x1 v) as (r & E & L1 & L2 & W & HV); [assumption..|].
  do 3 eexists. split; [exact E|]. split; [exact L1|]. split; [exact L2|]. split.
  - intros y x Hy Hx. split; [apply HV; assumption|]. rewrite W. pose proof (crpix_add_sky (fm_wcs m) y0 x0 (y - y0) (x - x0)) as S. replace (y - y0 + y0) with y in S by lia. replace (x - x0 + x0) with x in S by lia. exact S.
  - destruct (getmap_spec r y0 (y0 + f_ny (fm_arr m)) x0 (x0 + f_nx (fm_arr m))) as (G1 & G2 & G3 & G4); try lia. split.
    + split; [rewrite G1; lia|]. split; [rewrite G2; lia|]. rewrite G1, G2. intros y x Hy Hx. rewrite G3, HV by lia. rewrite !Z.mod_small by lia. f_equal; lia.
    + intros y x. destruct (G4 y x) as [S1 S2]. pose proof (crpix_add_sky (fm_wcs m) y0 x0 y x) as [S3 S4]. rewrite <- W in S3, S4.
      rewrite (Z.add_comm y y0) in S3. rewrite (Z.add_comm x x0) in S4. split; [rewrite S1; exact S3|rewrite S2; exact S4].
Qed.
Example C06_ex : option_map (fun r => hd [] (rows_of (fm_arr (fst r)))) (pad exm 1 2 1 3 true 0) = Some [26; 27; 20; 21; 22; 23; 24; 25; 26; 27; 20; 21; 22].
Proof. vm_compute. reflexivity. Qed.
(* wrap=True with nothing to add on the upper side of an axis: -0 means 0, and the assignment fails *)
Theorem C06_wrap_zero_refuted : pad exm 1 1 0 1 true 0 = None.
Proof. vm_compute. reflexivity. Qed.
(* a pad wider than the map copies fill values *)
Theorem C06_wrap_wide_refuted : exists m : fmap Z, (forall y x, f_at (fm_arr m) y x = 1) /\ f_nx (fm_arr m) = 2 /\
  option_map (fun r => rows_of (fm_arr (fst r))) (pad m 0 3 1 1 true (-9)) = Some (repeat [-9; 1; 1; 1; 1; 1] 4).
Proof. exists (FM (FA 3 2 (fun _ _ => 1)) (fm_wcs exm)). split; [reflexivity|]. split; [reflexivity|]. vm_compute. reflexivity. Qed.

(* The result has exactly the target size; it holds the original pixels at their sky positions, padded with zero if the
   target is larger than the map; every original pixel that is missing from it was blank. *)
Theorem C07_autocrop_partial {A} (m : fmap A) good v margin zero r :
  0 <= f_ny (fm_arr m) -> 0 <= f_nx (fm_arr m) -> 0 <= margin -> (forall l, l <= good l) ->
  autocrop m good v margin zero = Some r ->
  exists oy ox b, blanks_of (fm_arr m) v = Some b /\
  let '((by0, by1), (bx0, bx1)) := b in
  f_ny (fm_arr r) = good (f_ny (fm_arr m) - (by0 + by1) + margin) /\ f_nx (fm_arr r) = good (f_nx (fm_arr m) - (bx0 + bx1) + margin) /\
  (forall y x, 0 <= y < f_ny (fm_arr r) -> 0 <= x < f_nx (fm_arr r) ->
     f_at (fm_arr r) y x = (if (0 <=? oy + y) && (oy + y <? f_ny (fm_arr m)) && (0 <=? ox + x) && (ox + x <? f_nx (fm_arr m))
                            then f_at (fm_arr m) (oy + y) (ox + x) else zero) /\
     same_sky_at (fm_wcs r) (fm_wcs m) y x (oy + y) (ox + x)) /\
  (forall y x, 0 <= y < f_ny (fm_arr m) -> 0 <= x < f_nx (fm_arr m) ->
     ~ (0 <= y - oy < f_ny (fm_arr r) /\ 0 <= x - ox < f_nx (fm_arr r)) ->
     exists blank, In blank (blank_choice v) /\ blank (f_at (fm_arr m) y x) = true).
Proof. exact (autocrop_spec m good v margin zero r). Qed.
(* the border used above consists of blank pixels and cannot be widened on any side *)
Theorem C07_border {A} (m : farr A) blank y0 y1 x0 x1 : 0 <= f_ny m -> 0 <= f_nx m ->
  blanks_of m (BValue blank) = Some ((y0, y1), (x0, x1)) ->
  0 <= y0 /\ 0 <= y1 /\ y0 + y1 <= f_ny m /\ 0 <= x0 /\ 0 <= x1 /\ x0 + x1 <= f_nx m /\
  (forall y x, 0 <= y < f_ny m -> 0 <= x < f_nx m -> y < y0 \/ f_ny m - y1 <= y \/ x < x0 \/ f_nx m - x1 <= x -> blank (f_at m y x) = true) /\
  (exists x, 0 <= x < f_nx m /\ blank (f_at m y0 x) = false) /\ (exists x, 0 <= x < f_nx m /\ blank (f_at m (f_ny m - y1 - 1) x) = false) /\
  (exists y, 0 <= y < f_ny m /\ blank (f_at m y x0) = false) /\ (exists y, 0 <= y < f_ny m /\ blank (f_at m y (f_nx m - x1 - 1)) = false).
Proof.
  intros Hy Hx H. pose proof (find_blank_spec m blank _ Hy Hx H) as H1. pose proof (find_blank_tight m blank y0 y1 x0 x1 Hy Hx H) as H2. unfold blank_sides in H1. tauto.
Qed.
(* with a non-blank pixel in the map there is a result *)
Theorem C07_autocrop_total {A} (m : fmap A) good blank margin zero y x :
  0 <= y < f_ny (fm_arr m) -> 0 <= x < f_nx (fm_arr m) -> blank (f_at (fm_arr m) y x) = false ->
  exists r, autocrop m good (BValue blank) margin zero = Some r.
Proof.
  intros Hy Hx Hb. destruct (find_blank_total (fm_arr m) blank y x Hy Hx Hb) as (b & E). eapply autocrop_total; [lia|lia|exact E].
Qed.
Definition exc : fmap Z := FM (FA 4 5 (fun y x => if (1 <=? y) && (y <? 3) && (x =? 2) then 5 else 0)) (fm_wcs exm).
Example C07_ex : option_map (fun r => rows_of (fm_arr r)) (autocrop exc (fun l => if l =? 1 then 2 else l) (BValue (fun v => v =? 0)) 0 0) = Some [[5; 0]; [5; 0]].
Proof. vm_compute. reflexivity. Qed.
(* an entirely blank map is an error *)
Theorem C07_all_blank_refuted : exists m : fmap Z, autocrop m (fun l => l) (BValue (fun v => v =? 0)) 0 0 = None.
Proof. exists (FM (FA 2 2 (fun _ _ => 0)) (fm_wcs exm)). vm_compute. reflexivity. Qed.

Theorem C08_padslice {A} (m : fmap A) y0 x0 y1 x1 d : 0 <= f_ny (fm_arr m) -> 0 <= f_nx (fm_arr m) -> y0 <= y1 -> x0 <= x1 ->
  exists r, padslice m y0 x0 y1 x1 d = Some r /\ f_ny (fm_arr r) = y1 - y0 /\ f_nx (fm_arr r) = x1 - x0 /\
  forall i j, 0 <= i < y1 - y0 -> 0 <= j < x1 - x0 ->
    f_at (fm_arr r) i j = (if (0 <=? y0 + i) && (y0 + i <? f_ny (fm_arr m)) && (0 <=? x0 + j) && (x0 + j <? f_nx (fm_arr m))
                           then f_at (fm_arr m) (y0 + i) (x0 + j) else d) /\
    same_sky_at (fm_wcs r) (fm_wcs m) i j (y0 + i) (x0 + j).
Proof. exact (padslice_spec m y0 x0 y1 x1 d). Qed.
Example C08_ex : option_map (fun r => rows_of (fm_arr r)) (padslice exm (-1) 6 2 9 (-1)) = Some [[-1; -1; -1]; [6; 7; -1]; [16; 17; -1]].
Proof. vm_compute. reflexivity. Qed.
Example C08_ex_miss : option_map (fun r => rows_of (fm_arr r)) (padslice exm 5 20 6 22 (-1)) = Some [[-1; -1]].
Proof. vm_compute. reflexivity. Qed.

Print Assumptions C05_extract_pixbox_partial.
Print Assumptions C05_extract_onto_partial.
Print Assumptions C05_insert_at_partial.
Print Assumptions C05_roundtrip_partial.
Print Assumptions C05_extract_partial.
Print Assumptions C05_auto_period.
Print Assumptions C05_stride_refuted.
Print Assumptions C05_empty_map_refuted.
Print Assumptions C06_pad.
Print Assumptions C06_pad_wrap_partial.
Print Assumptions C06_wrap_zero_refuted.
Print Assumptions C06_wrap_wide_refuted.
Print Assumptions C07_autocrop_partial.
Print Assumptions C07_border.
Print Assumptions C07_autocrop_total.
Print Assumptions C07_all_blank_refuted.
Print Assumptions C08_padslice.
