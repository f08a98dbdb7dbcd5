(* C58: Haar wavelets; C68: multimaps. *)
From Verif Require Import Base SliceSpec SliceModel BlockModel DownModel RangeModel CatModel WavSpec WavModel WavLemmas.
Ltac Zify.zify_post_hook ::= idtac.

(* wave2map(map2wave(m)) is m: same shape, same wcs, same pixel values; for any number of levels and any
   offsets the reference point gives at the different resolutions *)
Theorem C58_reconstruct : forall refpix nlevel (m : ndmap Q), nd_wf m -> 0 < nm_ny m -> 0 < nm_nx m ->
  exists wave r, haar_map2wave refpix nlevel m = Some wave /\ zlen (mm_geos wave) = Z.of_nat nlevel + 1 /\
    haar_wave2map refpix wave = Some r /\ identical_map r m.
Proof.
  intros refpix n m Hw Hny Hnx. destruct (haar_levels_ok refpix n m Hw Hny Hnx) as (L & HL & Hlen & HW & r & Hr & Wr & Hid).
  unfold haar_map2wave. rewrite HL. assert (Hne : rev L <> []) by (intros E; apply (f_equal (@length _)) in E; rewrite rev_length in E; cbn in E; lia).
  assert (EM : exists wave, multimap (rev L) = Some wave) by (destruct (rev L); [congruence|eexists; reflexivity]). destruct EM as [wave EM].
  assert (Egeo : mm_geos wave = map geo_of (rev L)) by (destruct (rev L); [discriminate|now injection EM as <-]).
  assert (El : zlen (mm_geos wave) = zlen L) by (rewrite Egeo; unfold zlen; rewrite map_length, rev_length; reflexivity).
  exists wave, r. split; [exact EM|]. split; [rewrite El; unfold zlen; lia|]. split; [|exact Hid].
  unfold haar_wave2map. rewrite El, <- Hr. apply (fold_recon refpix L wave HW EM [] L); [reflexivity|]. intros E. apply Hne. rewrite E. reflexivity.
Qed.
Print Assumptions C58_reconstruct.

(* what the wavelet maps are: with c k the map averaged down k times, map 0 is c nlevel, and map nlevel-k holds
   the details of c k, on the pixels of c k, which average to zero in every pixel of c (k+1) *)
Theorem C58_levels : forall refpix nlevel (m : ndmap Q), nd_wf m -> 0 < nm_ny m -> 0 < nm_nx m ->
  exists wave (c : nat -> ndmap Q), haar_map2wave refpix nlevel m = Some wave /\
    c 0%nat = m /\ mm_get wave 0 = Some (c nlevel) /\
    forall k, (k < nlevel)%nat -> let o := haar_off refpix (geo_of (c k)) in
      downgrade (c k) 2 2 (fst o) (snd o) true = Some (c (S k)) /\
      exists d z, mm_get wave (Z.of_nat nlevel - Z.of_nat k) = Some d /\ geo_of d = geo_of (c k) /\
        downgrade d 2 2 (fst o) (snd o) true = Some z /\ zero_map z.
Proof.
  intros refpix n m Hw Hny Hnx. destruct (haar_levels_ok refpix n m Hw Hny Hnx) as (L & HL & Hlen & HW & _).
  destruct (haar_chain refpix n m Hw Hny Hnx L HL) as (c & C0 & Cn & Ck).
  unfold haar_map2wave. rewrite HL. assert (Hne : rev L <> []) by (intros E; apply (f_equal (@length _)) in E; rewrite rev_length in E; cbn in E; lia).
  assert (EM : exists wave, multimap (rev L) = Some wave) by (destruct (rev L); [congruence|eexists; reflexivity]). destruct EM as [wave EM].
  assert (G : forall k x, (k <= n)%nat -> nth_error L k = Some x -> mm_get wave (Z.of_nat n - Z.of_nat k) = Some x).
  { intros k x Hk Hx. rewrite <- Nat2Z.inj_sub by exact Hk. apply (mm_get_spec (rev L)); [apply Forall_rev; exact HW|exact EM|].
    rewrite <- Hx. apply nth_error_split in Hx. destruct Hx as (l1 & l2 & -> & E1). rewrite app_length in Hlen. cbn [length] in Hlen.
    rewrite rev_app_distr. cbn [rev]. rewrite <- app_assoc. rewrite nth_error_app2 by (rewrite rev_length; lia). rewrite rev_length.
    replace (n - k - length l2)%nat with 0%nat by lia. cbn [nth_error app]. rewrite nth_error_app2 by lia. rewrite <- E1, Nat.sub_diag. reflexivity. }
  exists wave, c. split; [exact EM|]. split; [exact C0|]. split.
  - specialize (G n (c n) (Nat.le_refl _) Cn). rewrite Z.sub_diag in G. exact G.
  - intros k Hk. cbv zeta. destruct (Ck k Hk) as (H1 & d & z & H2 & H3 & H4 & H5). split; [exact H1|]. exists d, z. split; [apply G; [lia|exact H2]|]. auto.
Qed.
Print Assumptions C58_levels.

(* a 3 x 2 map, two levels, with an odd offset in y at the first level *)
Definition haar_ex : ndmap Q := NdMap 3 2 [[1; 2]; [3; 4]; [5; 7]]%Q (Wcs 0 1 1 0 1 1).
Example C58_ex : let ref ny nx w := if ny =? 3 then (1, 0) else (0, 1) in
  (nd_wf haar_ex /\ 0 < nm_ny haar_ex /\ 0 < nm_nx haar_ex) /\
  option_map (fun wv => (map geo_npix (mm_geos wv), map Qred (mm_flat wv))) (haar_map2wave ref 2 haar_ex) =
    Some ([1; 2; 6], [25 # 8; -(13 # 8); 13 # 8; -(1 # 2); 1 # 2; -(7 # 4); -(3 # 4); 1 # 4; 9 # 4]%Q) /\
  option_map (fun m => map (map Qred) (nm_arr m)) (match haar_map2wave ref 2 haar_ex with Some wv => haar_wave2map ref wv | None => None end) =
    Some [[1; 2]; [3; 4]; [5; 7]]%Q.
Proof. split; [|split]; [repeat split; repeat constructor|reflexivity..]. Qed.

(* maps[i] of a multimap is the i'th map it was built from *)
Theorem C68_maps_partial : forall A (maps : list (ndmap A)) mm, Forall nd_wf maps -> multimap maps = Some mm ->
  zlen (mm_geos mm) = zlen maps /\ forall i m, zget maps i = Some m -> mm_get mm i = Some m.
Proof.
  intros A maps mm HW HM. split.
  - destruct maps; [discriminate|]. injection HM as <-. cbn [mm_geos]. rewrite !zlen_cons, zlen_map. reflexivity.
  - intros i m Hi. pose proof (zget_Some_range _ _ _ Hi) as Hr. rewrite <- (Z2Nat.id i) in Hi by lia. rewrite zget_nth_error in Hi.
    rewrite <- (Z2Nat.id i) by lia. exact (mm_get_spec maps mm (Z.to_nat i) m HW HM Hi).
Qed.
Print Assumptions C68_maps_partial.

(* negative indices, as in the documented wmap.maps[-3], give the pixels of the next map with the geometry of the
   requested one when the two have equal size, and fail otherwise *)
Theorem C68_negative_refuted : exists (maps : list (ndmap Z)) mm, Forall nd_wf maps /\ multimap maps = Some mm /\
  (exists m x, zget maps (zlen maps - 3) = Some m /\ mm_get mm (-3) = Some x /\ nm_arr m = [[1; 2]] /\ nm_arr x = [[3; 4]] /\ nm_wcs x = nm_wcs m) /\
  (exists m, zget maps (zlen maps - 1) = Some m /\ mm_get mm (-1) = None).
Proof.
  exists [NdMap 1 2 [[1; 2]] (Wcs 1 1 1 0 1 1); NdMap 1 2 [[3; 4]] (Wcs 2 1 1 0 1 1); NdMap 2 2 [[5; 6]; [7; 8]] (Wcs 3 1 1 0 1 1)].
  eexists. split; [repeat constructor|]. split; [reflexivity|]. split.
  - eexists. eexists. split; [reflexivity|]. split; [reflexivity|]. repeat split.
  - eexists. split; reflexivity.
Qed.
Print Assumptions C68_negative_refuted.
