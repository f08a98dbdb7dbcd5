From Coq Require Import ZArith List Lia.
From Verif Require Import Base RangeModel AlmLemmas HpSpec HpModel HpLemmas.
Import ListNotations.
Local Open Scope Z_scope.
Ltac Zify.zify_post_hook ::= idtac.

(* C47: the tables of healpix_info hold the HEALPix ring lengths and starts, and the rings tile the
   pixel range: every pixel number is at one position of one ring. nside up to 32767 only, beyond
   that see C47_overflow_refuted. *)
Theorem C47_rings_tile_partial : forall n, 1 <= n <= 32767 -> exists geo, build_healpix_info n = Some geo /\
  hp_npix geo = 12 * n * n /\ hp_ny geo = nring n /\ zlen (hp_nx geo) = nring n /\ zlen (hp_off geo) = nring n /\
  (forall y, 0 <= y < nring n -> zget (hp_nx geo) y = Some (ring_len n y) /\ zget (hp_off geo) y = Some (ring_start n y)) /\
  (forall p, 0 <= p < hp_npix geo <-> exists y x, is_pix n y x /\ p = ring_start n y + x) /\
  (forall y x y' x', is_pix n y x -> is_pix n y' x' -> ring_start n y + x = ring_start n y' + x' -> y = y' /\ x = x').
Proof.
  intros n Hn. exists (the_info n). split; [apply build_ok; lia|]. split; [reflexivity|]. split; [reflexivity|].
  assert (Z0 : 0 <= nring n) by (unfold nring; lia).
  split; [cbn; unfold zlen; rewrite map_length; fold (zlen (zrange 0 (nring n))); rewrite zrange_zlen; lia|].
  split; [cbn; unfold zlen; rewrite map_length; fold (zlen (zrange 0 (nring n))); rewrite zrange_zlen; lia|].
  split; [intros y Hy; split; [apply info_nx|apply info_off]; assumption|].
  split; [|intros; eapply ring_unique; eauto; lia].
  intros p. cbn [hp_npix the_info]. split.
  - intros Hp. apply ring_cover; lia.
  - intros (y & x & H & ->). apply ring_range; [lia|assumption].
Qed.
Print Assumptions C47_rings_tile_partial.

(* C47: pixel -> (ring, position) -> pixel and back are the identity on arrays of pixels, for any
   square root that is right up to 2^50 and off by at most one beyond *)
Theorem C47_unravel_ravel_partial : forall fsqrt n pixs, sqrt_ok fsqrt -> 1 <= n <= 32767 -> (forall p, In p pixs -> 0 <= p < 12 * n * n) ->
  exists geo yx, build_healpix_info n = Some geo /\ unravel_healpix fsqrt geo pixs = Some yx /\
    (forall q, In q yx -> is_pix n (fst q) (snd q)) /\ ravel_healpix geo yx = Some pixs.
Proof.
  intros fs n pixs HS Hn HP. exists (the_info n).
  assert (G : exists yx, unravel_healpix fs (the_info n) pixs = Some yx /\ (forall q, In q yx -> is_pix n (fst q) (snd q)) /\ ravel_healpix (the_info n) yx = Some pixs).
  { induction pixs as [|p pixs IH].
    - exists []. repeat split; cbn; tauto.
    - destruct IH as (yx & U & V & W); [intros; apply HP; right; assumption|].
      destruct (ring_cover n p ltac:(lia) (HP p (or_introl eq_refl))) as (y & x & Hyx & ->).
      exists ((y, x) :: yx). unfold unravel_healpix, ravel_healpix in *. cbn [map all_some fold_right] in *.
      unfold all_some in *. rewrite pix2y_ok by assumption. cbn [fst snd].
      rewrite info_off by (destruct Hyx; assumption). cbn [bind]. rewrite U, W.
      replace (ring_start n y + x - ring_start n y) with x by lia. split; [reflexivity|]. split; [|reflexivity].
      intros q [<-|Hq]; [exact Hyx|auto]. }
  destruct G as (yx & U & V & W). exists yx. split; [apply build_ok; lia|]. auto.
Qed.
Print Assumptions C47_unravel_ravel_partial.
Theorem C47_ravel_unravel_partial : forall fsqrt n yx, sqrt_ok fsqrt -> 1 <= n <= 32767 -> (forall q, In q yx -> is_pix n (fst q) (snd q)) ->
  exists geo pixs, build_healpix_info n = Some geo /\ ravel_healpix geo yx = Some pixs /\
    (forall p, In p pixs -> 0 <= p < hp_npix geo) /\ unravel_healpix fsqrt geo pixs = Some yx.
Proof.
  intros fs n yx HS Hn HP. exists (the_info n), (map (fun q => ring_start n (fst q) + snd q) yx).
  split; [apply build_ok; lia|]. split; [|split].
  - unfold ravel_healpix. apply all_some_map. intros q Hq. destruct (HP q Hq) as [H1 H2]. rewrite info_off by assumption. reflexivity.
  - intros p Hp. apply in_map_iff in Hp. destruct Hp as (q & <- & Hq). apply ring_range; [lia|]. apply HP. assumption.
  - unfold unravel_healpix. rewrite map_map. rewrite (all_some_map _ (fun q => q)).
    + now rewrite map_id.
    + intros [y x] Hq. specialize (HP _ Hq). cbn [fst snd] in *. rewrite pix2y_ok by assumption. rewrite info_off by (destruct HP; assumption).
      cbn [bind]. do 2 f_equal. lia.
Qed.
Print Assumptions C47_ravel_unravel_partial.

(* C47: the four neighbours of every pixel are the pixels sharing its north-west, north-east,
   south-west and south-east edges, all of them valid pixels, and being neighbours is symmetric *)
Theorem C47_neighbours_partial : forall n y x, 1 <= n <= 32767 -> is_pix n y x -> exists geo qs,
  build_healpix_info n = Some geo /\ get_healpix_neighs geo y x = Some qs /\
  Forall2 (fun d q => edge_neighbour n (fst d) (snd d) y x (fst q) (snd q)) directions qs /\
  (forall q, In q qs -> is_pix n (fst q) (snd q) /\ exists ps, get_healpix_neighs geo (fst q) (snd q) = Some ps /\ In (y, x) ps).
Proof.
  intros n y x Hn HP. destruct (neighs_spec n y x ltac:(lia) HP) as (qs & E & F). exists (the_info n), qs.
  split; [apply build_ok; lia|]. split; [exact E|]. split; [exact F|]. intros q Hq. split.
  - clear E. induction F as [|d q' ds qs' [H _] F IH]; [destruct Hq|]. destruct Hq as [->|Hq]; [exact H|auto].
  - destruct q as [y' x']. apply (neighs_sym n y x y' x'); try lia; [assumption|]. exists qs. auto.
Qed.
Print Assumptions C47_neighbours_partial.

(* beyond 32767 the number of polar cap pixels is computed in 32-bit arithmetic and overflows *)
Theorem C47_overflow_refuted : build_healpix_info 32768 = None.
Proof. vm_compute. reflexivity. Qed.
Print Assumptions C47_overflow_refuted.

(* C47: the ring table used for transforms is the same one, for every resolution, *)
Theorem C47_ring_info : forall n, 1 <= n ->
  get_ring_info_healpix n None = (map (ring_len n) (zrange 0 (nring n)), map (ring_start n) (zrange 0 (nring n)), map (half_shift n) (zrange 0 (nring n))).
Proof.
  intros n Hn. change (get_ring_info_healpix n None) with (get_ring_info_healpix n (Some (zrange 0 (nring n)))).
  rewrite ring_info_lists; [|assumption|intros y Hy; apply zrange_In in Hy; assumption].
  f_equal; f_equal. rewrite excl_sum_rings by (unfold nring; lia). apply map_ext. intros y. reflexivity.
Qed.
Print Assumptions C47_ring_info.
(* and for a choice of rings the selected rings are laid out one after the other *)
Theorem C47_ring_info_subset : forall n rings i, 1 <= n -> (forall y, In y rings -> 0 <= y < nring n) -> 0 <= i < zlen rings ->
  forall nphi offs half, get_ring_info_healpix n (Some rings) = (nphi, offs, half) ->
  zget nphi i = option_map (ring_len n) (zget rings i) /\ zget offs i = Some (zsum (map (ring_len n) (firstn (Z.to_nat i) rings))) /\
  zget half i = option_map (half_shift n) (zget rings i).
Proof.
  intros n rings i Hn HR Hi nphi offs half E. rewrite ring_info_lists in E by assumption. inversion E; subst; clear E.
  rewrite !zget_map. split; [reflexivity|]. split; [|reflexivity].
  rewrite excl_sum_zget by (unfold zlen in *; rewrite map_length; lia). rewrite firstn_map. f_equal.
Qed.
Print Assumptions C47_ring_info_subset.

Example C47_ex : option_map hp_nx (build_healpix_info 2) = Some [4; 8; 8; 8; 8; 8; 4] /\
  option_map hp_off (build_healpix_info 2) = Some [0; 4; 12; 20; 28; 36; 44] /\
  option_map hp_shift (build_healpix_info 2) = Some [1; 1; 0; 1; 0; 1; 1].
Proof. vm_compute. auto. Qed.
Example C47_neigh_ex : bind (build_healpix_info 2) (fun g => get_healpix_neighs g 0 1) = Some [(0, 0); (0, 2); (1, 2); (1, 3)] /\
  bind (build_healpix_info 2) (fun g => get_healpix_neighs g 1 7) = Some [(0, 3); (1, 0); (2, 7); (2, 0)].
Proof. vm_compute. auto. Qed.
Example C47_sqrt_ex : sqrt_ok Z.sqrt.
Proof. split; intros; lia. Qed.
