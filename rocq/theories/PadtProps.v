(* C09 padtiles. *)
From Coq Require Import Lqa Qabs Permutation.
From Verif Require Import Base SliceSpec SliceModel SboxSpec SboxModel WindModel DownSpec DownLemmas ArrModel PixSpec PixModel PixProps PadtModel PadtLemmas.

(* Loop over the tiles of imap and write h(tile) to otile wherever it is not margin: omap grows by exactly h(imap).
   With h the identity this is the property. The sky may repeat along x only if the tiles do not reach round to the other side. *)
Theorem C09_padtiles_partial tsh pd mg user h imap iplain oplain omap w wi :
  let ny := f_ny (fm_arr omap) in let nx := f_nx (fm_arr omap) in
  0 < fst tsh -> 0 < snd tsh -> 0 <= fst pd -> 0 <= snd pd -> 2 * fst pd <= fst tsh -> 2 * snd pd <= snd tsh -> 0 <= fst mg -> 0 <= snd mg ->
  0 < ny -> 0 < nx -> f_ny (fm_arr imap) = ny /\ f_nx (fm_arr imap) = nx ->
  wrap_lens (fm_wcs imap) nx iplain None = (0, wi) -> wrap_ok wi nx ->
  wrap_lens (fm_wcs omap) nx oplain None = (0, w) -> w = 0 \/ (nx + snd tsh - 1) / snd tsh * snd tsh + 2 * snd pd <= w ->
  (forall ti t y x, fst mg <= y < f_ny t - fst mg -> snd mg <= x < f_nx t - snd mg -> (f_at (user ti t) y x == h (f_at t y x))%Q) ->
  exists om, padtiles tsh pd mg 0 1 user imap iplain oplain omap = Some om /\ fm_wcs om = fm_wcs omap /\
    f_ny (fm_arr om) = ny /\ f_nx (fm_arr om) = nx /\
    forall y x, 0 <= y < ny -> 0 <= x < nx -> (f_at (fm_arr om) y x == f_at (fm_arr omap) y x + h (f_at (fm_arr imap) y x))%Q.
Proof.
  cbv zeta. intros T1 T2 P1 P2 Q1 Q2 M1 M2 N1 N2 HI Hwi Hwi2 Hwo Hw Hu. unfold padtiles.
  destruct (turns tsh pd mg user imap iplain oplain h w wi (f_ny (fm_arr omap)) (f_nx (fm_arr omap)) T1 T2 P1 P2 Q1 Q2 M1 M2 N1 N2 HI Hwi Hwi2 Hw Hu
    (pyrange 0 (ntile (f_ny (fm_arr omap)) (fst tsh) * ntile (f_nx (fm_arr omap)) (snd tsh)) 1) omap eq_refl eq_refl Hwo) as (om & E & E1 & E2 & E3 & E4).
  { intros ti Hti. apply pyrange_In in Hti; lia. }
  exists om. split; [exact E|]. split; [exact E1|]. split; [exact E2|]. split; [exact E3|]. intros y x Hy Hx. rewrite E4 by assumption.
  rewrite (qsum_perm _ (map (fun ti => wt tsh pd (f_ny (fm_arr omap)) (f_nx (fm_arr omap)) ti y x) (zrange 0 (ntile (f_ny (fm_arr omap)) (fst tsh) * ntile (f_nx (fm_arr omap)) (snd tsh))))).
  - fold (qsum_on (fun ti => wt tsh pd (f_ny (fm_arr omap)) (f_nx (fm_arr omap)) ti y x) 0 (ntile (f_ny (fm_arr omap)) (fst tsh) * ntile (f_nx (fm_arr omap)) (snd tsh))).
    rewrite (wt_total tsh pd mg user h); [ring|assumption..].
  - apply Permutation_map, NoDup_Permutation; [apply pyrange_NoDup; lia|apply zrange_NoDup|]. intros i. rewrite pyrange_In, zrange_In by lia.
    split; [lia|]. intros Hi. split; [lia|]. apply Z.divide_1_l.
Qed.

(* The tiles shared between k ranks (start=rank, step=k), each accumulating in its own zero map: the maps add up to h(imap). *)
Theorem C09_ranks_partial k tsh pd mg user h imap iplain oplain ow w wi :
  let ny := f_ny (fm_arr imap) in let nx := f_nx (fm_arr imap) in let zero := FM (FA ny nx (fun _ _ => 0%Q)) ow in
  0 < k -> 0 < fst tsh -> 0 < snd tsh -> 0 <= fst pd -> 0 <= snd pd -> 2 * fst pd <= fst tsh -> 2 * snd pd <= snd tsh -> 0 <= fst mg -> 0 <= snd mg ->
  0 < ny -> 0 < nx -> wrap_lens (fm_wcs imap) nx iplain None = (0, wi) -> wrap_ok wi nx ->
  wrap_lens ow nx oplain None = (0, w) -> w = 0 \/ (nx + snd tsh - 1) / snd tsh * snd tsh + 2 * snd pd <= w ->
  (forall ti t y x, fst mg <= y < f_ny t - fst mg -> snd mg <= x < f_nx t - snd mg -> (f_at (user ti t) y x == h (f_at t y x))%Q) ->
  exists out, (forall r, 0 <= r < k -> padtiles tsh pd mg r k user imap iplain oplain zero = Some (out r)) /\
    forall y x, 0 <= y < ny -> 0 <= x < nx -> (qsum (map (fun r => f_at (fm_arr (out r)) y x) (zrange 0 k)) == h (f_at (fm_arr imap) y x))%Q.
Proof.
  cbv zeta. intros Hk T1 T2 P1 P2 Q1 Q2 M1 M2 N1 N2 Hwi Hwi2 Hwo Hw Hu. set (ny := f_ny (fm_arr imap)) in *. set (nx := f_nx (fm_arr imap)) in *.
  set (zero := FM (FA ny nx (fun _ _ => 0%Q)) ow). set (N := ntile ny (fst tsh) * ntile nx (snd tsh)).
  exists (fun r => match padtiles tsh pd mg r k user imap iplain oplain zero with Some o => o | None => zero end).
  assert (G : forall r, 0 <= r < k -> exists om, padtiles tsh pd mg r k user imap iplain oplain zero = Some om /\ forall y x, 0 <= y < ny -> 0 <= x < nx ->
     (f_at (fm_arr om) y x == qsum (map (fun ti => wt tsh pd ny nx ti y x) (pyrange r N k)) * h (f_at (fm_arr imap) y x))%Q).
  { intros r Hr. destruct (turns tsh pd mg user imap iplain oplain h w wi ny nx T1 T2 P1 P2 Q1 Q2 M1 M2 N1 N2 (conj eq_refl eq_refl) Hwi Hwi2 Hw Hu (pyrange r N k) zero eq_refl eq_refl Hwo) as (om & E & _ & _ & _ & E4).
    - intros ti Hti. apply pyrange_In in Hti; [unfold N in Hti; lia|exact Hk].
    - exists om. split; [exact E|]. intros y x Hy Hx. rewrite E4 by assumption. cbn [zero fm_arr f_at]. ring. }
  split.
  - intros r Hr. destruct (G r Hr) as (om & -> & _). reflexivity.
  - intros y x Hy Hx.
    transitivity (qsum (map (fun r => qsum (map (fun ti => wt tsh pd ny nx ti y x) (pyrange r N k)) * h (f_at (fm_arr imap) y x)) (zrange 0 k)))%Q.
    + apply (qsum_on_ext (fun r => f_at (fm_arr (match padtiles tsh pd mg r k user imap iplain oplain zero with Some o => o | None => zero end)) y x)
        (fun r => qsum (map (fun ti => wt tsh pd ny nx ti y x) (pyrange r N k)) * h (f_at (fm_arr imap) y x))%Q 0 k).
      intros r Hr. destruct (G r Hr) as (om & -> & H). apply H; assumption.
    + assert (E : forall (c : Q) (f : Z -> Q) L, (qsum (map (fun r => f r * c)%Q L) == qsum (map f L) * c)%Q).
      { intros c f L. induction L as [|u L IH]; cbn [map qsum]; [ring|]. rewrite IH. ring. }
      rewrite E, qsum_flat. rewrite (qsum_perm _ (map (fun ti => wt tsh pd ny nx ti y x) (zrange 0 N))) by (apply Permutation_map, ranks_perm, Hk).
      fold (qsum_on (fun ti => wt tsh pd ny nx ti y x) 0 N). unfold N. rewrite (wt_total tsh pd mg user h); [ring|assumption..].
Qed.

Definition qrows (m : fmap Q) : list (list Q) := map (map Qred) (rows_of (fm_arr m)).
Definition ex_w (cd : Q) : wcs := Wcs 0 1 cd 0 1 1.
Definition ex_in (ny nx : Z) (cd : Q) : fmap Q := FM (FA ny nx (fun y x => inject_Z (10 * y + x + 1))) (ex_w cd).
Definition ex_zero (ny nx : Z) (cd : Q) : fmap Q := FM (FA ny nx (fun _ _ => 0%Q)) (ex_w cd).

(* 5x7 map, tiles of 2x4 with pad (1,2) and margin 1; the user spoils the margin *)
Definition ex_spoil (ti : Z) (t : farr Q) : farr Q :=
  FA (f_ny t) (f_nx t) (fun y x => if (1 <=? y) && (y <? f_ny t - 1) && (1 <=? x) && (x <? f_nx t - 1) then f_at t y x else 99%Q).
Example C09_example : option_map qrows (padtiles (2, 4) (1, 2) (1, 1) 0 1 ex_spoil (ex_in 5 7 1) true true (ex_zero 5 7 1)) = Some (qrows (ex_in 5 7 1)).
Proof. vm_compute. reflexivity. Qed.
Example C09_example_ranks : option_map qrows (padtiles (2, 4) (1, 2) (1, 1) 1 2 ex_spoil (ex_in 5 7 1) true true (ex_zero 5 7 1)) <> Some (qrows (ex_in 5 7 1)).
Proof. vm_compute. discriminate. Qed.
(* and the hypotheses on the wrap length with a map covering 7 of 360 columns *)
Example C09_example_wrap : wrap_lens (ex_w 1) 7 false None = (0, 360) /\ (7 + 4 - 1) / 4 * 4 + 2 * 2 <= 360.
Proof. split; [vm_compute; reflexivity|discriminate]. Qed.

(* A map that goes all the way round the sky, with a tile shape that divides it: the pads of the first and the last tile
   wrap to the other edge unweighted, and those pixels are counted twice. *)
Theorem C09_fullsky_refuted : exists tsh pd user imap, wrap_lens (fm_wcs imap) (f_nx (fm_arr imap)) false None = (0, f_nx (fm_arr imap)) /\
  (snd tsh | f_nx (fm_arr imap)) /\ 2 * snd pd <= snd tsh /\ (forall ti t, user ti t = t) /\
  exists om, padtiles tsh pd (0, 0) 0 1 user imap false false (ex_zero 1 8 45) = Some om /\ ~ (f_at (fm_arr om) 0 0 == f_at (fm_arr imap) 0 0)%Q.
Proof.
  exists (1, 4), (0, 1), (fun _ t => t), (ex_in 1 8 45). split; [vm_compute; reflexivity|]. split; [exists 2; reflexivity|]. split; [discriminate|]. split; [reflexivity|].
  destruct (padtiles (1, 4) (0, 1) (0, 0) 0 1 (fun _ t => t) (ex_in 1 8 45) false false (ex_zero 1 8 45)) as [om|] eqn:E.
  - exists om. split; [reflexivity|]. assert (H : option_map (fun o => Qred (f_at (fm_arr o) 0 0)) (Some om) = Some 2%Q) by (rewrite <- E; vm_compute; reflexivity).
    cbn [option_map] in H. apply Some_inj in H. intros G. rewrite <- (Qred_correct (f_at (fm_arr om) 0 0)) in G. rewrite H in G. vm_compute in G. discriminate.
  - exfalso. assert (H : option_map (fun o => Qred (f_at (fm_arr o) 0 0)) (@None (fmap Q)) = Some 2%Q) by (rewrite <- E; vm_compute; reflexivity). discriminate.
Qed.

(* A pad of more than half the tile shape breaks the weights (documented as not allowed, not checked). *)
Theorem C09_wide_pad_refuted : exists om, padtiles (1, 2) (0, 2) (0, 0) 0 1 (fun _ t => t) (ex_in 1 6 1) true true (ex_zero 1 6 1) = Some om /\
  ~ (f_at (fm_arr om) 0 2 == f_at (fm_arr (ex_in 1 6 1)) 0 2)%Q.
Proof.
  destruct (padtiles (1, 2) (0, 2) (0, 0) 0 1 (fun _ t => t) (ex_in 1 6 1) true true (ex_zero 1 6 1)) as [om|] eqn:E.
  - exists om. split; [reflexivity|]. assert (H : option_map (fun o => negb (Qeq_bool (f_at (fm_arr o) 0 2) 3)) (Some om) = Some true) by (rewrite <- E; vm_compute; reflexivity).
    cbn [option_map] in H. apply Some_inj in H. intros G. apply Qeq_bool_iff in G. change (f_at (fm_arr (ex_in 1 6 1)) 0 2) with (inject_Z 3) in G. change (inject_Z 3) with 3%Q in G. rewrite G in H. discriminate.
  - exfalso. assert (H : option_map (fun o => negb (Qeq_bool (f_at (fm_arr o) 0 2) 3)) (@None (fmap Q)) = Some true) by (rewrite <- E; vm_compute; reflexivity). discriminate.
Qed.

(* The documented usage padtiles(imap, imap): the tiles are added to the map they were read from. *)
Theorem C09_same_map_refuted : option_map qrows (padtiles_same1 (4, 4) (1, 1) (1, 1) (fun _ t => t) (ex_in 2 3 1) true) = Some [[2; 4; 6]; [22; 24; 26]]%Q.
Proof. vm_compute. reflexivity. Qed.

Print Assumptions C09_padtiles_partial.
Print Assumptions C09_ranks_partial.
Print Assumptions C09_fullsky_refuted.
Print Assumptions C09_wide_pad_refuted.
Print Assumptions C09_same_map_refuted.
