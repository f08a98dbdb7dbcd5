(* C117: lensing potential and convergence. *)
From Coq Require Import ZArith List Lia Reals Lra Permutation.
From Verif Require Import Base RangeModel RangeLemmas FindLemmas AlmSpec AlmModel AlmLemmas AlmProps KapModel.
Import ListNotations.
Local Open Scope R_scope.
Ltac Zify.zify_post_hook ::= idtac.

Section Kap.
  Context (a : ainfo) (n : Z) (at_ : Z -> Z -> Z) (DS : describes a n at_) (S1 : ai_stride a = 1%Z).
  Context (ms : list Z) (PM : Permutation ms (zrange 0 (ai_mmax a + 1))).
  Lemma filter_l f l m : valid (ai_lmax a) (ai_mmax a) l m -> filter_at (map (fun l => f (IZR l)) (zrange 0 (ai_lmax a + 1))) l = f (IZR l).
  Proof.
    intros V. unfold valid in V. unfold filter_at. rewrite zget_map, zget_zrange by lia. reflexivity.
  Qed.
  Lemma almxfl_eq f alm : zlen alm = n -> exists out, almxfl ms alm f (Some a) = Some out /\ zlen out = n /\
    (forall l m x, valid (ai_lmax a) (ai_mmax a) l m -> zget alm (at_ l m) = Some x -> zget out (at_ l m) = Some (scaled (f (IZR l)) x)) /\
    (forall k, (forall l m, valid (ai_lmax a) (ai_mmax a) l m -> k <> at_ l m) -> zget out k = zget alm k).
  Proof.
    intros L. unfold almxfl. destruct (C44_lmul a n at_ ms alm (map (fun l => f (IZR l)) (zrange 0 (ai_lmax a + 1))) DS S1 L PM) as (out & E & Lo & V & K).
    exists out. split; [exact E|]. split; [exact Lo|]. split; [|exact K]. intros l m x Hv Hx. rewrite (V l m x Hv Hx). do 2 f_equal. apply (filter_l f l m Hv).
  Qed.
  Lemma lpos l : (1 <= l)%Z -> 1 <= IZR l. Proof. intros H. apply IZR_le in H. exact H. Qed.
End Kap.

(* kappa is l(l+1)/2 times phi *)
Theorem C117_kappa : forall a n at_ ms alm, describes a n at_ -> ai_stride a = 1%Z -> Permutation ms (zrange 0 (ai_mmax a + 1)) -> zlen alm = n ->
  exists out, phi_to_kappa ms alm (Some a) = Some out /\ zlen out = n /\
    forall l m x, valid (ai_lmax a) (ai_mmax a) l m -> zget alm (at_ l m) = Some x -> zget out (at_ l m) = Some (scaled (IZR (l * (l + 1)) / 2) x).
Proof.
  intros a n at_ ms alm DS S1 PM L. destruct (almxfl_eq a n at_ DS S1 ms PM (fun l => l * (l + 1) / 2) alm L) as (out & E & Lo & V & _).
  exists out. split; [exact E|]. split; [exact Lo|]. intros l m x Hv Hx. rewrite (V l m x Hv Hx). rewrite mult_IZR, plus_IZR. reflexivity.
Qed.
(* phi of the kappa of an alm, and kappa of the phi of an alm, are the alm without its monopole *)
Theorem C117_round_trip : forall a n at_ ms ms' alm, describes a n at_ -> ai_stride a = 1%Z -> Permutation ms (zrange 0 (ai_mmax a + 1)) -> Permutation ms' (zrange 0 (ai_mmax a + 1)) -> zlen alm = n ->
  exists k p p' k', phi_to_kappa ms alm (Some a) = Some k /\ kappa_to_phi ms' k (Some a) = Some p /\ kappa_to_phi ms alm (Some a) = Some p' /\ phi_to_kappa ms' p' (Some a) = Some k' /\
    forall l m x, valid (ai_lmax a) (ai_mmax a) l m -> zget alm (at_ l m) = Some x ->
      let y := if (l =? 0)%Z then (0, 0) else x in zget p (at_ l m) = Some y /\ zget k' (at_ l m) = Some y.
Proof.
  intros a n at_ ms ms' alm DS S1 PM PM' L.
  set (f := fun l => l * (l + 1) / 2). set (g := fun x => if Req_EM_T x 0 then 0 else 1 / (x * (x + 1) / 2)).
  destruct (almxfl_eq a n at_ DS S1 ms PM f alm L) as (k & Ek & Lk & Vk & _). destruct (almxfl_eq a n at_ DS S1 ms' PM' g k Lk) as (p & Ep & _ & Vp & _).
  destruct (almxfl_eq a n at_ DS S1 ms PM g alm L) as (p' & Ep' & Lp' & Vp' & _). destruct (almxfl_eq a n at_ DS S1 ms' PM' f p' Lp') as (k' & Ek' & _ & Vk' & _).
  exists k, p, p', k'. split; [exact Ek|]. split; [exact Ep|]. split; [exact Ep'|]. split; [exact Ek'|].
  intros l m x Hv Hx y. rewrite (Vp l m _ Hv (Vk l m x Hv Hx)), (Vk' l m _ Hv (Vp' l m x Hv Hx)).
  unfold y. destruct x as [u v]. destruct (Z.eqb_spec l 0) as [->|H].
  - unfold f, g, scaled. cbn [fst snd]. destruct (Req_EM_T 0 0) as [_|]; [|lra]. split; f_equal; f_equal; field.
  - assert (1 <= IZR l) by (apply lpos; unfold valid in Hv; lia). unfold f, g, scaled. cbn [fst snd]. destruct (Req_EM_T (IZR l) 0) as [|_]; [lra|]. split; f_equal; f_equal; field; lra.
Qed.
(* The inferred layout is the triangular one of the largest lmax that fits. *)
Theorem C117_inferred : forall ms alm lmax, (0 <= lmax)%Z -> (2 * zlen alm = (lmax + 1) * (lmax + 2))%Z -> exists a, alm_info (Some lmax) (Some lmax) None 1 Tri = Some a /\
  phi_to_kappa ms alm None = phi_to_kappa ms alm (Some a) /\ kappa_to_phi ms alm None = kappa_to_phi ms alm (Some a).
Proof.
  intros ms alm lmax H0 HN.
  assert (E : alm_info None None (Some (zlen alm)) 1 Tri = Some (tri_info lmax lmax 1)).
  { unfold alm_info. assert (NL : nalm2lmax (zlen alm) = Some lmax).
    { unfold nalm2lmax. destruct (Z.ltb_spec (zlen alm) 0); [nia|]. f_equal. assert (SQ : Z.sqrt (1 + 8 * zlen alm) = (2 * lmax + 3)%Z) by (apply Z.sqrt_unique; nia). rewrite SQ.
      replace (2 * lmax + 3 - 1)%Z with ((lmax + 1) * 2)%Z by ring. rewrite Z.div_mul by lia. lia. }
    rewrite NL. pose proof (alm_info_tri lmax lmax (Some (zlen alm)) 1 ltac:(lia) ltac:(lia)) as T. unfold alm_info in T. rewrite T.
    assert (NE : ai_nelem (tri_info lmax lmax 1) = zlen alm) by (cbn [ai_nelem tri_info]; pose proof (tri_2 lmax lmax); nia).
    rewrite NE, Z.eqb_refl. reflexivity. }
  exists (tri_info lmax lmax 1). split; [apply alm_info_tri; lia|]. unfold phi_to_kappa, kappa_to_phi, almxfl. rewrite E. split; reflexivity.
Qed.
Example C117_ex : exists a at_, alm_info (Some 2%Z) (Some 2%Z) None 1 Tri = Some a /\ describes a 6 at_ /\ ai_stride a = 1%Z.
Proof.
  destruct (C41_triangular 2 2 1) as (a & at_ & E & _ & _ & S & D & _); [lia|lia|]. exists a, at_. split; [exact E|]. split; [|exact S].
  replace 6%Z with (ai_nelem a); [exact D|]. rewrite alm_info_tri in E by lia. injection E as <-. reflexivity.
Qed.
Print Assumptions C117_round_trip.
Print Assumptions C117_inferred.
