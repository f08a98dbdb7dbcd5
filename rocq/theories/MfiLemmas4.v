(* Real-space powers and products of beams, and the noise model classes. *)
From Coq Require Import Reals Lra Lia.
From Coquelicot Require Import Complex.
From Verif Require Import Base ArrModel PixModel DctSpec DctLemmas FftSpec FftModel FftLemmas FftLemmas2 MfiSpec MfiModel MfiLemmas MfiLemmas2.
Ltac Zify.zify_post_hook ::= idtac.
Open Scope R_scope.

Section Filters.
Variable u : uht.
Notation ny := (u_ny u).
Notation nx := (u_nx u).
Notation area := (u_area u).
Hypothesis Hy : (0 < ny)%Z.
Hypothesis Hx : (0 < nx)%Z.
Hypothesis Ha : 0 < area.
Notation p := (pix ny nx area).
Notation cv := (cv ny nx area).
Notation prof := (profile ny nx area).
Notation N := (IZR (ny * nx)).
Let Np : 0 < N := npix_pos ny nx Hy Hx.
Let Pp : 0 < p := pix_pos ny nx Hy Hx area Ha.

(* a periodic even map *)
Definition nice (g : image) : Prop := (forall y x, g (y mod ny)%Z (x mod nx)%Z = g y x) /\ (forall y x, g (- y)%Z (- x)%Z = g y x).
Lemma nice_prof B : even_profile ny nx B -> nice (prof B).
Proof. intros E. split; intros y x; [apply prof_mod|apply prof_even]; assumption. Qed.
Lemma nice_pow g n : nice g -> nice (ipow g n).
Proof. intros [A B]. split; intros y x; unfold ipow; rewrite ?A, ?B; reflexivity. Qed.
Lemma nice_mul f g : nice f -> nice g -> nice (imul f g).
Proof. intros [A B] [A' B']. split; intros y x; unfold imul; rewrite ?A, ?B, ?A', ?B'; reflexivity. Qed.
Lemma nice_even g : nice g -> even_profile ny nx g.
Proof. intros [A B] k l _. rewrite A, B. reflexivity. Qed.
(* its transform is real and even, and its profile is the map *)
Definition tr (g : image) : image := fun k l => Re (D ny nx (-1) (cx g) k l) * p.
Lemma tr_eq g k l : nice g -> RtoC (tr g k l) = (RtoC p * D ny nx (-1) (cx g) k l)%C.
Proof.
  intros G. unfold tr. rewrite RtoC_mult, real_re; [ring|]. apply real_conj. rewrite D_conj_real by assumption. symmetry. apply D_neg; try assumption. apply nice_even, G.
Qed.
Lemma tr_even g : nice g -> even_profile ny nx (tr g).
Proof.
  intros G k l H. unfold tr. rewrite (D_mod ny nx Hy Hx), D_opp. rewrite (D_neg ny nx Hy Hx g (-1) k l) by (apply nice_even; exact G). reflexivity.
Qed.
Lemma tr_prof g y x : nice g -> prof (tr g) y x = g y x.
Proof.
  intros G. assert (K : RtoC (area * prof (tr g) y x) = RtoC (area * g y x)).
  { rewrite <- (D_prof ny nx Hy Hx area Ha) by (apply tr_even, G).
    rewrite (D_ext ny nx 1 _ (fun k l => RtoC p * D ny nx (- (1)) (cx g) k l)%C) by (intros; apply tr_eq, G).
    rewrite D_scal, <- (D_mod ny nx Hy Hx), (D_inv ny nx Hy Hx); [|left; reflexivity|split; apply Z.mod_pos_bound; assumption].
    unfold cx. rewrite (proj1 G), <- !RtoC_mult. f_equal. unfold pix. field. lra. }
  apply RtoC_inj in K. apply (Rmult_eq_reg_l area); lra.
Qed.
Lemma half_map B : even_profile ny nx B -> exists r, emap_ifft Phys false (u_pixsize u) (arr u (cx (iscal (/ sqrt area) B))) = Some r /\ forall y x, Re (f_at r y x) = prof B y x.
Proof.
  intros E. destruct (emap_ifft_at u Hy Hx false (cx (iscal (/ sqrt area) B))) as (r & Er & H). exists r. split; [exact Er|]. intros y x. rewrite H, Re_scal.
  apply D_half; assumption.
Qed.
Lemma back_map g g' : (forall y x, g' y x = g y x) -> exists h, emap_fft Phys false (u_pixsize u) (arr u (cx g')) = Some h /\ forall k l, Re (f_at h k l) * sqrt area = tr g k l.
Proof.
  intros E. destruct (emap_fft_at u Hy Hx false (cx g')) as (h & Eh & H). exists h. split; [exact Eh|]. intros k l. rewrite H, Re_scal.
  rewrite (D_ext ny nx (-1) (cx g') (cx g)) by (intros; unfold cx; rewrite E; reflexivity). unfold tr. rewrite <- (c_back u Hy Hx Ha) at 1. ring.
Qed.
Lemma rpow_eq B n : even_profile ny nx B -> exists h, rpow u B n = Some h /\ forall k l, h k l = tr (ipow (prof B) n) k l.
Proof.
  intros E. unfold rpow. destruct (half_map B E) as (r & -> & Er). cbn [bind].
  destruct (back_map (ipow (prof B) n) (ipow (fun y x => Re (f_at r y x)) n)) as (h & -> & Eh); [intros y x; unfold ipow; rewrite Er; reflexivity|].
  cbn [bind]. eexists. split; [reflexivity|exact Eh].
Qed.
Fixpoint prods (w : option image) (l : list image) : option image :=
  match l with [] => w | B :: l => prods (Some (match w with None => prof B | Some w => imul w (prof B) end)) l end.
Lemma rmul_work_eq l : forall w w', Forall (even_profile ny nx) l -> (forall a, w' = Some a -> exists b, w = Some b /\ forall y x, b y x = a y x) -> (w' = None -> w = None) ->
  exists r, rmul_work u (sqrt area) w l = Some r /\ (forall a, prods w' l = Some a -> exists b, r = Some b /\ forall y x, b y x = a y x).
Proof.
  induction l as [|B l IH]; intros w w' F S0 N0.
  - exists w. split; [reflexivity|]. exact S0.
  - cbn [rmul_work prods]. destruct (half_map B (Forall_inv F)) as (r & -> & Er). cbn [bind]. apply IH; [exact (Forall_inv_tail F)| |discriminate].
    intros a Ea. injection Ea as <-. eexists. split; [reflexivity|]. intros y x. destruct w' as [a'|].
    + destruct (S0 a' eq_refl) as (b & -> & Eb). unfold imul. rewrite Eb, Er. reflexivity.
    + rewrite (N0 eq_refl). apply Er.
Qed.
Lemma prods_some l : forall a, exists b, prods (Some a) l = Some b /\ (nice a -> Forall (even_profile ny nx) l -> nice b) /\
  forall y x, b y x = a y x * fold_right (fun B s => prof B y x * s) 1 l.
Proof.
  induction l as [|B l IH]; intros a; cbn [prods fold_right].
  - exists a. split; [reflexivity|]. split; [auto|]. intros. ring.
  - destruct (IH (imul a (prof B))) as (b & E & G & V). exists b. split; [exact E|]. split.
    + intros Ga F. apply G; [|exact (Forall_inv_tail F)]. apply nice_mul; [exact Ga|apply nice_prof, (Forall_inv F)].
    + intros y x. rewrite V. unfold imul. ring.
Qed.
Lemma rmul_eq l : l <> [] -> Forall (even_profile ny nx) l -> exists h g, rmul u l = Some h /\ nice g /\ (forall k l', h k l' = tr g k l') /\
  forall y x, g y x = fold_right (fun B s => prof B y x * s) 1 l.
Proof.
  intros L F. destruct l as [|B l]; [congruence|]. unfold rmul. cbv zeta.
  destruct (prods_some l (prof B)) as (b & Eb & Gb & Vb).
  destruct (rmul_work_eq (B :: l) None None F ltac:(discriminate) (fun _ => eq_refl)) as (r & Er0 & Er).
  match goal with |- context [bind ?w _] => replace w with (Some r) by (symmetry; exact Er0) end. cbn [bind].
  destruct (Er b Eb) as (b' & -> & Eb'). cbn [bind].
  destruct (back_map b b' Eb') as (h & -> & Eh). cbn [bind]. eexists. exists b. split; [reflexivity|].
  split; [apply Gb; [apply nice_prof, (Forall_inv F)|exact (Forall_inv_tail F)]|]. split; [exact Eh|].
  intros y x. rewrite Vb. reflexivity.
Qed.

Hypothesis Hp : forall y x, in_map ny nx y x -> u_pixarea u y x = p.
Lemma ratio_1 y x : in_map ny nx y x -> pixratio u y x = 1.
Proof. intros H. unfold pixratio. rewrite Hp by exact H. change (u_pixsize u) with p. field. lra. Qed.
Lemma fr_1 y x : in_map ny nx y x -> flatcorr_rho (pixratio u) y x = 1.
Proof. intros H. unfold flatcorr_rho. rewrite ratio_1 by exact H. replace (/ 2 * (1 + 1 ^ 2)) with 1 by field. rewrite sqrt_1. apply Rinv_1. Qed.
Lemma fk_1 y x : in_map ny nx y x -> flatcorr_kappa (pixratio u) y x = 1.
Proof. intros H. unfold flatcorr_kappa. rewrite ratio_1 by exact H. field. Qed.

(* components *)
Lemma gather_map {A B} (f : A -> option B) (P : A -> B -> Prop) l : (forall a, In a l -> exists b, f a = Some b /\ P a b) -> exists r, gather (List.map f l) = Some r /\ Forall2 P l r.
Proof.
  induction l as [|a l IH]; intros H.
  - exists []. split; [reflexivity|constructor].
  - destruct (H a (or_introl eq_refl)) as (b & Eb & Pb). destruct (IH (fun a' I => H a' (or_intror I))) as (r & Er & F).
    exists (b :: r). cbn [List.map gather]. rewrite Eb. cbn [bind]. rewrite Er. split; [reflexivity|constructor; assumption].
Qed.
Lemma Forall2_nth {A B} (P : A -> B -> Prop) l r (da : A) (db : B) : Forall2 P l r -> forall i, (i < length l)%nat -> P (nth i l da) (nth i r db).
Proof. induction 1 as [|a b l r Pab F IH]; intros i Hi; cbn [length] in Hi; [lia|]. destruct i; cbn [nth]; [exact Pab|apply IH; lia]. Qed.
Lemma Forall2_length {A B} (P : A -> B -> Prop) l r : Forall2 P l r -> length l = length r.
Proof. induction 1 as [|a b l r Pab F IH]; cbn [length]; congruence. Qed.
Lemma nth_zseq k : forall a i, (i < k)%nat -> nth i (zseq a k) 0%Z = (a + Z.of_nat i)%Z.
Proof. induction k as [|k IH]; intros a i Hi; [lia|]. destruct i; cbn [zseq nth]; [lia|]. rewrite IH by lia. lia. Qed.
Lemma nth_zrange n i : (0 <= i < n)%Z -> nth (Z.to_nat i) (zrange 0 n) 0%Z = i.
Proof. intros H. unfold zrange. rewrite nth_zseq by lia. lia. Qed.
Lemma D_csum n (f : Z -> cimage) y x : D ny nx 1 (fun k l => csum n (fun j => f j k l)) y x = csum n (fun j => D ny nx 1 (f j) y x).
Proof.
  unfold D, csum2. rewrite (csum_swap n ny (fun j a => csum nx _)). apply csum_ext. intros a _. rewrite (csum_swap n nx (fun j i => _)). apply csum_ext. intros i _.
  symmetry. apply csum_scal_r.
Qed.
Lemma nmat_constcov_eq n iN apod map beam : (0 <= n)%Z -> (forall y x, in_map ny nx y x -> apod y x = 1) ->
  (forall i, (0 <= i < n)%Z -> even_profile ny nx (beam i)) -> (forall i j, (0 <= i < n)%Z -> (0 <= j < n)%Z -> even_profile ny nx (iN i j)) ->
  exists rho kappa, nmat_constcov u n iN apod map beam = Some (rho, kappa) /\ zlen rho = n /\
    (forall i y x, (0 <= i < n)%Z -> in_map ny nx y x -> nth (Z.to_nat i) rho (fun _ _ => 0) y x = p * rsum n (fun j => cv (imul (beam i) (iN i j)) (map j) y x)) /\
    (forall i j y x, in_map ny nx y x -> kappa i j y x = / area * rsum2 ny nx (fun k l => beam i k l * iN i j k l * beam j k l)).
Proof.
  intros Hn A1 EB EN. unfold nmat_constcov.
  destruct (gather_map (fun j => map2harm u (imul (map j) apod)) (fun j h => forall k l, h k l = (D ny nx (-1) (cx (map j)) k l * RtoC (cf u false))%C) (zrange 0 n)) as (hs & -> & Fh).
  { intros j _. destruct (h_m2h u Hy Hx (imul (map j) apod)) as (h & Eh & H). exists h. split; [exact Eh|]. intros k l. rewrite H. f_equal. apply D_ext.
    intros y x I. unfold cx, imul. rewrite A1 by exact I. rewrite Rmult_1_r. reflexivity. }
  cbn [bind].
  assert (Len : length (zrange 0 n) = Z.to_nat n) by (unfold zrange; rewrite zseq_length, Z.sub_0_r; reflexivity).
  assert (Hc : forall j k l, (0 <= j < n)%Z -> comp hs j k l = (D ny nx (-1) (cx (map j)) k l * RtoC (cf u false))%C).
  { intros j k l Hj. unfold comp. pose proof (Forall2_nth _ _ _ 0%Z (fun _ _ => RtoC 0) Fh (Z.to_nat j) ltac:(lia)) as H. rewrite nth_zrange in H by exact Hj. apply H. }
  set (pre := fun i k l => (csum n (fun j => RtoC (iN i j k l) * comp hs j k l) * RtoC (/ u_pixsize u))%C).
  destruct (gather_map (fun i => map2harm_adjoint u (cmul (cx (beam i)) (pre i))) (fun i r => forall y x, r y x = p * rsum n (fun j => cv (imul (beam i) (iN i j)) (map j) y x)) (zrange 0 n)) as (rs & Er & Fr).
  { intros i Hi. apply zrange_In in Hi. destruct (bwd u Hy Hx true (cmul (cx (beam i)) (pre i))) as (r & Er & H). exists r. split; [exact Er|]. intros y x. rewrite H.
    rewrite (D_ext ny nx 1 _ (fun k l => csum n (fun j => RtoC (cf u false * / p) * (cx (imul (beam i) (iN i j)) k l * D ny nx (-1) (cx (map j)) k l))%C)).
    - rewrite D_csum. rewrite (csum_ext n _ (fun j => RtoC (cf u false * / p * (area * cv (imul (beam i) (iN i j)) (map j) y x)))).
      + rewrite <- rsum_C. cbn [RtoC Re fst]. rewrite rsum_scal_l, rsum_scal_l. pose proof (cft u Hy Hx Ha) as K.
        set (S1 := rsum n _). transitivity (cf u false * cb u true * area * / p * S1); [ring|]. rewrite K. field. lra.
      + intros j Hj. rewrite D_scal, (cv_D ny nx Hy Hx area Ha) by (apply even_mul; auto). rewrite <- RtoC_mult. reflexivity.
    - intros k l _. unfold cmul, pre. rewrite Cmult_assoc, <- csum_scal_l, <- csum_scal_r. apply csum_ext. intros j Hj. rewrite Hc by exact Hj. unfold cx, imul.
      change (u_pixsize u) with p. rewrite !RtoC_mult. ring. }
  unfold pre in Er. rewrite Er. cbn [bind]. do 2 eexists. split; [reflexivity|]. split; [|split].
  - unfold zlen. rewrite map_length, <- (Forall2_length _ _ _ Fr), Len. lia.
  - intros i y x Hi H. pose proof (Forall2_nth _ _ _ 0%Z (fun _ _ => 0) Fr (Z.to_nat i) ltac:(lia)) as K. rewrite nth_zrange in K by exact Hi. rewrite <- K.
    rewrite (nth_indep _ (fun _ _ => 0) (imul (fun _ _ => 0) (flatcorr_rho (pixratio u)))) by (rewrite map_length, <- (Forall2_length _ _ _ Fr), Len; lia).
    rewrite (map_nth (fun r => imul r (flatcorr_rho (pixratio u)))). unfold imul. rewrite fr_1 by exact H. exact (Rmult_1_r _).
  - intros i j y x H. unfold iscal. rewrite fk_1 by exact H. unfold u_fsky. pose proof PI_RGT_0. field. split; lra.
Qed.
Lemma nmat_constcorr_eq iN ivar map beam : even_profile ny nx beam -> even_profile ny nx iN -> (forall y x, in_map ny nx y x -> 0 <= ivar y x) ->
  exists rho kappa, nmat_constcorr u iN ivar map beam = Some (rho, kappa) /\
    (forall y x, in_map ny nx y x -> rho y x = p * cv beam (imul (isqrt ivar) (cv iN (imul (isqrt ivar) map))) y x) /\
    (forall y x, in_map ny nx y x -> kappa y x = rsum2 ny nx (imul (ipow beam 2) iN) / rsum2 ny nx (ipow beam 2) * rsum2 ny nx (fun j i => ivar j i * prof beam (y - j) (x - i) ^ 2)).
Proof.
  intros EB EN V0. unfold nmat_constcorr. destruct (rpow_eq beam 2 EB) as (b2 & -> & E2). cbn [bind].
  destruct (h_m2h u Hy Hx (imul (isqrt ivar) map)) as (h & -> & Eh). cbn [bind].
  destruct (h_h2m u Hy Hx Ha iN _ _ h EN Eh) as (a & -> & Ea). cbn [bind].
  destruct (h_m2h u Hy Hx (imul (imul (flatcorr_rho (pixratio u)) (isqrt ivar)) a)) as (h1 & -> & Eh1). cbn [bind].
  destruct (h_h2m u Hy Hx Ha beam (imul (imul (flatcorr_rho (pixratio u)) (isqrt ivar)) a) (cf u false * / p) (fun k l => (h1 k l * RtoC (/ u_pixsize u))%C) EB) as (rho & -> & Er).
  { intros k l. rewrite Eh1, RtoC_mult. change (u_pixsize u) with p. ring. }
  cbn [bind]. destruct (h_m2h u Hy Hx ivar) as (h2 & -> & Eh2). cbn [bind].
  assert (NP : nice (ipow (prof beam) 2)) by (apply nice_pow, nice_prof, EB).
  destruct (bwd u Hy Hx false (hmul (cx b2) h2)) as (k & Ek0 & Ek). unfold harm2map. rewrite Ek0. cbn [bind]. do 2 eexists. split; [reflexivity|]. split.
  - intros y x H. rewrite Er. transitivity (cf u false * cb u false * area * / p * cv beam (imul (imul (flatcorr_rho (pixratio u)) (isqrt ivar)) a) y x); [ring|].
    rewrite cff by assumption. rewrite (cv_ext ny nx area beam _ (iscal p (imul (isqrt ivar) (cv iN (imul (isqrt ivar) map))))).
    + rewrite cv_scal. field. lra.
    + intros j i I. unfold iscal, imul. rewrite fr_1, Ea, cff by assumption. unfold imul. ring.
  - intros y x H. rewrite fk_1, Ek by exact H. change (u_pixsize u) with p.
    rewrite (D_ext ny nx 1 _ (hmul (fun k l => RtoC p * D ny nx (-1) (cx (ipow (prof beam) 2)) k l)%C h2)) by (intros j i _; unfold hmul, cmul, cx at 1; rewrite E2, tr_eq by exact NP; reflexivity).
    rewrite (h_sq u Hy Hx Ha beam 2 ivar (cf u false) _ h2 EB (fun k l => eq_refl) Eh2 y x).
    set (S1 := rsum2 ny nx (fun j i => ivar j i * prof beam (y - j) (x - i) ^ 2)).
    replace (cf u false * (area * S1) * cb u false / p * 1) with (cf u false * cb u false * area * / p * S1) by (unfold Rdiv; ring).
    rewrite cff, Rinv_r, Rmult_1_l by (try assumption; lra).
    assert (S0 : 0 <= S1). { apply rsum2_pos. intros j i I. apply Rmult_le_pos; [apply V0, I|apply pow2_ge_0]. }
    rewrite Rmax_left by exact S0.
    rewrite (rsum2_ext ny nx (fun k0 l => beam k0 l * iN k0 l * beam k0 l) (imul (ipow beam 2) iN)) by (intros j i _; unfold imul, ipow; ring).
    rewrite (rsum2_ext ny nx (fun k0 l => beam k0 l * beam k0 l) (ipow beam 2)) by (intros j i _; unfold ipow; ring).
    rewrite <- (sqrt_sqrt S1 S0) at 3. ring.
Qed.
End Filters.
