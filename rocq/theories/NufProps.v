(* C114: Fourier interpolation and the nonuniform Fourier transforms. *)
From Coq Require Import Reals Lra Lia Permutation.
From Coquelicot Require Import Complex.
From Verif Require Import Base ArrModel PixModel CgSpec CgModel FftSpec FftModel FftLemmas FftLemmas2 FftLemmas3 NufSpec NufModel NufLemmas0 NufLemmas NufLemmas2 NufLemmas3.
Ltac Zify.zify_post_hook ::= idtac.
Open Scope R_scope. Open Scope C_scope.

(* Interpolating an array at whole pixels gives its values; beyond the array it repeats. *)
Theorem C114_samples : forall cplx (a : farr C) l, nonempty a -> (cplx = false -> is_real a) ->
  interpol_nufft false true cplx None a (centres l) =
  Some (map (fun p => f_at a (fst p mod f_ny a) (snd p mod f_nx a)) l).
Proof.
  intros cplx a l H HR. destruct (interpol_at cplx a (centres l) H) as (out & -> & ->). f_equal. unfold centres. rewrite map_map. apply map_ext. intros [y x]. cbn [fst snd]. destruct H as [Hy Hx].
  rewrite <- !opp_IZR. rewrite (sh1_int (f_ny a) (- y)) by exact Hy. rewrite sh1_int by exact Hx. replace (0 - - y)%Z with y by lia. replace (0 - - x)%Z with x by lia. destruct cplx; [reflexivity|]. cbn [re_if]. apply real_re. apply HR; [reflexivity| |]; apply Z.mod_pos_bound; assumption.
Qed.
Print Assumptions C114_samples.

(* A pattern made of frequencies the array can hold is evaluated exactly at any position between the pixels. *)
Theorem C114_exact : forall cplx ms ny nx pos, (0 < ny)%Z -> (0 < nx)%Z -> band ny nx ms ->
  interpol_nufft false true cplx None (sampled ny nx 0 0 (trig ms)) pos =
  Some (map (fun q => re_if cplx (trig ms (fst q / IZR ny) (snd q / IZR nx))) pos).
Proof.
  intros cplx ms ny nx pos Hy Hx HB. destruct (interpol_at cplx (sampled ny nx 0 0 (trig ms)) pos (conj Hy Hx)) as (out & -> & ->). f_equal. apply map_ext. intros [y x]. cbn [fst snd f_ny f_nx f_at sampled]. f_equal.
  rewrite sh1_trig by assumption. f_equal; unfold Rdiv; ring.
Qed.
Print Assumptions C114_exact.

(* It is the same operation as shifting the array and reading off the pixels. *)
Theorem C114_shift : forall cplx sy sx (a : farr C), nonempty a ->
  exists b out, shift cplx AXY sy sx false false false a = Some b /\
  interpol_nufft false true cplx None a (map (fun p => (IZR (fst p) - sy, IZR (snd p) - sx)%R) (pixels (f_ny a) (f_nx a))) = Some out /\
  out = values b (pixels (f_ny a) (f_nx a)).
Proof.
  intros cplx sy sx a H. destruct (shift_cases cplx AXY sy sx false false a H) as (b & E1 & ->). exists (drop_im cplx b). destruct (interpol_at cplx a (map (fun p => (IZR (fst p) - sy, IZR (snd p) - sx)%R) (pixels (f_ny a) (f_nx a))) H) as (out & -> & ->).
  eexists. split; [reflexivity|]. split; [reflexivity|]. unfold values. rewrite map_map. apply map_ext_in. intros p Hp. apply in_pixels in Hp. destruct Hp as [Py Px]. cbn [fst snd].
  pose proof (shift_spec AXY sy sx false false a H) as S. rewrite E1 in S. destruct S as (Sy & Sx & S). rewrite filt_ny in Sy. rewrite filt_nx in Sx. rewrite Sy, Sx in S. specialize (S (fst p) (snd p) Py Px).
  assert (E : f_at b (fst p) (snd p) = sh1 (f_ny a) (phase (f_ny a) (- (IZR (fst p) - sy)) false) (fun j => sh1 (f_nx a) (phase (f_nx a) (- (IZR (snd p) - sx)) false) (f_at a j) 0) 0).
  { rewrite S. unfold py_of, px_of. rewrite (filt_at AXY) by assumption. cbn [has_y has_x pick]. destruct H as [Hy Hx]. rewrite sh1_move by assumption. replace (- (IZR (fst p) - sy))%R with (sy - IZR (fst p))%R by ring. apply sh1_ext; [reflexivity|]. intros i _. rewrite sh1_move by assumption. replace (- (IZR (snd p) - sx))%R with (sx - IZR (snd p))%R by ring. reflexivity. }
  rewrite <- E. destruct cplx; reflexivity.
Qed.
Print Assumptions C114_shift.

(* u2nu evaluates the Fourier series that the coefficients describe, with the given period; forward mirrors the positions. *)
Theorem C114_u2nu : forall (normalize forward : bool) per ms fa pos py px, nonempty fa -> band (f_ny fa) (f_nx fa) ms -> coefficients ms fa ->
  match per with None => (f_ny fa, f_nx fa) | Some p => p end = (py, px) ->
  u2nu normalize forward true per no_op fa pos =
  Some (map (fun q => let v := if forward then trig ms (- (fst q / IZR py)) (- (snd q / IZR px)) else trig ms (fst q / IZR py) (snd q / IZR px) in
                      if normalize then v / RtoC (IZR (f_ny fa * f_nx fa)) else v) pos).
Proof.
  intros nz f per ms fa pos py px [Hy Hx] HB HC HE. unfold u2nu, no_op. cbn [bind]. unfold periods. rewrite HE. f_equal. unfold ducc_u2nu.
  assert (E : forall q, csum2 (f_ny fa) (f_nx fa) (fun i j => f_at fa i j * kern f py px (f_ny fa) (f_nx fa) q i j) = if f then trig ms (- (fst q / IZR py)) (- (snd q / IZR px)) else trig ms (fst q / IZR py) (snd q / IZR px)).
  { intros q. rewrite (coefs_eval f py px (f_ny fa) (f_nx fa) ms (f_at fa) q Hy Hx HB HC). destruct f; cbn [sg]; f_equal; ring. }
  destruct nz; rewrite !map_map; apply map_ext; intros q; cbn [re_if]; rewrite E; reflexivity.
Qed.
Print Assumptions C114_u2nu.

(* Positions a whole number of periods apart give the same values. *)
Theorem C114_periodic : forall normalize forward cplx per op fa pos py px ks, (0 < py)%Z -> (0 < px)%Z -> zlen ks = zlen pos ->
  match per with None => (f_ny fa, f_nx fa) | Some p => p end = (py, px) ->
  u2nu normalize forward cplx per op fa (map (fun p => (fst (fst p) + IZR (fst (snd p) * py), snd (fst p) + IZR (snd (snd p) * px))%R) (combine pos ks)) =
  u2nu normalize forward cplx per op fa pos.
Proof.
  intros nz f cplx per op fa pos py px ks Hy Hx HL HE. unfold u2nu. destruct (op fa) as [g|]; [|reflexivity]. cbn [bind]. unfold periods. rewrite HE. f_equal.
  assert (E : ducc_u2nu f py px g (map (fun p => (fst (fst p) + IZR (fst (snd p) * py), snd (fst p) + IZR (snd (snd p) * px))%R) (combine pos ks)) = ducc_u2nu f py px g pos); [|rewrite E; reflexivity].
  unfold ducc_u2nu. rewrite map_map. apply eq_sym. revert ks HL. induction pos as [|q pos IH]; intros ks HL; [reflexivity|]. destruct ks as [|[k l] ks]; [unfold zlen in HL; cbn in HL; lia|]. cbn [combine map fst snd]. f_equal.
  - apply csum2_extn. intros i j _ _. rewrite kern_period by assumption. reflexivity.
  - apply IH. rewrite !zlen_cons in HL. lia.
Qed.
Print Assumptions C114_periodic.

(* nu2u with the other sign is the adjoint of u2nu, normalised or not. *)
Theorem C114_adjoint : forall normalize flip per fa b pos, nonempty fa -> zlen b = zlen pos ->
  exists nu, inufft normalize flip true per no_op fa pos = Some nu /\
  linner nu b = inner fa (nufft_adjoint normalize flip true per (f_ny fa) (f_nx fa) b pos).
Proof.
  intros nz f per fa b pos H HL. destruct (periods per (f_ny fa) (f_nx fa)) as [py px] eqn:E. unfold inufft. rewrite (u2nu_any nz f per fa pos py px H E). eexists. split; [reflexivity|].
  rewrite linner_cs by (rewrite zlen_to_list by apply zlen_nonneg; congruence). rewrite zlen_to_list by apply zlen_nonneg.
  set (u := fun p => if nz then zipf fa p / RtoC (IZR (f_ny fa * f_nx fa)) else zipf fa p).
  rewrite (cs_ext _ _ (fun k => Cconj (Pk _ _ (pixels (f_ny fa) (f_nx fa)) (Kf f py px (f_ny fa) (f_nx fa) pos) u k) * of_list b k)) by (intros k Hk; apply zrange_In in Hk; rewrite of_to_list by exact Hk; reflexivity).
  rewrite <- (adj _ _ (pixels (f_ny fa) (f_nx fa)) (zrange 0 (zlen pos)) (Kf f py px (f_ny fa) (f_nx fa) pos)). unfold inner. rewrite csum2_cs. apply cs_ext. intros [i j] _. cbn [fst snd]. unfold u, zipf, nufft_adjoint, nu2u. rewrite E. cbn [fst snd].
  destruct H as [Hy Hx]. assert (N : IZR (f_ny fa * f_nx fa) <> 0%R) by (apply IZRn0; nia).
  destruct nz; cbn [amap f_at re_if]; rewrite nu2u_PTk by exact HL; [|reflexivity]. unfold Cdiv. rewrite Cmult_conj. rewrite <- RtoC_inv by exact N. rewrite Cconj_RtoC. unfold jdx. ring.
Qed.
Print Assumptions C114_adjoint.

(* nufft finds coefficients whose series fits the samples: what is left over, taken back to coefficients, has at most the fraction
   epsilon of the power of the samples taken back. *)
Theorem C114_nufft : forall eps fuel normalize flip per ny nx a pos out, (0 < ny)%Z -> (0 < nx)%Z -> 0 <= eps -> zlen a = zlen pos ->
  nufft eps fuel normalize flip true per ny nx a pos = Done out ->
  f_ny out = ny /\ f_nx out = nx /\ exists fit, inufft normalize flip true per no_op out pos = Some fit /\
  energy (nufft_adjoint false flip true per ny nx (map (fun p => fst p - snd p)%C (combine a fit)) pos) <= eps * energy (nufft_adjoint false flip true per ny nx a pos).
Proof.
  intros eps fuel nz f per ny nx a pos out Hy Hx He HL HD. destruct (periods per ny nx) as [py px] eqn:E. unfold nufft in HD. rewrite (iu2nu_eq eps fuel nz f true per ny nx a pos py px HL E) in HD.
  destruct (solve _ _ _ _ _ _) as [| |x] eqn:ES; try discriminate. cbn [omap] in HD. injection HD as <-.
  split; [destruct nz; reflexivity|]. split; [destruct nz; reflexivity|]. eexists. split; [exact (fit_of nz f per ny nx pos x py px Hy Hx E)|].
  set (fit := to_list _ _). assert (LF : zlen a = zlen fit) by (unfold fit; rewrite zlen_to_list by apply zlen_nonneg; exact HL).
  unfold nufft_adjoint. rewrite (nu2u_energy f per ny nx _ pos py px) by (rewrite ?zlen_sub by exact LF; assumption). rewrite (nu2u_energy f per ny nx a pos py px) by assumption.
  pose proof (solve_residual _ _ _ _ _ (of_list a) eps fuel x ES) as R. cbn beta in R.
  refine (Rle_trans _ _ _ _ R). right. apply fdot_ext; intros p _; unfold Ak.
  all: rewrite (PTk_ext _ _ _ _ _ (fun k => of_list a k + RtoC (-1) * Pk _ _ (pixels ny nx) (Kf f py px ny nx pos) x k)).
  all: try (rewrite PTk_lin; replace (RtoC (-1)) with (- RtoC 1) by (apply C_eq; cbn; ring); ring).
  all: intros k Hk; apply zrange_In in Hk; rewrite of_list_sub by exact LF; unfold fit; rewrite of_to_list by exact Hk; replace (RtoC (-1)) with (- RtoC 1) by (apply C_eq; cbn; ring); ring.
Qed.
Print Assumptions C114_nufft.

(* It always gets there, in at most two steps per coefficient, unless the samples are zero as far as the coefficients can tell. *)
Theorem C114_nufft_ends : forall eps fuel normalize flip cplx per ny nx a pos, (0 < ny)%Z -> (0 < nx)%Z -> 0 <= eps -> zlen a = zlen pos ->
  (2 * Z.to_nat (ny * nx) <= fuel)%nat -> energy (nufft_adjoint false flip true per ny nx a pos) <> 0 ->
  exists out, nufft eps fuel normalize flip cplx per ny nx a pos = Done out.
Proof.
  intros eps fuel nz f cplx per ny nx a pos Hy Hx He HL HF HN. destruct (periods per ny nx) as [py px] eqn:E. unfold nufft. rewrite (iu2nu_eq eps fuel nz f cplx per ny nx a pos py px HL E).
  unfold nufft_adjoint in HN. rewrite (nu2u_energy f per ny nx a pos py px) in HN by assumption.
  destruct (solve_ends _ _ (pixels ny nx) (jdx pos) (Kf f py px ny nx pos) (of_list a) eps He eqd2 fuel (nodup_pixels ny nx) HN) as [x ->]; [rewrite len_pixels by lia; exact HF|]. eexists. reflexivity.
Qed.
Print Assumptions C114_nufft_ends.
(* Outside the claim: if they are, every step divides zero by zero, and the result is nan instead of zero. *)
Theorem C114_nufft_zero : forall eps fuel normalize flip cplx per ny nx a pos, zlen a = zlen pos ->
  (0 < fuel)%nat -> energy (nufft_adjoint false flip true per ny nx a pos) = 0 ->
  nufft eps fuel normalize flip cplx per ny nx a pos = Nan.
Proof.
  intros eps fuel nz f cplx per ny nx a pos HL HF HZ. destruct (periods per ny nx) as [py px] eqn:E. unfold nufft. rewrite (iu2nu_eq eps fuel nz f cplx per ny nx a pos py px HL E).
  unfold nufft_adjoint in HZ. rewrite (nu2u_energy f per ny nx a pos py px) in HZ by assumption. rewrite (solve_zero _ _ _ _ _ (of_list a) eps fuel HZ HF). reflexivity.
Qed.
Print Assumptions C114_nufft_zero.

(* With epsilon zero no coefficients fit the samples better. *)
Theorem C114_least_squares : forall fuel normalize flip per ny nx a pos out g, (0 < ny)%Z -> (0 < nx)%Z -> zlen a = zlen pos ->
  nufft 0 fuel normalize flip true per ny nx a pos = Done out -> f_ny g = ny -> f_nx g = nx ->
  exists fit other, inufft normalize flip true per no_op out pos = Some fit /\ inufft normalize flip true per no_op g pos = Some other /\
  distance2 fit a <= distance2 other a.
Proof.
  intros fuel nz f per ny nx a pos out g Hy Hx HL HD Gy Gx. destruct (periods per ny nx) as [py px] eqn:E. unfold nufft in HD. rewrite (iu2nu_eq 0 fuel nz f true per ny nx a pos py px HL E) in HD.
  destruct (solve _ _ _ _ _ _) as [| |x] eqn:ES; try discriminate. cbn [omap] in HD. injection HD as <-.
  eexists. eexists. split; [exact (fit_of nz f per ny nx pos x py px Hy Hx E)|]. split; [apply (u2nu_any nz f per g pos py px); [split; congruence|rewrite Gy, Gx; exact E]|].
  rewrite Gy, Gx. rewrite !distance2_fdot by (rewrite zlen_to_list by apply zlen_nonneg; congruence). rewrite !zlen_to_list by apply zlen_nonneg.
  set (u := fun p => if nz then zipf g p / RtoC (IZR (ny * nx)) else zipf g p).
  pose proof (solve_residual _ _ _ _ _ (of_list a) 0 fuel x ES) as R. rewrite Rmult_0_l in R. pose proof (fdot_pos (pixels ny nx) (fun i => PTk _ _ (jdx pos) (Kf f py px ny nx pos) (of_list a) i - Ak _ _ (pixels ny nx) (jdx pos) (Kf f py px ny nx pos) x i)) as R'.
  pose proof (fdot_zero _ _ (Rle_antisym _ _ R R')) as RZ.
  pose proof (zero_least _ _ (pixels ny nx) (jdx pos) (Kf f py px ny nx pos) (of_list a) x u RZ) as Q.
  refine (Rle_trans _ _ _ _ (Rle_trans _ _ _ Q _)); right; apply fdot_ext; intros k Hk; apply zrange_In in Hk; rewrite of_to_list by exact Hk; reflexivity.
Qed.
Print Assumptions C114_least_squares.

(* With samples at every pixel, in any order, nufft is the ordinary Fourier transform. *)
Theorem C114_grid : forall eps fuel l (m : farr C), nonempty m -> 0 <= eps -> (0 < fuel)%nat -> Permutation l (pixels (f_ny m) (f_nx m)) -> ~ all_zero m ->
  exists out fm, nufft eps fuel true false true None (f_ny m) (f_nx m) (values m l) (centres l) = Done out /\ fft AXY m = Some fm /\ aeq out fm.
Proof.
  intros eps fuel l m H He Hf HP HZ. pose proof H as [Hy Hx]. unfold nufft. rewrite (iu2nu_eq eps fuel true false true None (f_ny m) (f_nx m) (values m l) (centres l) (f_ny m) (f_nx m)); [|unfold values, centres; rewrite !zlen_map; reflexivity|reflexivity].
  set (K := Kf _ _ _ _ _ _). set (b := PTk _ _ _ _ _).
  assert (Eb : forall i j, (0 <= i < f_ny m)%Z -> (0 <= j < f_nx m)%Z -> b (i, j) = f_at (dft_ax (-1) AXY m) i j).
  { intros i j Hi Hj. unfold b, K. rewrite (grid_PTk (f_ny m) (f_nx m) l Hy Hx HP _ (zipf m) i j Hi Hj); [rewrite unzip_zip; reflexivity|]. intros k Hk. unfold values, of_list, lget. rewrite zget_map. destruct (zget_in_range l k Hk) as [q ->]. reflexivity. }
  assert (Nb : fdot (pixels (f_ny m) (f_nx m)) b b <> 0).
  { intros Z. apply HZ. pose proof (fdot_zero _ _ Z) as B. intros i j Hi Hj.
    pose proof (ifft_fft AXY m H) as (_ & _ & Q). specialize (Q i j). cbn [scale amap f_ny f_nx f_at] in Q. rewrite !dft_ax_ny, !dft_ax_nx in Q. rewrite <- (Q Hi Hj). cbn [dft_ax dft_y dft_x f_at f_ny f_nx].
    rewrite (dft_ext 1 (f_ny m) _ (fun _ => RtoC 0 * RtoC 0)); [rewrite dft_scal; ring|]. intros y Yr. rewrite (dft_ext 1 (f_nx m) _ (fun _ => RtoC 0 * RtoC 0)); [rewrite dft_scal; ring|].
    intros x Xr. assert (B1 : b (y, x) = 0) by (apply B, in_pixels; auto). rewrite Eb in B1 by assumption. cbn [dft_ax dft_y dft_x f_at f_ny f_nx] in B1. rewrite B1. ring. }
  assert (NN : (0 < f_ny m * f_nx m)%Z) by nia.
  destruct (one_step (pixels (f_ny m) (f_nx m)) (Ak _ _ (pixels (f_ny m) (f_nx m)) (jdx (centres l)) K) b eps fuel (IZR (f_ny m * f_nx m)) (IZR_lt _ _ NN) He Hf (fun u p => grid_Ak (f_ny m) (f_nx m) l Hy Hx HP u p) Nb) as (x & -> & HX).
  cbn [omap]. eexists. eexists. split; [reflexivity|]. split; [apply fft_some, H|]. split; [rewrite dft_ax_ny; reflexivity|]. split; [rewrite dft_ax_nx; reflexivity|].
  intros i j Hi Hj. cbn [fin_u amap unzip f_ny f_nx f_at re_if] in *. rewrite HX by (apply in_pixels; auto). rewrite Eb by assumption. field. apply Cn0, NN.
Qed.
Print Assumptions C114_grid.

(* inu2u in the same way: values at the positions whose transform is the given array, in the least-squares sense *)
Theorem C114_inverse_adjoint : forall eps fuel normalize flip cplx per fa pos, nonempty fa -> 0 <= eps ->
  (2 * List.length pos <= fuel)%nat ->
  (exists nu z, inufft false flip true per no_op fa pos = Some nu /\ In z nu /\ z <> 0%C) ->
  exists out, inufft_adjoint eps fuel normalize flip cplx per fa pos = Done out /\ zlen out = zlen pos /\
  exists back all,
    inufft false flip true per no_op (FA (f_ny fa) (f_nx fa) (fun i j => f_at fa i j - f_at (nufft_adjoint normalize flip true per (f_ny fa) (f_nx fa) out pos) i j)%C) pos = Some back /\
    inufft false flip true per no_op fa pos = Some all /\ Re (linner back back) <= eps * Re (linner all all).
Proof.
  intros eps fuel nz f cplx per fa pos H He HF (nu & z & E1 & E2 & E3). destruct (periods per (f_ny fa) (f_nx fa)) as [py px] eqn:E. pose proof H as [Hy Hx].
  set (idx := jdx pos). set (jd := pixels (f_ny fa) (f_nx fa)). set (K := Kp (negb f) py px (f_ny fa) (f_nx fa) pos). set (b := PTk _ _ jd K (zipf fa)).
  assert (U : forall g, f_ny g = f_ny fa -> f_nx g = f_nx fa -> inufft false f true per no_op g pos = Some (ducc_u2nu f py px g pos)).
  { intros g Gy Gx. unfold inufft, u2nu, no_op. cbn [bind]. rewrite Gy, Gx, E. f_equal. rewrite <- (map_id (ducc_u2nu f py px g pos)) at 2. reflexivity. }
  assert (UP : forall g k, f_ny g = f_ny fa -> f_nx g = f_nx fa -> of_list (ducc_u2nu f py px g pos) k = PTk _ _ jd K (zipf g) k).
  { intros g k Gy Gx. unfold K, jd. rewrite <- (u2nu_PTk (negb f) py px (f_ny fa) (f_nx fa) pos g k Gy Gx). rewrite Bool.negb_involutive. reflexivity. }
  assert (LU : forall g, zlen (ducc_u2nu f py px g pos) = zlen pos) by (intros; apply zlen_map).
  rewrite U in E1 by reflexivity. injection E1 as <-.
  assert (Nb : fdot idx b b <> 0).
  { intros Z. apply E3. pose proof (fdot_zero _ _ Z) as B. rewrite (list_lget (RtoC 0) (ducc_u2nu f py px fa pos)) in E2. apply in_map_iff in E2 as (k & Ek & Hk). rewrite LU in Hk. rewrite <- Ek, <- of_list_lget, UP by reflexivity. apply B, Hk. }
  unfold inufft_adjoint. rewrite (inu2u_eq eps fuel nz (negb f) true per fa pos py px E). fold idx jd K. fold b.
  assert (LI : length idx = length pos) by (pose proof (zrange_zlen 0 (zlen pos)) as Q; pose proof (zlen_nonneg pos); unfold idx, jdx; unfold zlen in *; lia).
  destruct (solve_ends _ _ idx jd K (zipf fa) eps He Z.eq_dec fuel (zrange_NoDup _ _) Nb ltac:(rewrite LI; exact HF)) as [x ES]. fold b in ES. rewrite ES. cbn [omap]. eexists. split; [reflexivity|].
  assert (N : RtoC (IZR (f_ny fa * f_nx fa)) <> 0%C) by (apply Cn0; nia).
  split; [unfold fin_p; destruct nz; rewrite ?zlen_map; apply zlen_to_list, zlen_nonneg|].
  set (g := FA _ _ _). exists (ducc_u2nu f py px g pos), (ducc_u2nu f py px fa pos). split; [apply U; reflexivity|]. split; [apply U; reflexivity|].
  rewrite !linner_cs by reflexivity. rewrite !LU. rewrite <- !fdot_cs. fold (jdx pos). fold idx.
  rewrite (fdot_ext idx (of_list (ducc_u2nu f py px fa pos)) _ b b) by (intros; apply UP; reflexivity).
  pose proof (solve_residual _ _ _ _ _ (zipf fa) eps fuel x ES) as R. fold b in R.
  assert (G : forall k, of_list (ducc_u2nu f py px g pos) k = (b k - Ak _ _ idx jd K x k)%C).
  { intros k. rewrite UP by reflexivity. rewrite (PTk_ext _ _ _ _ _ (fun p => zipf fa p + RtoC (-1) * Pk _ _ idx K x p)%C).
    - rewrite PTk_lin. unfold b, Ak. replace (RtoC (-1)) with (- RtoC 1)%C by (apply C_eq; cbn; ring). ring.
    - intros [i j] _. unfold g, zipf. cbn [fst snd f_at]. unfold nufft_adjoint, nu2u. rewrite E. replace (RtoC (-1)) with (- RtoC 1)%C by (apply C_eq; cbn; ring).
      assert (Q : f_at (ducc_nu2u (negb f) py px (f_ny fa) (f_nx fa) pos (to_list (zlen pos) x)) i j = Pk _ _ idx K x (i, j)) by apply nu2u_Pk. cbn [ducc_nu2u f_at] in Q.
      unfold fin_p. destruct nz; cbn [amap f_at re_if ducc_nu2u]; rewrite <- Q.
      + replace (combine pos (map (fun z0 => z0 * RtoC (IZR (f_ny fa * f_nx fa)))%C (map (re_if true) (to_list (zlen pos) x)))) with (map (fun p : point * C => (fst p, snd p * RtoC (IZR (f_ny fa * f_nx fa))))%C (combine pos (to_list (zlen pos) x))).
        * rewrite map_map. cbn [fst snd]. fold (cs (combine pos (to_list (zlen pos) x)) (fun x0 => snd x0 * RtoC (IZR (f_ny fa * f_nx fa)) * kern (negb f) py px (f_ny fa) (f_nx fa) (fst x0) i j)%C).
          rewrite (cs_ext _ _ (fun x0 => snd x0 * kern (negb f) py px (f_ny fa) (f_nx fa) (fst x0) i j * RtoC (IZR (f_ny fa * f_nx fa)))%C) by (intros; ring). rewrite cs_scal_r. unfold cs. field. exact N.
        * generalize (to_list (zlen pos) x) as tl. clear. induction pos as [|q pos IH]; intros tl; [reflexivity|]. destruct tl as [|t tl]; [reflexivity|]. cbn [combine map fst snd re_if]. rewrite IH. reflexivity.
      + replace (map (re_if true) (to_list (zlen pos) x)) with (to_list (zlen pos) x) by (symmetry; apply map_id). ring. }
  rewrite (fdot_ext idx _ _ (fun k => b k - Ak _ _ idx jd K x k)%C (fun k => b k - Ak _ _ idx jd K x k)%C) by (intros; apply G). exact R.
Qed.
Print Assumptions C114_inverse_adjoint.

(* A FourierInterpolator gives the same values whatever it prepares in advance. *)
Theorem C114_interpolator : forall pc cplx arr pos, nonempty arr ->
  exists ip, fourier_interpolator pc cplx arr = Some ip /\ interpolator_call cplx ip pos = interpol_nufft false true cplx None arr pos.
Proof.
  intros pc cplx arr pos H. unfold fourier_interpolator, u2nu_plan. rewrite fft_some by exact H. destruct pc; cbn [bind]; eexists; (split; [reflexivity|]); unfold interpolator_call, interpol_nufft, u2nu; rewrite ?fft_some by exact H; cbn [bind no_op periods]; rewrite ?dft_ax_ny, ?dft_ax_nx; try reflexivity.
Qed.
Print Assumptions C114_interpolator.
(* Outside the claim: inufft_adjoint does not pass its argument complex on. *)
Theorem C114_complex_ignored : forall eps fuel normalize flip per fa pos,
  inufft_adjoint eps fuel normalize flip false per fa pos = inufft_adjoint eps fuel normalize flip true per fa pos.
Proof. reflexivity. Qed.
Print Assumptions C114_complex_ignored.

(* The value half way between two pixels of a wave, one period over four pixels; beyond the array; and a fit to samples in a different
   order. *)
Example C114_ex : let m := sampled 2 4 0 0 (trig [(RtoC 1, 0, 1)%Z]) in
  interpol_nufft false true true None m [(0, 1 / 2); (0, 9)]%R = Some [cis (PI / 4); Ci] /\
  let l := rev (pixels 2 4) in Permutation l (pixels 2 4) /\ ~ all_zero m.
Proof.
  cbv zeta. split; [|split].
  - rewrite C114_exact by (try lia; repeat constructor; unfold inside; lia). cbn [map fst snd re_if]. unfold trig. cbn [fold_right]. f_equal. f_equal; [|f_equal].
    + rewrite Cplus_0_r, Cmult_1_l. f_equal. lra.
    + rewrite Cplus_0_r, Cmult_1_l. replace (2 * PI * (0 * (0 / 2) + 1 * (9 / 4)))%R with (PI / 2 + 2 * PI * IZR 2)%R by (cbn; lra). rewrite cis_period. unfold cis. rewrite cos_PI2, sin_PI2. reflexivity.
  - apply Permutation_sym, Permutation_rev.
  - intros Z. specialize (Z 0%Z 0%Z ltac:(cbn; lia) ltac:(cbn; lia)). cbn [f_at sampled trig fold_right] in Z. rewrite Cplus_0_r, Cmult_1_l in Z. replace (2 * PI * (0 * ((0 + 0) / 2) + 1 * ((0 + 0) / 4)))%R with 0%R in Z by (cbn; lra). rewrite cis_0 in Z. apply (f_equal Re) in Z. cbn in Z. lra.
Qed.
