(* The fits of iu2nu and inu2u. *)
From Coq Require Import Reals Lra Lia FunctionalExtensionality Permutation.
From Coquelicot Require Import Complex.
From Verif Require Import Base ArrModel PixModel CgSpec CgModel FftSpec FftModel FftLemmas FftLemmas2 FftLemmas3 NufSpec NufModel NufLemmas0 NufLemmas.
Ltac Zify.zify_post_hook ::= idtac.
Open Scope R_scope. Open Scope C_scope.

Definition o2 : point := (0%R, 0%R).
Definition Kf f py px ny nx (pos : list point) (p : Z * Z) (k : Z) : C := kern f py px ny nx (lget o2 pos k) (fst p) (snd p).
Definition jdx (pos : list point) := zrange 0 (zlen pos).
Definition unzip (ny nx : Z) (u : Z * Z -> C) : farr C := FA ny nx (fun i j => u (i, j)).
Definition zipf (g : farr C) : Z * Z -> C := fun p => f_at g (fst p) (snd p).
Lemma unzip_zip g : unzip (f_ny g) (f_nx g) (zipf g) = g. Proof. destruct g. reflexivity. Qed.

Section A.
Variables (f : bool) (py px ny nx : Z) (pos : list point).
Let K := Kf f py px ny nx pos.
Let idx := pixels ny nx.
Let jd := jdx pos.
Lemma u2nu_Pk u : ducc_u2nu f py px (unzip ny nx u) pos = to_list (zlen pos) (Pk _ _ idx K u).
Proof.
  unfold ducc_u2nu, to_list. rewrite (list_lget o2 pos) at 1. rewrite map_map. apply map_ext. intros k. cbn [f_ny f_nx unzip f_at]. rewrite csum2_cs. unfold Pk. apply cs_ext. intros [i j] _. reflexivity.
Qed.
Lemma nu2u_PTk a i j : zlen a = zlen pos -> f_at (ducc_nu2u (negb f) py px ny nx pos a) i j = PTk _ _ jd K (of_list a) (i, j).
Proof.
  intros H. cbn [ducc_nu2u f_at]. rewrite (combine_lget o2 (RtoC 0)) by congruence. rewrite map_map. unfold PTk, cs. f_equal. apply map_ext. intros k. cbn [fst snd]. rewrite kern_conj. reflexivity.
Qed.
Lemma PTk_in v w p : (forall k, (0 <= k < zlen pos)%Z -> v k = w k) -> PTk _ _ jd K v p = PTk _ _ jd K w p.
Proof. intros H. apply PTk_ext. intros k Hk. apply H. apply zrange_In in Hk. exact Hk. Qed.
Lemma iu_A : (fun u (p : Z * Z) => f_at (ducc_nu2u (negb f) py px ny nx pos (ducc_u2nu f py px (unzip ny nx u) pos)) (fst p) (snd p)) = Ak _ _ idx jd K.
Proof.
  apply functional_extensionality. intros u. apply functional_extensionality. intros [i j]. cbn [fst snd]. rewrite u2nu_Pk. rewrite nu2u_PTk by (apply zlen_to_list, zlen_nonneg). unfold Ak. apply PTk_in. intros k Hk. apply of_to_list, Hk.
Qed.
Lemma iu_b a : zlen a = zlen pos -> (fun p : Z * Z => f_at (ducc_nu2u (negb f) py px ny nx pos a) (fst p) (snd p)) = PTk _ _ jd K (of_list a).
Proof. intros H. apply functional_extensionality. intros [i j]. apply nu2u_PTk, H. Qed.
End A.

Definition fin_u (nz cplx : bool) (ny nx : Z) (x : Z * Z -> C) : farr C :=
  let res := amap (re_if cplx) (unzip ny nx x) in if nz then amap (fun z => z * RtoC (IZR (ny * nx))) res else res.
Lemma iu2nu_eq eps fuel nz f cplx per ny nx a pos py px : zlen a = zlen pos -> periods per ny nx = (py, px) ->
  iu2nu eps fuel nz f cplx per ny nx a pos =
  omap (fin_u nz cplx ny nx) (solve (fspace (Z * Z)) (Ak _ _ (pixels ny nx) (jdx pos) (Kf f py px ny nx pos)) (fdot (pixels ny nx)) (PTk _ _ (jdx pos) (Kf f py px ny nx pos) (of_list a)) eps fuel).
Proof.
  intros H E. unfold iu2nu. rewrite E. cbv zeta. rewrite <- (iu_b f py px ny nx pos a H), <- (iu_A f py px ny nx pos). reflexivity.
Qed.

(* inu2u *)
Definition Kp f py px ny nx (pos : list point) (k : Z) (p : Z * Z) : C := match zget pos k with Some q => kern f py px ny nx q (fst p) (snd p) | None => 0 end.
Section B.
Variables (f : bool) (py px ny nx : Z) (pos : list point).
Let K := Kp f py px ny nx pos.
Let idx := jdx pos.
Let jd := pixels ny nx.
Lemma nu2u_Pk u i j : f_at (ducc_nu2u f py px ny nx pos (to_list (zlen pos) u)) i j = Pk _ _ idx K u (i, j).
Proof.
  cbn [ducc_nu2u f_at]. rewrite (combine_lget o2 (RtoC 0)) by (rewrite zlen_to_list by apply zlen_nonneg; reflexivity). rewrite map_map. unfold Pk, cs. f_equal. apply map_ext_in. intros k Hk. cbn [fst snd]. apply zrange_In in Hk.
  rewrite <- of_list_lget. rewrite of_to_list by exact Hk. f_equal. unfold K, Kp, lget. destruct (zget_in_range pos k Hk) as [q ->]. reflexivity.
Qed.
Lemma u2nu_PTk g k : f_ny g = ny -> f_nx g = nx -> of_list (ducc_u2nu (negb f) py px g pos) k = PTk _ _ jd K (zipf g) k.
Proof.
  intros <- <-. unfold of_list, ducc_u2nu. rewrite zget_map. unfold PTk, K, Kp. destruct (zget pos k) as [q|]; cbn [option_map].
  - rewrite csum2_cs. apply cs_ext. intros [i j] _. cbn [fst snd]. rewrite kern_conj. reflexivity.
  - symmetry. rewrite (cs_ext _ _ (fun _ => RtoC 0)); [apply cs_0|]. intros p _. rewrite Cconj_RtoC. ring.
Qed.
Lemma inu_A : (fun u : Z -> C => of_list (ducc_u2nu (negb f) py px (ducc_nu2u f py px ny nx pos (to_list (zlen pos) u)) pos)) = Ak _ _ idx jd K.
Proof.
  apply functional_extensionality. intros u. apply functional_extensionality. intros k. rewrite u2nu_PTk by reflexivity. unfold Ak. f_equal. apply functional_extensionality. intros [i j]. apply nu2u_Pk.
Qed.
End B.
Definition fin_p (nz cplx : bool) (N n : Z) (x : Z -> C) : list C :=
  let nu := map (re_if cplx) (to_list n x) in if nz then map (fun z => z * RtoC (IZR N)) nu else nu.
Lemma inu2u_eq eps fuel nz f cplx per fa pos py px : periods per (f_ny fa) (f_nx fa) = (py, px) ->
  inu2u eps fuel nz f cplx per fa pos =
  omap (fin_p nz cplx (f_ny fa * f_nx fa) (zlen pos)) (solve (fspace Z) (Ak _ _ (jdx pos) (pixels (f_ny fa) (f_nx fa)) (Kp f py px (f_ny fa) (f_nx fa) pos)) (fdot (jdx pos)) (PTk _ _ (pixels (f_ny fa) (f_nx fa)) (Kp f py px (f_ny fa) (f_nx fa) pos) (zipf fa)) eps fuel).
Proof.
  intros E. unfold inu2u. rewrite E. cbv zeta. rewrite <- (inu_A f py px (f_ny fa) (f_nx fa) pos). unfold fin_p, jdx. f_equal. f_equal. apply functional_extensionality. intros k. apply u2nu_PTk; reflexivity.
Qed.

(* what the specification measures *)
Lemma energy_fdot g : energy g = fdot (pixels (f_ny g) (f_nx g)) (zipf g) (zipf g).
Proof. unfold energy, inner. rewrite csum2_cs, fdot_cs. reflexivity. Qed.
Lemma cmod2 z : (Cmod z ^ 2)%R = (Re z * Re z + Im z * Im z)%R.
Proof. unfold Cmod. rewrite pow2_sqrt by nra. unfold Re, Im. ring. Qed.
Lemma distance2_fdot a b : zlen a = zlen b -> distance2 a b = fdot (zrange 0 (zlen a)) (fun k => of_list a k - of_list b k) (fun k => of_list a k - of_list b k).
Proof.
  intros H. unfold distance2, fdot. rewrite (combine_lget (RtoC 0) (RtoC 0)) by exact H. rewrite map_map. f_equal. apply map_ext. intros k. cbn [fst snd]. rewrite cmod2. reflexivity.
Qed.
Lemma linner_cs a b : zlen a = zlen b -> linner a b = cs (zrange 0 (zlen a)) (fun k => Cconj (of_list a k) * of_list b k).
Proof. intros H. unfold linner. rewrite (combine_lget (RtoC 0) (RtoC 0)) by exact H. rewrite map_map. reflexivity. Qed.
Lemma of_list_map h l k : h (RtoC 0) = RtoC 0 -> of_list (map h l) k = h (of_list l k).
Proof. intros H. unfold of_list. rewrite zget_map. destruct (zget l k); cbn; congruence. Qed.
Lemma of_list_sub a b k : zlen a = zlen b -> of_list (map (fun p => fst p - snd p) (combine a b)) k = of_list a k - of_list b k.
Proof.
  intros H. rewrite (combine_lget (RtoC 0) (RtoC 0)) by exact H. rewrite map_map. unfold of_list at 1. rewrite zget_map. destruct (Z_lt_dec k 0) as [L|L]; [unfold of_list; rewrite !zget_out by lia; cbn; ring|].
  destruct (Z_lt_dec k (zlen a)) as [L'|L']; [rewrite zget_zrange by lia; cbn; reflexivity|]. pose proof (zlen_nonneg a). unfold of_list. rewrite !zget_out by (rewrite ?zrange_zlen; lia). cbn. ring.
Qed.
Lemma zlen_sub (a b : list C) : zlen a = zlen b -> zlen (map (fun p => fst p - snd p) (combine a b)) = zlen a.
Proof. unfold zlen. intros H. rewrite map_length, combine_length. lia. Qed.
Lemma nodup_pixels ny nx : NoDup (pixels ny nx).
Proof.
  unfold pixels. pose proof (zrange_NoDup 0 ny) as A. pose proof (zrange_NoDup 0 nx) as B. revert A. generalize (zrange 0 ny) as l. induction l as [|y l IH]; intros A; [constructor|]. inversion_clear A as [|? ? N1 N2]. cbn [list_prod].
  assert (M : NoDup (map (fun x => (y, x)) (zrange 0 nx))) by (apply FinFun.Injective_map_NoDup; [intros ? ? E; congruence|exact B]).
  revert M. generalize (IH N2). intros Q M.
  assert (G : forall l1 l2 : list (Z * Z), NoDup l1 -> NoDup l2 -> (forall p, In p l1 -> ~ In p l2) -> NoDup (l1 ++ l2)).
  { clear. induction l1 as [|p l1 IH]; intros l2 H1 H2 H; [exact H2|]. inversion_clear H1. cbn. constructor; [|apply IH; auto; intros; apply H; right; assumption]. rewrite in_app_iff. intros [?|?]; [contradiction|]. apply (H p); [left; reflexivity|assumption]. }
  apply G; [exact M|exact Q|]. intros [y' x'] H1 H2. apply in_map_iff in H1 as (x & E & _). apply in_prod_iff in H2 as [H2 _]. apply N1. congruence.
Qed.
Lemma len_pixels ny nx : (0 <= ny)%Z -> (0 <= nx)%Z -> length (pixels ny nx) = Z.to_nat (ny * nx).
Proof.
  intros. unfold pixels. rewrite prod_length. pose proof (zrange_zlen 0 ny) as A. pose proof (zrange_zlen 0 nx) as B. unfold zlen in A, B. rewrite Z2Nat.inj_mul by lia. f_equal; lia.
Qed.
Lemma in_pixels ny nx p : In p (pixels ny nx) <-> (0 <= fst p < ny)%Z /\ (0 <= snd p < nx)%Z.
Proof. destruct p as [y x]. unfold pixels. rewrite in_prod_iff, !zrange_In. reflexivity. Qed.
Definition eqd2 : forall x y : Z * Z, {x = y} + {x <> y}. Proof. decide equality; apply Z.eq_dec. Defined.

(* the fit of the result *)
Lemma fit_of nz f per ny nx pos x py px : (0 < ny)%Z -> (0 < nx)%Z -> periods per ny nx = (py, px) ->
  u2nu nz f true per no_op (fin_u nz true ny nx x) pos = Some (to_list (zlen pos) (Pk _ _ (pixels ny nx) (Kf f py px ny nx pos) x)).
Proof.
  intros Hy Hx E. unfold u2nu, no_op. cbn [bind]. assert (Sy : f_ny (fin_u nz true ny nx x) = ny) by (destruct nz; reflexivity). assert (Sx : f_nx (fin_u nz true ny nx x) = nx) by (destruct nz; reflexivity).
  rewrite Sy, Sx, E. f_equal. rewrite <- u2nu_Pk. unfold ducc_u2nu. destruct nz; rewrite !map_map; apply map_ext; intros q; cbn [re_if fin_u amap unzip f_ny f_nx f_at]; [|reflexivity].
  assert (N : RtoC (IZR (ny * nx)) <> 0) by (apply Cn0; nia).
  rewrite (csum2_extn ny nx _ (fun i j => x (i, j) * kern f py px ny nx q i j * RtoC (IZR (ny * nx)))) by (intros; ring).
  unfold csum2. rewrite (csum_ext ny _ (fun i => csum nx (fun j => x (i, j) * kern f py px ny nx q i j) * RtoC (IZR (ny * nx)))) by (intros; apply csum_scal_r). rewrite csum_scal_r. field. exact N.
Qed.
Lemma u2nu_any nz f per g pos py px : nonempty g -> periods per (f_ny g) (f_nx g) = (py, px) ->
  u2nu nz f true per no_op g pos = Some (to_list (zlen pos) (Pk _ _ (pixels (f_ny g) (f_nx g)) (Kf f py px (f_ny g) (f_nx g) pos) (fun p => if nz then zipf g p / RtoC (IZR (f_ny g * f_nx g)) else zipf g p))).
Proof.
  intros [Hy Hx] E. rewrite <- (fit_of nz f per (f_ny g) (f_nx g) pos _ py px Hy Hx E). unfold u2nu, no_op. cbn [bind].
  set (g2 := fin_u _ _ _ _ _). assert (Sy : f_ny g2 = f_ny g) by (unfold g2; destruct nz; reflexivity). assert (Sx : f_nx g2 = f_nx g) by (unfold g2; destruct nz; reflexivity). rewrite Sy, Sx, E.
  assert (Q : ducc_u2nu f py px g pos = ducc_u2nu f py px g2 pos); [|rewrite Q; reflexivity].
  unfold ducc_u2nu. rewrite Sy, Sx. apply map_ext. intros q. apply csum2_extn. intros i j _ _. f_equal. unfold g2. destruct nz; cbn [fin_u amap unzip f_at re_if]; unfold zipf; cbn [fst snd]; [|reflexivity]. field. apply Cn0. nia.
Qed.
Lemma nu2u_zip f per ny nx a pos py px p : zlen a = zlen pos -> periods per ny nx = (py, px) ->
  zipf (nu2u false (negb f) true per ny nx a pos) p = PTk _ _ (jdx pos) (Kf f py px ny nx pos) (of_list a) p.
Proof. intros H E. destruct p as [i j]. unfold zipf, nu2u. rewrite E. cbn [fst snd amap f_at re_if]. apply nu2u_PTk, H. Qed.
Lemma nu2u_energy f per ny nx a pos py px : zlen a = zlen pos -> periods per ny nx = (py, px) ->
  energy (nu2u false (negb f) true per ny nx a pos) = fdot (pixels ny nx) (PTk _ _ (jdx pos) (Kf f py px ny nx pos) (of_list a)) (PTk _ _ (jdx pos) (Kf f py px ny nx pos) (of_list a)).
Proof.
  intros H E. rewrite energy_fdot. assert (S : f_ny (nu2u false (negb f) true per ny nx a pos) = ny /\ f_nx (nu2u false (negb f) true per ny nx a pos) = nx) by (unfold nu2u; rewrite E; split; reflexivity).
  rewrite (proj1 S), (proj2 S). apply fdot_ext; intros p _; apply nu2u_zip; assumption.
Qed.
