(* Samples at the pixel centres. *)
From Coq Require Import Reals Lra Lia Permutation.
From Coquelicot Require Import Complex.
From Verif Require Import Base ArrModel PixModel CgSpec CgModel FftSpec FftModel FftLemmas FftLemmas2 FftLemmas3 NufSpec NufModel NufLemmas0 NufLemmas NufLemmas2.
Ltac Zify.zify_post_hook ::= idtac.
Open Scope R_scope. Open Scope C_scope.

Lemma cs_perm {I} (l m : list I) f : Permutation l m -> cs l f = cs m f.
Proof. intros P. induction P; rewrite ?cs_cons; [reflexivity|rewrite IHP; reflexivity|ring|congruence]. Qed.

(* one step suffices when the normal matrix is a multiple of one *)
Lemma one_step {I} (idx : list I) (A : (I -> C) -> I -> C) (b : I -> C) eps fuel N : (0 < N)%R -> (0 <= eps)%R -> (0 < fuel)%nat ->
  (forall u i, In i idx -> A u i = RtoC N * u i) -> fdot idx b b <> 0%R ->
  exists x, solve (fspace I) A (fdot idx) b eps fuel = Done x /\ forall i, In i idx -> x i = b i / RtoC N.
Proof.
  intros HN He Hf HA Hb. destruct fuel as [|f]; [lia|]. unfold solve. cbn [cg_while cg_init cg_err above].
  set (D := fdot idx b b) in *. assert (EA : fdot idx b (A b) = (N * D)%R).
  { unfold D. rewrite <- (CgLemmas.dscale (fspace I) (fdot idx) (fdot_laws idx) N b b). apply fdot_ext; [reflexivity|]. intros i Hi. apply HA, Hi. }
  unfold cg_step. cbn [cg_p cg_rz cg_rz0 cg_x cg_r cg_i]. rewrite EA. fold D. destruct (Req_EM_T (N * D) 0) as [E|_]; [nra|]. destruct (Req_EM_T D 0); [contradiction|].
  set (al := (D / (N * D))%R). assert (Eal : al = (/ N)%R) by (unfold al; field; split; [lra|exact Hb]).
  set (r := vsub (fspace I) b (vscale (fspace I) al (A b))). assert (Er : fdot idx r r = 0%R).
  { rewrite (fdot_ext idx r r (fun _ => 0) (fun _ => 0)); [rewrite fdot_lsum, (CgLemmas2.lsum_ext _ (fun _ => 0%R)); [apply CgLemmas2.lsum_0|intros; cbn; ring]| |];
      intros i Hi; unfold r; cbn [vsub vscale fspace]; rewrite HA by exact Hi; rewrite Eal, Cmult_assoc, <- RtoC_mult, Rinv_l by lra; ring. }
  rewrite Er. eexists. split.
  - destruct f as [|f]; cbn [cg_while cg_err above cg_x]; unfold Rdiv; rewrite Rmult_0_l; (destruct (Rlt_dec eps 0) as [L|_]; [exfalso; exact (Rlt_not_le _ _ L He)|reflexivity]).
  - intros i _. cbn [vadd vscale vzero fspace]. rewrite Eal, RtoC_inv by lra. unfold Cdiv. ring.
Qed.

Section G.
Variables (ny nx : Z) (l : list (Z * Z)).
Hypothesis Hy : (0 < ny)%Z.
Hypothesis Hx : (0 < nx)%Z.
Hypothesis HP : Permutation l (pixels ny nx).
Let K := Kf false ny nx ny nx (centres l).
Let jd := jdx (centres l).
Let idx := pixels ny nx.
Lemma zlen_centres : zlen (centres l) = zlen l. Proof. apply zlen_map. Qed.
Lemma kern_int y x i j : (0 <= i < ny)%Z -> (0 <= j < nx)%Z -> kern false ny nx ny nx (IZR y, IZR x) i j = w ny (i * y) * w nx (j * x).
Proof. intros Hi Hj. rewrite kern_phase by assumption. cbn [fst snd]. rewrite <- !opp_IZR. rewrite !phase_int by assumption. f_equal; f_equal; lia. Qed.
Lemma lget_centres k : (0 <= k < zlen l)%Z -> lget o2 (centres l) k = (IZR (fst (lget (0, 0)%Z l k)), IZR (snd (lget (0, 0)%Z l k))).
Proof. intros Hk. unfold lget, centres. rewrite zget_map. destruct (zget_in_range l k Hk) as [q ->]. reflexivity. Qed.
Lemma grid_Pk u k : (0 <= k < zlen l)%Z -> Pk _ _ idx K u k = f_at (dft_ax 1 AXY (unzip ny nx u)) (fst (lget (0, 0)%Z l k)) (snd (lget (0, 0)%Z l k)).
Proof.
  intros Hk. unfold Pk, idx. transitivity (csum2 ny nx (fun i j => u (i, j) * K (i, j) k)); [rewrite csum2_cs; apply cs_ext; intros [i j] _; reflexivity|].
  cbn [dft_ax dft_y dft_x f_at f_ny f_nx unzip]. unfold dft, csum2. apply csum_ext. intros i Hi. rewrite <- csum_scal_r. apply csum_ext. intros j Hj. unfold K, Kf. cbn [fst snd]. rewrite lget_centres by exact Hk. rewrite kern_int by assumption. rewrite !Z.mul_1_l. ring.
Qed.
Lemma grid_PTk v g i j : (0 <= i < ny)%Z -> (0 <= j < nx)%Z -> (forall k, (0 <= k < zlen l)%Z -> v k = g (lget (0, 0)%Z l k)) ->
  PTk _ _ jd K v (i, j) = f_at (dft_ax (-1) AXY (unzip ny nx g)) i j.
Proof.
  intros Hi Hj HV. unfold PTk, jd, jdx. rewrite zlen_centres.
  set (F := fun q : Z * Z => g q * Cconj (w ny (i * fst q) * w nx (j * snd q))).
  transitivity (cs (zrange 0 (zlen l)) (fun k => F (lget (0, 0)%Z l k))).
  - apply cs_ext. intros k Hk. apply zrange_In in Hk. rewrite HV by exact Hk. unfold F, K, Kf. cbn [fst snd]. rewrite lget_centres by exact Hk. rewrite kern_int by assumption. reflexivity.
  - rewrite <- cs_lget. rewrite (cs_perm l (pixels ny nx) F HP). transitivity (csum2 ny nx (fun y x => F (y, x))); [rewrite csum2_cs; apply cs_ext; intros [y x] _; reflexivity|].
    cbn [dft_ax dft_y dft_x f_at f_ny f_nx unzip]. unfold dft, csum2. apply csum_ext. intros y _. rewrite <- csum_scal_r. apply csum_ext. intros x _. unfold F. cbn [fst snd]. rewrite Cmult_conj, <- !w_opp by assumption. replace (- (i * y))%Z with (-1 * (y * i))%Z by lia. replace (- (j * x))%Z with (-1 * (x * j))%Z by lia. ring.
Qed.
Lemma grid_Ak u p : In p idx -> Ak _ _ idx jd K u p = RtoC (IZR (ny * nx)) * u p.
Proof.
  intros Hp. apply in_pixels in Hp. destruct p as [i j]. destruct Hp as [Hi Hj]. cbn [fst snd] in Hi, Hj. unfold Ak.
  rewrite (grid_PTk _ (zipf (dft_ax 1 AXY (unzip ny nx u))) i j Hi Hj); [|intros k Hk; apply grid_Pk, Hk].
  assert (E : unzip ny nx (zipf (dft_ax 1 AXY (unzip ny nx u))) = dft_ax 1 AXY (unzip ny nx u)) by reflexivity. rewrite E.
  pose proof (dft_ax_inv (-1) AXY (unzip ny nx u) (or_intror eq_refl) (conj Hy Hx)) as (_ & _ & Q). rewrite dft_ax_ny, dft_ax_nx, dft_ax_ny, dft_ax_nx in Q. specialize (Q i j Hi Hj). change (- -1)%Z with 1%Z in Q. rewrite Q. cbn [amap f_at unzip nprod f_ny f_nx]. ring.
Qed.
End G.
