(* Band-limited patterns. *)
From Coq Require Import Reals Lra Lia.
From Coquelicot Require Import Complex.
From Verif Require Import Base SliceSpec ArrModel PixModel BlockModel FresSpec FresModel FresLemmas FftSpec FftModel FftLemmas FftLemmas2 FftLemmas3 FftLemmas4 FftLemmas5 WflSpec WflModel WflLemmas WflLemmas2 WflLemmas3.
Ltac Zify.zify_post_hook ::= idtac.
Open Scope R_scope. Open Scope C_scope.

(* the phase of a mode at the first pixel centre *)
Definition hph (n k : Z) : C := cis (2 * PI * (IZR k * (1 / 2 / IZR n)))%R.
Lemma mode_1d n k Y : (0 < n)%Z -> (0 <= Y < n)%Z ->
  dft (-1) n (fun i => cis (2 * PI * (IZR k * ((IZR i + 1 / 2) / IZR n)))%R) Y = if (Y =? k mod n)%Z then hph n k * RtoC (IZR n) else 0.
Proof.
  intros Hn HY. rewrite (dft_ext (-1) n _ (fun i => hph n k * w n (k * i))).
  - rewrite dft_mode by auto. replace (- -1 * k)%Z with k by lia. reflexivity.
  - intros i _. unfold hph. rewrite w_as by exact Hn. rewrite <- cis_plus. f_equal. field. apply IZRn0, Hn.
Qed.
Fixpoint mspec (ny nx : Z) (ms : list (C * Z * Z)) (Y X : Z) : C :=
  match ms with
  | [] => 0
  | (c, ky, kx) :: t => (if (Y =? ky mod ny)%Z && (X =? kx mod nx)%Z then c * hph ny ky * hph nx kx * RtoC (IZR ny * IZR nx) else 0) + mspec ny nx t Y X
  end.
Lemma dft_trig ny nx ms Y X : (0 < ny)%Z -> (0 < nx)%Z -> (0 <= Y < ny)%Z -> (0 <= X < nx)%Z ->
  f_at (dft_ax (-1) AXY (sampled ny nx (1 / 2) (1 / 2) (trig ms))) Y X = mspec ny nx ms Y X.
Proof.
  intros Py Px IY IX. rewrite dft2_at. cbn [sampled f_ny f_nx f_at]. induction ms as [|[[c ky] kx] t IH].
  - cbn [trig fold_right mspec]. rewrite (dft_ext (-1) ny _ (fun _ => RtoC 0 * RtoC 0)).
    + rewrite dft_scal. apply Cmult_0_l.
    + intros j _. rewrite (dft_ext (-1) nx _ (fun _ => RtoC 0 * RtoC 0)) by (intros; ring). rewrite dft_scal. rewrite !Cmult_0_l. reflexivity.
  - cbn [mspec]. rewrite <- IH. rewrite <- (Cplus_comm (dft _ _ _ _)). rewrite (Cplus_comm (dft _ _ _ _)).
    rewrite (dft_ext (-1) ny _ (fun j => c * dft (-1) nx (fun i => cis (2 * PI * (IZR kx * ((IZR i + 1 / 2) / IZR nx)))%R) X * cis (2 * PI * (IZR ky * ((IZR j + 1 / 2) / IZR ny)))%R + dft (-1) nx (fun i => trig t ((IZR j + 1 / 2) / IZR ny) ((IZR i + 1 / 2) / IZR nx)) X)).
    + rewrite dft_plus, dft_scal, !mode_1d by assumption. f_equal. rewrite RtoC_mult. destruct (Y =? _)%Z, (X =? _)%Z; cbn [andb]; ring.
    + intros j _. rewrite (dft_ext (-1) nx _ (fun i => (c * cis (2 * PI * (IZR ky * ((IZR j + 1 / 2) / IZR ny)))%R) * cis (2 * PI * (IZR kx * ((IZR i + 1 / 2) / IZR nx)))%R + trig t ((IZR j + 1 / 2) / IZR ny) ((IZR i + 1 / 2) / IZR nx))).
      * rewrite dft_plus, dft_scal. ring.
      * intros i _. rewrite trig_cons, cis_prod. ring.
Qed.
Lemma mspec_scale ny nx ms Y X (G H : C) : (forall c ky kx, In (c, ky, kx) ms -> Y = (ky mod ny)%Z -> X = (kx mod nx)%Z -> G = H) -> mspec ny nx ms Y X * G = mspec ny nx ms Y X * H.
Proof.
  induction ms as [|[[c ky] kx] t IH]; intros A; cbn [mspec]; [ring|]. rewrite !Cmult_plus_distr_r. f_equal.
  - destruct ((Y =? ky mod ny)%Z && (X =? kx mod nx)%Z) eqn:E; [|ring]. rewrite (A c ky kx); [reflexivity|left; reflexivity|lia|lia].
  - apply IH. intros c' ky' kx' Hi. apply (A c' ky' kx'). right. exact Hi.
Qed.

(* the picture of a mode in the smaller grid *)
Lemma mode_at n m j k : (0 < m <= n)%Z -> (0 <= j < m)%Z -> holds_freq n m j -> inside n k -> src n m j = (k mod n)%Z -> inside m k /\ fidx m k = j.
Proof.
  intros H Hj G Ik E. destruct (holds_dec n m j ltac:(lia) Hj G) as [->|(k' & Ik' & ->)].
  - rewrite src_same in E. split; [exact Ik|]. rewrite E. symmetry. apply inside_fidx; [lia|exact Ik].
  - rewrite src_mode in E by assumption. assert (k' = k) as <-.
    { rewrite <- (sfreq_of n k) by (try lia; exact Ik). rewrite <- E. symmetry. apply sfreq_of; [lia|]. apply (inside_le m); [lia|exact Ik']. }
    split; [exact Ik'|]. symmetry. apply inside_fidx; [lia|exact Ik'].
Qed.
Lemma freq_value_inside ny nx F ky kx : fits ny nx F -> supported ny nx F -> inside ny ky -> inside nx kx -> freq_value F ky kx <> 0%R -> inside (f_ny F) ky /\ inside (f_nx F) kx.
Proof.
  intros [Fy Fx] HS Iy Ix V. unfold freq_value in V. destruct (freq_at (f_ny F) ky) eqn:E1; [|elim V; reflexivity]. destruct (freq_at (f_nx F) kx) eqn:E2; [|elim V; reflexivity]. cbn [andb] in V.
  destruct (sfreq_fidx _ _ E1) as [A1 A2]. destruct (sfreq_fidx _ _ E2) as [B1 B2]. destruct (HS _ _ A2 B2 V) as [[G1|G1] [G2|G2]]; rewrite ?A1, ?B1 in *; split; try assumption; congruence.
Qed.
Lemma src_eq_mode n m j k : (0 < m <= n)%Z -> (0 <= j < m)%Z -> inside m k -> (src n m j =? k mod n)%Z = (j =? k mod m)%Z.
Proof.
  intros H Hj Ik. pose proof (fsrc_mode n m k j ltac:(lia) ltac:(lia) ltac:(rewrite Z.min_r by lia; exact Ik) Hj) as E. rewrite fsrc_down in E by assumption. exact E.
Qed.
Lemma pick_1d n m k j : (0 < m <= n)%Z -> inside m k ->
  dft 1 m (fun i => if (i =? k mod m)%Z then cph n m i else 0) j * hph n k = cis (2 * PI * (IZR k * ((IZR j + 1 / 2) / IZR m)))%R.
Proof.
  intros H Ik. unfold dft. rewrite (csum_ext m _ (fun i => if (i =? k mod m)%Z then cph n m i * w m (1 * (i * j)) else 0)) by (intros i _; destruct (i =? k mod m)%Z; ring).
  rewrite (csum_single m (k mod m) (fun i => cph n m i * w m (1 * (i * j)))) by (apply Z.mod_pos_bound; lia).
  unfold cph. rewrite phase_mode by (try lia; exact Ik). rewrite (w_eqm m ltac:(lia) (1 * (k mod m * j)) (k * j)).
  2: { rewrite Z.mul_1_l. rewrite Z.mul_mod, Z.mod_mod, <- Z.mul_mod by lia. reflexivity. }
  rewrite w_as by lia. unfold hph. rewrite <- !cis_plus. f_equal. unfold offs. field. split; apply IZRn0; lia.
Qed.
Definition spec_of (ny nx : Z) (F : farr R) (c : R) (g : Z -> Z -> C) (y x : Z) : C :=
  g (src ny (f_ny F) y) (src nx (f_nx F) x) * cph ny (f_ny F) y * cph nx (f_nx F) x * RtoC (f_at F y x * c).
Lemma spec_of_mode ny nx F c z ky kx y x : fits ny nx F -> supported ny nx F -> inside ny ky -> inside nx kx ->
  dft 1 (f_ny F) (fun j => dft 1 (f_nx F) (fun i => spec_of ny nx F c (fun Y X => if (Y =? ky mod ny)%Z && (X =? kx mod nx)%Z then z * hph ny ky * hph nx kx * RtoC (IZR ny * IZR nx) else 0) j i) x) y =
  z * RtoC (freq_value F ky kx) * cis (2 * PI * (IZR ky * ((IZR y + 1 / 2) / IZR (f_ny F)) + IZR kx * ((IZR x + 1 / 2) / IZR (f_nx F))))%R * RtoC (c * (IZR ny * IZR nx)).
Proof.
  intros HF HS Iy Ix. pose proof HF as [Fy Fx]. set (v := freq_value F ky kx). set (my := f_ny F) in *. set (mx := f_nx F) in *.
  destruct (Req_dec v 0) as [V0|V0].
  - rewrite V0. rewrite (dft_ext 1 my _ (fun _ => RtoC 0 * RtoC 0)).
    + rewrite dft_scal. ring.
    + intros j Hj. rewrite (dft_ext 1 mx _ (fun _ => RtoC 0 * RtoC 0)); [rewrite dft_scal; ring|]. intros i Hi. unfold spec_of. fold my mx.
      destruct ((src ny my j =? ky mod ny)%Z && (src nx mx i =? kx mod nx)%Z) eqn:E; [|ring]. assert (f_at F j i = 0)%R as ->.
      { destruct (Req_dec (f_at F j i) 0) as [Q|Q]; [exact Q|]. destruct (HS j i Hj Hi Q) as [Gy Gx]. destruct (mode_at ny my j ky Fy Hj Gy Iy ltac:(lia)) as [A1 A2]. destruct (mode_at nx mx i kx Fx Hi Gx Ix ltac:(lia)) as [B1 B2].
        rewrite <- V0. unfold v, freq_value. fold my mx. rewrite !freq_inside by assumption. cbn [andb]. rewrite A2, B2. reflexivity. }
      rewrite Rmult_0_l. ring.
  - destruct (freq_value_inside ny nx F ky kx HF HS Iy Ix V0) as [Jy Jx]. fold my in Jy. fold mx in Jx.
    assert (Fv : f_at F (ky mod my)%Z (kx mod mx)%Z = v) by (unfold v, freq_value; fold my mx; rewrite !freq_inside by assumption; cbn [andb]; rewrite !inside_fidx by (try lia; assumption); reflexivity).
    rewrite cis_prod. rewrite <- (pick_1d ny my ky y Fy Jy), <- (pick_1d nx mx kx x Fx Jx).
    rewrite (dft_ext 1 my _ (fun j => (z * RtoC v * hph ny ky * hph nx kx * RtoC (c * (IZR ny * IZR nx)) * dft 1 mx (fun i => if (i =? kx mod mx)%Z then cph nx mx i else 0) x) * (if (j =? ky mod my)%Z then cph ny my j else 0))).
    + rewrite dft_scal. ring.
    + intros j Hj. rewrite (dft_ext 1 mx _ (fun i => (z * RtoC v * hph ny ky * hph nx kx * RtoC (c * (IZR ny * IZR nx)) * (if (j =? ky mod my)%Z then cph ny my j else 0)) * (if (i =? kx mod mx)%Z then cph nx mx i else 0))).
      * rewrite dft_scal. ring.
      * intros i Hi. unfold spec_of. fold my mx. rewrite !src_eq_mode by assumption. destruct (j =? ky mod my)%Z eqn:E1; [destruct (i =? kx mod mx)%Z eqn:E2|]; cbn [andb]; try ring.
        apply Z.eqb_eq in E1. apply Z.eqb_eq in E2. subst j i. rewrite Fv. rewrite !RtoC_mult. ring.
Qed.
Lemma spec_of_trig ny nx F c ms y x : fits ny nx F -> supported ny nx F -> band ny nx ms ->
  dft 1 (f_ny F) (fun j => dft 1 (f_nx F) (fun i => spec_of ny nx F c (mspec ny nx ms) j i) x) y =
  trig (filtered F ms) ((IZR y + 1 / 2) / IZR (f_ny F)) ((IZR x + 1 / 2) / IZR (f_nx F)) * RtoC (c * (IZR ny * IZR nx)).
Proof.
  intros HF HS. induction ms as [|[[z ky] kx] t IH]; intros HB.
  - cbn [filtered map trig fold_right]. rewrite (dft_ext 1 _ _ (fun _ => RtoC 0 * RtoC 0)); [rewrite dft_scal; ring|]. intros j _. rewrite (dft_ext 1 _ _ (fun _ => RtoC 0 * RtoC 0)); [rewrite dft_scal; ring|].
    intros i _. unfold spec_of. cbn [mspec]. ring.
  - pose proof (Forall_inv HB) as [Iy Ix]. specialize (IH (Forall_inv_tail HB)). cbn [filtered map]. rewrite trig_cons. fold (filtered F t).
    rewrite Cmult_plus_distr_r. rewrite <- IH. rewrite <- (spec_of_mode ny nx F c z ky kx y x HF HS Iy Ix). rewrite <- dft_plus. apply dft_ext. intros j _. rewrite <- dft_plus. apply dft_ext. intros i _. unfold spec_of. cbn [mspec]. ring.
Qed.
