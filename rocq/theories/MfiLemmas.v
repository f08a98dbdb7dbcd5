(* Convolution with the profile of a beam. *)
From Coq Require Import Reals Lra Lia Morphisms.
From Coquelicot Require Import Complex.
From Verif Require Import Base ArrModel PixModel DctSpec DctLemmas FftSpec FftModel FftLemmas FftLemmas2 MfiSpec MfiModel.
Ltac Zify.zify_post_hook ::= idtac.
Open Scope R_scope.

Lemma csum2_ext ny nx f g : (forall y x, in_map ny nx y x -> f y x = g y x) -> csum2 ny nx f = csum2 ny nx g.
Proof. intros E. apply csum_ext. intros y Hy. apply csum_ext. intros x Hx. apply E. split; assumption. Qed.
Lemma csum2_scal_l ny nx c f : csum2 ny nx (fun y x => c * f y x)%C = (c * csum2 ny nx f)%C.
Proof. unfold csum2. rewrite <- csum_scal_l. apply csum_ext. intros. apply csum_scal_l. Qed.
Lemma csum2_scal_r ny nx c f : csum2 ny nx (fun y x => f y x * c)%C = (csum2 ny nx f * c)%C.
Proof. unfold csum2. rewrite <- csum_scal_r. apply csum_ext. intros. apply csum_scal_r. Qed.
Lemma csum2_comm ny nx my mx (f : Z -> Z -> Z -> Z -> C) :
  csum2 ny nx (fun y x => csum2 my mx (f y x)) = csum2 my mx (fun k l => csum2 ny nx (fun y x => f y x k l)).
Proof.
  unfold csum2.
  transitivity (csum ny (fun y => csum my (fun k => csum nx (fun x => csum mx (fun l => f y x k l))))).
  - apply csum_ext. intros y _. apply (csum_swap nx my (fun x k => csum mx (fun l => f y x k l))).
  - rewrite (csum_swap ny my (fun y k => csum nx (fun x => csum mx (fun l => f y x k l)))). apply csum_ext. intros k _.
    transitivity (csum ny (fun y => csum mx (fun l => csum nx (fun x => f y x k l)))).
    + apply csum_ext. intros y _. apply (csum_swap nx mx (fun x l => f y x k l)).
    + apply (csum_swap ny mx (fun y l => csum nx (fun x => f y x k l))).
Qed.
Lemma csum2_conj ny nx f : Cconj (csum2 ny nx f) = csum2 ny nx (fun y x => Cconj (f y x)).
Proof. unfold csum2. rewrite csum_conj. apply csum_ext. intros. apply csum_conj. Qed.
Lemma csum2_R ny nx f : csum2 ny nx (cx f) = RtoC (rsum2 ny nx f).
Proof. unfold rsum2. rewrite rsum_C. apply csum_ext. intros. unfold cx. symmetry. apply rsum_C. Qed.
Lemma Re_csum2 ny nx f : Re (csum2 ny nx f) = rsum2 ny nx (fun y x => Re (f y x)).
Proof. unfold csum2, rsum2. rewrite Re_csum. apply rsum_ext. intros. apply Re_csum. Qed.
Lemma Im_csum n f : Im (csum n f) = rsum n (fun j => Im (f j)).
Proof. unfold csum, rsum. induction (Z.to_nat n) as [|k IH]; [reflexivity|]. cbn [csumn rsumn]. rewrite <- IH. reflexivity. Qed.
Lemma Im_csum2 ny nx f : Im (csum2 ny nx f) = rsum2 ny nx (fun y x => Im (f y x)).
Proof. unfold csum2, rsum2. rewrite Im_csum. apply rsum_ext. intros. apply Im_csum. Qed.

Lemma rsum2_ext ny nx f g : same ny nx f g -> rsum2 ny nx f = rsum2 ny nx g.
Proof. intros E. apply rsum_ext. intros y Hy. apply rsum_ext. intros x Hx. apply E. split; assumption. Qed.
Lemma rsum2_plus ny nx f g : rsum2 ny nx (fun y x => f y x + g y x) = rsum2 ny nx f + rsum2 ny nx g.
Proof. unfold rsum2. rewrite <- rsum_plus. apply rsum_ext. intros. apply rsum_plus. Qed.
Lemma rsum2_scal_l ny nx c f : rsum2 ny nx (fun y x => c * f y x) = c * rsum2 ny nx f.
Proof. unfold rsum2. rewrite <- rsum_scal_l. apply rsum_ext. intros. apply rsum_scal_l. Qed.
Lemma rsum2_scal_r ny nx c f : rsum2 ny nx (fun y x => f y x * c) = rsum2 ny nx f * c.
Proof. unfold rsum2. rewrite <- rsum_scal_r. apply rsum_ext. intros. apply rsum_scal_r. Qed.
Lemma rsum_pos n f : (forall j, (0 <= j < n)%Z -> 0 <= f j) -> 0 <= rsum n f.
Proof.
  intros H. unfold rsum. assert (K : forall m, (m <= Z.to_nat n)%nat -> 0 <= rsumn m f); [|apply K; lia].
  induction m as [|m IH]; intros Hm; cbn [rsumn]; [lra|]. specialize (IH ltac:(lia)). specialize (H (Z.of_nat m) ltac:(lia)). lra.
Qed.
Lemma rsum2_pos ny nx f : (forall y x, in_map ny nx y x -> 0 <= f y x) -> 0 <= rsum2 ny nx f.
Proof. intros H. apply rsum_pos. intros y Hy. apply rsum_pos. intros x Hx. apply H. split; assumption. Qed.
Lemma rsum2_single ny nx y0 x0 f : in_map ny nx y0 x0 -> rsum2 ny nx (fun y x => if ((y =? y0) && (x =? x0))%Z%bool then f y x else 0) = f y0 x0.
Proof.
  intros [Hy Hx]. unfold rsum2. rewrite <- (rsum_single nx x0 (f y0) Hx).
  rewrite <- (rsum_single ny y0 (fun y => rsum nx (fun j => if (j =? x0)%Z then f y j else 0)) Hy). apply rsum_ext. intros y _.
  destruct (Z.eqb_spec y y0) as [->|]; cbn [andb]; [reflexivity|]. apply rsum_0.
Qed.

Section Fix.
Variables ny nx : Z.
Hypothesis Hy : (0 < ny)%Z.
Hypothesis Hx : (0 < nx)%Z.

(* the transform at any whole numbers *)
Definition D (s : Z) (a : cimage) (y x : Z) : C := csum2 ny nx (fun j i => a j i * (w ny (s * (j * y)) * w nx (s * (i * x))))%C.
Lemma dft_D s a y x : f_at (dft_ax s AXY (FA ny nx a)) y x = D s a y x.
Proof.
  unfold dft_ax, dft_y, dft_x, D, csum2. cbn [f_at f_ny f_nx]. unfold dft. apply csum_ext. intros j _. rewrite <- csum_scal_r. apply csum_ext. intros i _. ring.
Qed.
Lemma D_ext s a b y x : (forall j i, in_map ny nx j i -> a j i = b j i) -> D s a y x = D s b y x.
Proof. intros E. apply csum2_ext. intros j i H. rewrite E by assumption. reflexivity. Qed.
Lemma D_scal s c a y x : D s (fun j i => c * a j i)%C y x = (c * D s a y x)%C.
Proof. unfold D. rewrite <- csum2_scal_l. apply csum2_ext. intros. ring. Qed.
Lemma D_inv s a y x : (s = 1 \/ s = -1)%Z -> in_map ny nx y x -> D s (D (- s) a) y x = (RtoC (IZR (ny * nx)) * a y x)%C.
Proof.
  intros Hs [H1 H2]. pose proof (dft_ax_inv s AXY (FA ny nx a) Hs (conj Hy Hx)) as (_ & _ & E). specialize (E y x).
  rewrite dft_ax_ny, dft_ax_nx, dft_ax_ny, dft_ax_nx in E. specialize (E H1 H2). cbn [amap f_at nprod f_ny f_nx] in E.
  rewrite Cmult_comm, <- E, <- dft_D. cbn [dft_ax dft_y dft_x f_at f_ny f_nx]. apply dft_ext. intros j Hj. apply dft_ext. intros i Hi.
  symmetry. apply dft_D.
Qed.
Lemma w_mul_mod n s j y : (0 < n)%Z -> w n (s * (j * (y mod n))) = w n (s * (j * y)).
Proof. intros Hn. apply w_eqm; [exact Hn|]. rewrite (Z.mul_assoc s j y), Z.mul_assoc, Z.mul_mod_idemp_r by lia. reflexivity. Qed.
Lemma D_mod s a y x : D s a (y mod ny) (x mod nx) = D s a y x.
Proof. unfold D. apply csum2_ext. intros j i _. rewrite !w_mul_mod by assumption. reflexivity. Qed.
Lemma conv B a y x : D 1 (fun k l => B k l * D (-1) a k l)%C y x = csum2 ny nx (fun j i => a j i * D 1 B (y - j) (x - i))%C.
Proof.
  unfold D.
  transitivity (csum2 ny nx (fun k l => csum2 ny nx (fun j i => B k l * (a j i * (w ny (-1 * (j * k)) * w nx (-1 * (i * l)))) * (w ny (1 * (k * y)) * w nx (1 * (l * x))))%C)).
  - apply csum2_ext. intros k l _. rewrite <- csum2_scal_l, <- csum2_scal_r. reflexivity.
  - rewrite csum2_comm. apply csum2_ext. intros j i _. rewrite <- csum2_scal_l. apply csum2_ext. intros k l _.
    replace (1 * (k * (y - j)))%Z with (-1 * (j * k) + 1 * (k * y))%Z by ring.
    replace (1 * (l * (x - i)))%Z with (-1 * (i * l) + 1 * (l * x))%Z by ring. rewrite !w_plus by assumption. ring.
Qed.

(* even real profiles have real even transforms *)
Lemma csum_mod n (f : Z -> Z -> C) : (0 < n)%Z -> (forall a k q, f a (k + q * n)%Z = f a k) ->
  csum n (fun k => f k k) = csum n (fun k => f ((- k) mod n)%Z (- k)%Z).
Proof.
  intros Hn P. transitivity (csum n (fun k => f (k mod n)%Z k)).
  - apply csum_ext. intros k Hk. rewrite Z.mod_small by lia. reflexivity.
  - symmetry. apply (csum_neg n (fun k => f (k mod n)%Z k) Hn). intros j. replace (j + n)%Z with (j + 1 * n)%Z by ring.
    rewrite P, Z.mod_add by lia. reflexivity.
Qed.
Lemma w_per n s j q y : (0 < n)%Z -> w n (s * ((j + q * n) * y)) = w n (s * (j * y)).
Proof. intros Hn. apply w_eqm; [exact Hn|]. replace (s * ((j + q * n) * y))%Z with (s * (j * y) + (s * q * y) * n)%Z by ring. apply Z.mod_add. lia. Qed.
Lemma D_neg B s y x : even_profile ny nx B -> D s (cx B) y x = D (- s) (cx B) y x.
Proof.
  intros E. unfold D, csum2.
  transitivity (csum ny (fun j => csum nx (fun i => cx B ((- j) mod ny) ((- i) mod nx) * (w ny (s * (- j * y)) * w nx (s * (- i * x))))%C)).
  - rewrite (csum_mod ny (fun a k => csum nx (fun i => cx B a i * (w ny (s * (k * y)) * w nx (s * (i * x))))%C) Hy).
    + apply csum_ext. intros j _.
      apply (csum_mod nx (fun b i => cx B ((- j) mod ny) b * (w ny (s * (- j * y)) * w nx (s * (i * x))))%C Hx).
      intros b i q. rewrite w_per by exact Hx. reflexivity.
    + intros a k q. apply csum_ext. intros i _. rewrite w_per by exact Hy. reflexivity.
  - apply csum_ext. intros j Hj. apply csum_ext. intros i Hi. unfold cx. rewrite E by (split; assumption).
    replace (s * (- j * y))%Z with (- s * (j * y))%Z by ring. replace (s * (- i * x))%Z with (- s * (i * x))%Z by ring. reflexivity.
Qed.
Lemma D_opp a s y x : D s a (- y) (- x) = D (- s) a y x.
Proof. unfold D. apply csum2_ext. intros j i _. replace (s * (j * - y))%Z with (- s * (j * y))%Z by ring. replace (s * (i * - x))%Z with (- s * (i * x))%Z by ring. reflexivity. Qed.
Lemma D_conj_real m s y x : Cconj (D s (cx m) y x) = D (- s) (cx m) y x.
Proof.
  unfold D. rewrite csum2_conj. apply csum2_ext. intros j i _. rewrite !Cmult_conj. unfold cx. rewrite Cconj_RtoC, <- !w_opp by assumption.
  replace (- (s * (j * y)))%Z with (- s * (j * y))%Z by ring. replace (- (s * (i * x)))%Z with (- s * (i * x))%Z by ring. reflexivity.
Qed.
Lemma ww_angle k l y x : (w ny (k * y) * w nx (l * x))%C = cis (angle ny nx k l y x).
Proof. unfold w. rewrite <- cis_plus. f_equal. unfold angle. rewrite !mult_IZR. field. split; apply IZRn0; assumption. Qed.

Variable area : R.
Hypothesis Ha : 0 < area.
Notation prof := (profile ny nx area).
Lemma D_prof B y x : even_profile ny nx B -> D 1 (cx B) y x = RtoC (area * prof B y x).
Proof.
  intros E. rewrite <- (real_re (D 1 (cx B) y x)).
  - f_equal. unfold D, profile. rewrite Re_csum2. rewrite <- Rmult_assoc, Rinv_r, Rmult_1_l by lra. apply rsum2_ext. intros k l _.
    rewrite !Z.mul_1_l, ww_angle. unfold cx, cis. cbn. ring.
  - apply real_conj. rewrite D_conj_real. symmetry. apply D_neg, E.
Qed.
Lemma prof_even B y x : even_profile ny nx B -> prof B (- y) (- x) = prof B y x.
Proof.
  intros E. assert (K : RtoC (area * prof B (- y) (- x)) = RtoC (area * prof B y x)).
  { rewrite <- !D_prof by assumption. rewrite D_opp. symmetry. apply D_neg, E. }
  apply RtoC_inj in K. apply (Rmult_eq_reg_l area); lra.
Qed.
Lemma prof_mod B y x : even_profile ny nx B -> prof B (y mod ny) (x mod nx) = prof B y x.
Proof.
  intros E. assert (K : RtoC (area * prof B (y mod ny) (x mod nx)) = RtoC (area * prof B y x)).
  { rewrite <- !D_prof by assumption. apply D_mod. }
  apply RtoC_inj in K. apply (Rmult_eq_reg_l area); lra.
Qed.
Lemma prof_ext B B' y x : same ny nx B B' -> prof B y x = prof B' y x.
Proof. intros E. unfold profile. f_equal. apply rsum2_ext. intros k l H. rewrite E by assumption. reflexivity. Qed.
Lemma prof_scal c B y x : prof (iscal c B) y x = c * prof B y x.
Proof. unfold profile, iscal. rewrite (rsum2_ext _ _ _ (fun k l => c * (B k l * cos (angle ny nx k l y x)))) by (intros ? ? _; ring). rewrite rsum2_scal_l. ring. Qed.
Lemma even_mul A B : even_profile ny nx A -> even_profile ny nx B -> even_profile ny nx (imul A B).
Proof. intros E F k l H. unfold imul. rewrite E, F by assumption. reflexivity. Qed.
Lemma even_scal c B : even_profile ny nx B -> even_profile ny nx (iscal c B).
Proof. intros E k l H. unfold iscal. rewrite E by assumption. reflexivity. Qed.
Lemma even_sqrt B : even_profile ny nx B -> even_profile ny nx (isqrt B).
Proof. intros E k l H. unfold isqrt. rewrite E by assumption. reflexivity. Qed.
Lemma even_pow B n : even_profile ny nx B -> even_profile ny nx (ipow B n).
Proof. intros E k l H. unfold ipow. rewrite E by assumption. reflexivity. Qed.
Lemma even_const c : even_profile ny nx (fun _ _ => c).
Proof. intros k l _. reflexivity. Qed.

(* a map convolved with a profile *)
Definition cv (B a : image) (y x : Z) : R := rsum2 ny nx (fun j i => a j i * prof B (y - j) (x - i)).
Lemma cv_D B a y x : even_profile ny nx B -> D 1 (fun k l => cx B k l * D (-1) (cx a) k l)%C y x = RtoC (area * cv B a y x).
Proof.
  intros E. rewrite conv. rewrite (csum2_ext _ _ _ (fun j i => cx (fun j i => area * (a j i * prof B (y - j) (x - i))) j i)).
  - rewrite csum2_R. f_equal. unfold cv. rewrite rsum2_scal_l. reflexivity.
  - intros j i _. rewrite D_prof by assumption. unfold cx. rewrite <- RtoC_mult. f_equal. ring.
Qed.
Lemma cv_ext B a a' y x : same ny nx a a' -> cv B a y x = cv B a' y x.
Proof. intros E. apply rsum2_ext. intros j i H. rewrite E by assumption. reflexivity. Qed.
Lemma cv_extB B B' a y x : same ny nx B B' -> cv B a y x = cv B' a y x.
Proof. intros E. apply rsum2_ext. intros j i H. rewrite (prof_ext B B') by assumption. reflexivity. Qed.
Lemma cv_scal c B a y x : cv B (iscal c a) y x = c * cv B a y x.
Proof. unfold cv, iscal. rewrite <- rsum2_scal_l. apply rsum2_ext. intros j i _. ring. Qed.

(* a beam convolved with a beam *)
Definition pix : R := area / IZR (ny * nx).
Lemma npix_pos : 0 < IZR (ny * nx).
Proof. apply IZR_lt. nia. Qed.
Lemma pix_pos : 0 < pix.
Proof. unfold pix. apply Rdiv_lt_0_compat; [exact Ha|apply npix_pos]. Qed.
Lemma D_shift A j0 i0 y x : D 1 (cx A) (y - j0) (x - i0) = D 1 (fun k l => cx A k l * (w ny (- (k * j0)) * w nx (- (l * i0))))%C y x.
Proof.
  unfold D. apply csum2_ext. intros k l _.
  replace (1 * (k * (y - j0)))%Z with (- (k * j0) + 1 * (k * y))%Z by ring. replace (1 * (l * (x - i0)))%Z with (- (l * i0) + 1 * (l * x))%Z by ring.
  rewrite !w_plus by assumption. ring.
Qed.
Lemma beam_beam A B j0 i0 y x : even_profile ny nx A -> even_profile ny nx B ->
  cv B (fun j i => prof A (j - j0) (i - i0)) y x = / pix * prof (imul A B) (y - j0) (x - i0).
Proof.
  intros EA EB. pose proof npix_pos as Np. pose proof pix_pos as Pp.
  assert (K : RtoC (area * cv B (fun j i => area * prof A (j - j0) (i - i0)) y x) = RtoC (IZR (ny * nx) * (area * prof (imul A B) (y - j0) (x - i0)))).
  { rewrite <- cv_D by assumption. rewrite RtoC_mult, <- D_prof by (apply even_mul; assumption).
    rewrite (D_shift (imul A B)), <- D_scal. apply D_ext. intros k l H.
    rewrite (D_ext (-1) _ (D (- (-1)) (fun k l => cx A k l * (w ny (- (k * j0)) * w nx (- (l * i0))))%C)).
    - rewrite D_inv by (try exact H; right; reflexivity). unfold cx, imul. rewrite RtoC_mult. ring.
    - intros j i _. unfold cx at 1. change (- (-1))%Z with 1%Z. rewrite <- D_shift. rewrite D_prof by assumption. reflexivity. }
  apply RtoC_inj in K. change (fun j i : Z => area * prof A (j - j0) (i - i0)) with (iscal area (fun j i => prof A (j - j0) (i - i0))) in K. rewrite cv_scal in K.
  apply (Rmult_eq_reg_l (area * area)); [|nra]. rewrite Rmult_assoc, K. unfold pix. field. lra.
Qed.
Lemma cv_cv A B a y x : even_profile ny nx A -> even_profile ny nx B -> cv B (cv A a) y x = / pix * cv (imul A B) a y x.
Proof.
  intros EA EB. unfold cv at 1. rewrite (rsum2_ext _ _ _ (fun j i => rsum2 ny nx (fun m n => a m n * (prof A (j - m) (i - n) * prof B (y - j) (x - i))))).
  - assert (Sw : forall f : Z -> Z -> Z -> Z -> R, rsum2 ny nx (fun y x => rsum2 ny nx (f y x)) = rsum2 ny nx (fun k l => rsum2 ny nx (fun y x => f y x k l))).
    { intros f. apply RtoC_inj. rewrite <- !csum2_R.
      rewrite (csum2_ext _ _ _ (fun y x => csum2 ny nx (cx (f y x)))) by (intros; symmetry; apply csum2_R).
      rewrite (csum2_ext _ _ (cx (fun k l => rsum2 ny nx (fun y0 x0 => f y0 x0 k l))) (fun k l => csum2 ny nx (cx (fun y x => f y x k l)))) by (intros; symmetry; apply csum2_R).
      apply csum2_comm. }
    rewrite Sw. unfold cv. rewrite <- rsum2_scal_l. apply rsum2_ext. intros m n _. rewrite rsum2_scal_l. fold (cv B (fun j i => prof A (j - m) (i - n)) y x).
    rewrite beam_beam by assumption. ring.
  - intros j i _. unfold cv. rewrite <- rsum2_scal_r. apply rsum2_ext. intros m n _. ring.
Qed.
Lemma prof_0 B : prof B 0 0 = / area * rsum2 ny nx B.
Proof. unfold profile. f_equal. apply rsum2_ext. intros k l _. unfold angle. replace (2 * PI * _) with 0 by (unfold Rdiv; ring). rewrite cos_0. ring. Qed.
Lemma cv_const c a y x : in_map ny nx y x -> cv (fun _ _ => c) a y x = c / pix * a y x.
Proof.
  intros H. pose proof npix_pos as Np. assert (K : RtoC (area * cv (fun _ _ => c) a y x) = RtoC (IZR (ny * nx) * (c * a y x))).
  { rewrite <- cv_D by apply even_const. unfold cx at 1. rewrite D_scal.
    rewrite (D_ext 1 _ (D (- (1)) (cx a))) by reflexivity. rewrite D_inv by (try exact H; left; reflexivity). unfold cx. rewrite !RtoC_mult. ring. }
  apply RtoC_inj in K. apply (Rmult_eq_reg_l area); [|lra]. rewrite K. unfold pix. field. split; lra.
Qed.
(* the transform of a real map, squared in real space, and convolved *)
Lemma conv_map g a y x : (forall y x, g (y mod ny)%Z (x mod nx)%Z = g y x) ->
  D 1 (fun k l => D (-1) (cx g) k l * D (-1) (cx a) k l)%C y x = RtoC (IZR (ny * nx) * rsum2 ny nx (fun j i => a j i * g (y - j)%Z (x - i)%Z)).
Proof.
  intros P. rewrite (conv (D (-1) (cx g)) (cx a)). rewrite <- rsum2_scal_l, <- csum2_R. apply csum2_ext. intros j i _.
  rewrite <- D_mod. rewrite (D_ext 1 _ (D (- (1)) (cx g))) by reflexivity. rewrite D_inv; [|left; reflexivity|split; apply Z.mod_pos_bound; assumption].
  unfold cx. rewrite P, <- !RtoC_mult. f_equal. ring.
Qed.
End Fix.
