(* Evaluating a Fourier series between the pixels. *)
From Coq Require Import Reals Lra Lia.
From Coquelicot Require Import Complex.
From Verif Require Import Base ArrModel PixModel FftSpec FftModel FftLemmas FftLemmas2 FftLemmas3 NufSpec NufModel NufLemmas0.
Ltac Zify.zify_post_hook ::= idtac.
Open Scope R_scope. Open Scope C_scope.

Lemma kern_phase ny nx q i j : (0 < ny)%Z -> (0 < nx)%Z -> kern false ny nx ny nx q i j = phase ny (- fst q) false i * phase nx (- snd q) false j.
Proof.
  intros Hy Hx. unfold kern, phase, sg, fftfreq, sfreq. rewrite <- cis_plus. f_equal. field. split; apply IZRn0; assumption.
Qed.
Lemma dft_zero s n a : dft s n a 0 = csum n a.
Proof. unfold dft. apply csum_ext. intros j _. rewrite Z.mul_0_r, Z.mul_0_r. unfold w. replace (2 * PI * 0 / IZR n)%R with 0%R by (unfold Rdiv; ring). rewrite cis_0. ring. Qed.
(* what interpolating gives at a position *)
Lemma interp_sh1 a q : nonempty a ->
  csum2 (f_ny a) (f_nx a) (fun i j => f_at (dft_ax (-1) AXY a) i j * kern false (f_ny a) (f_nx a) (f_ny a) (f_nx a) q i j) / RtoC (IZR (f_ny a * f_nx a)) =
  sh1 (f_ny a) (phase (f_ny a) (- fst q) false) (fun j => sh1 (f_nx a) (phase (f_nx a) (- snd q) false) (f_at a j) 0) 0.
Proof.
  intros [Hy Hx]. pose proof (filt_at AXY (phase (f_ny a) (- fst q) false) (phase (f_nx a) (- snd q) false) a 0 0 (conj Hy Hx) ltac:(lia) ltac:(lia)) as F.
  cbn [has_y has_x pick] in F. rewrite <- F. unfold filt. cbn [scale amap f_at nprod]. unfold Cdiv. f_equal. cbn [dft_ax dft_y dft_x mulp f_at f_ny f_nx]. rewrite dft_zero. unfold csum2. apply csum_ext. intros i Hi. rewrite dft_zero. apply csum_ext. intros j Hj.
  rewrite kern_phase by assumption. ring.
Qed.
Lemma interpol_at cplx a pos : nonempty a -> exists out, interpol_nufft false true cplx None a pos = Some out /\
  out = map (fun q => re_if cplx (sh1 (f_ny a) (phase (f_ny a) (- fst q) false) (fun j => sh1 (f_nx a) (phase (f_nx a) (- snd q) false) (f_at a j) 0) 0)) pos.
Proof.
  intros H. unfold interpol_nufft, u2nu. rewrite fft_some by exact H. cbn [bind periods]. eexists. split; [reflexivity|]. unfold ducc_u2nu. rewrite !map_map. apply map_ext. intros q.
  rewrite <- (interp_sh1 a q H). rewrite dft_ax_ny, dft_ax_nx. destruct cplx; [reflexivity|]. cbn [re_if].
  set (z := csum2 _ _ _). destruct H as [Hy Hx]. assert (N : IZR (f_ny a * f_nx a) <> 0%R) by (apply IZRn0; nia).
  apply C_eq; unfold Cdiv; rewrite <- RtoC_inv by exact N; unfold Re, Im, Cmult, RtoC; cbn; ring.
Qed.
Lemma sh1_move n s a y : (0 < n)%Z -> (0 <= y < n)%Z -> sh1 n (phase n s false) a y = sh1 n (phase n (s - IZR y) false) a 0.
Proof.
  intros Hn Hy. unfold sh1. f_equal. unfold dft at 1 3. apply csum_ext. intros k Hk. replace (s - IZR y)%R with (s + - IZR y)%R by ring. rewrite phase_plus. rewrite <- opp_IZR. rewrite (phase_int n (- y) k) by assumption.
  replace (- - y * k)%Z with (1 * (k * y))%Z by lia. rewrite !Z.mul_0_r. rewrite (w_0 n Hn). ring.
Qed.

(* modes *)
Lemma cis_neg_sg f t : cis (sg (negb f) * t)%R = Cconj (cis (sg f * t)%R).
Proof. rewrite <- cis_opp. f_equal. destruct f; cbn; ring. Qed.
Lemma kern_conj f py px ny nx q i j : kern (negb f) py px ny nx q i j = Cconj (kern f py px ny nx q i j).
Proof. apply cis_neg_sg. Qed.
Lemma kern_period f py px ny nx q k l i j : (0 < py)%Z -> (0 < px)%Z ->
  kern f py px ny nx ((fst q + IZR (k * py))%R, (snd q + IZR (l * px))%R) i j = kern f py px ny nx q i j.
Proof.
  intros Hy Hx. unfold kern. cbn [fst snd]. set (s := (if f then -1 else 1)%Z). assert (Es : sg f = IZR s) by (destruct f; reflexivity).
  rewrite <- (cis_period (sg f * (2 * PI * (IZR (sfreq ny i) * fst q / IZR py + IZR (sfreq nx j) * snd q / IZR px))) (s * (sfreq ny i * k + sfreq nx j * l))). f_equal.
  rewrite Es, !mult_IZR, plus_IZR, !mult_IZR. field. split; apply IZRn0; assumption.
Qed.
Lemma csum2_plus ny nx f g : csum2 ny nx (fun i j => f i j + g i j) = csum2 ny nx f + csum2 ny nx g.
Proof. unfold csum2. rewrite <- csum_plus. apply csum_ext. intros i _. apply csum_plus. Qed.
Lemma csum2_zero ny nx : csum2 ny nx (fun _ _ => RtoC 0) = 0.
Proof. unfold csum2. rewrite (csum_ext ny _ (fun _ => RtoC 0)) by (intros; apply csum_0). apply csum_0. Qed.
Lemma csum2_extn ny nx f g : (forall i j, (0 <= i < ny)%Z -> (0 <= j < nx)%Z -> f i j = g i j) -> csum2 ny nx f = csum2 ny nx g.
Proof. intros H. unfold csum2. apply csum_ext. intros i Hi. apply csum_ext. intros j Hj. apply H; assumption. Qed.
Lemma csum2_single ny nx a b f : (0 <= a < ny)%Z -> (0 <= b < nx)%Z -> csum2 ny nx (fun i j => if ((i =? a) && (j =? b))%Z then f i j else 0) = f a b.
Proof.
  intros Ha Hb. unfold csum2. rewrite (csum_ext ny _ (fun i => if (i =? a)%Z then f i b else 0)); [apply (csum_single ny a (fun i => f i b)), Ha|].
  intros i _. destruct (i =? a)%Z; cbn [andb]; [apply (csum_single nx b (fun j => f i j)), Hb|apply csum_0].
Qed.
Lemma coefs_eval f py px ny nx ms g q : (0 < ny)%Z -> (0 < nx)%Z -> band ny nx ms ->
  (forall i j, (0 <= i < ny)%Z -> (0 <= j < nx)%Z -> g i j = lsumc (map (fun m : C * Z * Z => let '(c, ky, kx) := m in if (i =? ky mod ny)%Z && (j =? kx mod nx)%Z then c else 0) ms)) ->
  csum2 ny nx (fun i j => g i j * kern f py px ny nx q i j) = trig ms (sg f * (fst q / IZR py)) (sg f * (snd q / IZR px)).
Proof.
  intros Hy Hx. revert g. induction ms as [|[[c ky] kx] ms IH]; intros g HB HG.
  - rewrite (csum2_extn ny nx _ (fun _ _ => 0)); [apply csum2_zero|]. intros i j Hi Hj. rewrite HG by assumption. cbn. ring.
  - pose proof (Forall_inv HB) as [By Bx]. pose proof (Forall_inv_tail HB) as HB'. rewrite trig_cons.
    set (g' := fun i j => lsumc (map (fun m : C * Z * Z => let '(c, ky, kx) := m in if (i =? ky mod ny)%Z && (j =? kx mod nx)%Z then c else 0) ms)).
    rewrite <- (IH g' HB' (fun i j _ _ => eq_refl)).
    rewrite (csum2_extn ny nx _ (fun i j => (if ((i =? ky mod ny) && (j =? kx mod nx))%Z then c * kern f py px ny nx q i j else 0) + g' i j * kern f py px ny nx q i j)).
    + rewrite csum2_plus. f_equal. rewrite (csum2_single ny nx (ky mod ny) (kx mod nx) (fun i j => c * kern f py px ny nx q i j)) by (apply Z.mod_pos_bound; assumption). f_equal. unfold kern, sfreq. rewrite !inside_freq by assumption. f_equal. unfold Rdiv. ring.
    + intros i j Hi Hj. rewrite HG by assumption. cbn [map lsumc]. fold (g' i j). destruct (_ && _); ring.
Qed.

(* sums over pixels and positions *)
Lemma csum_cs n f : csum n f = cs (zrange 0 n) f.
Proof.
  destruct (Z_le_dec n 0) as [L|L]; [rewrite zrange_empty by lia; unfold csum; replace (Z.to_nat n) with O by lia; reflexivity|].
  replace n with (Z.of_nat (Z.to_nat n)) by lia. generalize (Z.to_nat n) as k. clear L n. induction k as [|k IH]; [reflexivity|].
  replace (Z.of_nat (S k)) with (Z.of_nat k + 1)%Z by lia. rewrite csum_succ by lia. rewrite zrange_snoc by lia. rewrite cs_app, <- IH. cbn [cs map lsumc]. ring.
Qed.
Lemma csum2_cs ny nx f : csum2 ny nx f = cs (pixels ny nx) (fun p => f (fst p) (snd p)).
Proof.
  unfold csum2, pixels. rewrite csum_cs. generalize (zrange 0 ny) as l. induction l as [|y l IH]; [reflexivity|]. cbn [list_prod]. rewrite cs_app, cs_map, cs_cons, IH. cbn [fst snd]. rewrite csum_cs. reflexivity.
Qed.
Definition lget {T} (d : T) (l : list T) (p : Z) : T := match zget l p with Some x => x | None => d end.
Lemma list_lget {T} (d : T) l : l = map (lget d l) (zrange 0 (zlen l)).
Proof.
  apply zget_ext. intros k. rewrite zget_map. pose proof (zlen_nonneg l). destruct (Z_lt_dec k 0) as [L|L]; [rewrite !zget_out by lia; reflexivity|].
  destruct (Z_lt_dec k (zlen l)) as [L'|L']; [|rewrite (zget_out l), (zget_out (zrange _ _)) by (rewrite ?zrange_zlen; lia); reflexivity].
  rewrite zget_zrange by lia. cbn. unfold lget. replace (0 + k)%Z with k by lia. destruct (zget_in_range l k ltac:(lia)) as [x ->]. reflexivity.
Qed.
Lemma cs_lget {T} (d : T) l f : cs l f = cs (zrange 0 (zlen l)) (fun p => f (lget d l p)).
Proof. rewrite (list_lget d l) at 1. apply cs_map. Qed.
Lemma combine_map_same {S T V} (f : S -> T) (g : S -> V) l : combine (map f l) (map g l) = map (fun x => (f x, g x)) l.
Proof. induction l as [|x l IH]; [reflexivity|]. cbn. rewrite IH. reflexivity. Qed.
Lemma combine_lget {S T} (d : S) (e : T) l m : zlen l = zlen m -> combine l m = map (fun p => (lget d l p, lget e m p)) (zrange 0 (zlen l)).
Proof. intros H. rewrite (list_lget d l), (list_lget e m) at 1. rewrite <- H. apply combine_map_same. Qed.
Lemma of_list_lget l : of_list l = lget (RtoC 0) l. Proof. reflexivity. Qed.
Lemma to_of_list l : to_list (zlen l) (of_list l) = l.
Proof. symmetry. apply list_lget. Qed.
Lemma of_to_list n u i : (0 <= i < n)%Z -> of_list (to_list n u) i = u i.
Proof. intros H. unfold of_list, to_list. rewrite zget_map, zget_zrange by lia. cbn. f_equal. Qed.
Lemma zlen_to_list n u : (0 <= n)%Z -> zlen (to_list n u) = n.
Proof. intros. unfold to_list. rewrite zlen_map, zrange_zlen. lia. Qed.
