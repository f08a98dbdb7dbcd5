(* C81: cosine, sine and Chebyshev transforms. *)
From Coq Require Import Reals Lra Lia.
From Coquelicot Require Import Complex.
From Verif Require Import Base ArrModel PixModel FftSpec FftModel FftLemmas FftLemmas2 DctSpec DctModel DctLemmas DctLemmas2 DctLemmas3.
Ltac Zify.zify_post_hook ::= idtac.
Open Scope R_scope.

(* the type-I cosine transform needs two samples along each axis it transforms *)
Definition long_for (t : name) (ax : axes) (a : farr R) : Prop :=
  t = DCT_I -> (has_y ax = true -> (1 < f_ny a)%Z) /\ (has_x ax = true -> (1 < f_nx a)%Z).
Lemma long_ok t ax a : nonempty a -> long_for t ax a -> ok_ax (dct_names t) ax a.
Proof. intros [H1 H2] L. unfold ok_ax, long_for in *. destruct t; cbn [dct_names long_enough] in *; (split; intros E; [exact H1 || apply L; auto|exact H2 || apply L; auto]). Qed.
Lemma norm_pos t ax a : nonempty a -> ok_ax t ax a -> (0 < idct_norm (dct_sizes (dct_inverses t)) ax a)%Z.
Proof.
  intros [H1 H2] [Ly Lx]. destruct t, ax; cbn [dct_inverses dct_sizes idct_norm has_y has_x long_enough] in *; try specialize (Ly eq_refl); try specialize (Lx eq_refl); try lia; apply Z.mul_pos_pos; lia.
Qed.

(* all eight types, over one axis or both: idct undoes dct *)
Theorem C81_inverse : forall t ax a, nonempty a -> long_for t ax a -> exists f, dct t ax a = Some f /\ f_ny f = f_ny a /\ f_nx f = f_nx a /\ oaeq (idct true t ax f) a.
Proof.
  intros t ax a H L. pose proof (long_ok t ax a H L) as O. unfold dct, idct. rewrite asize_pos by exact H. rewrite (proj2 (ok_ok (dct_names t) ax a H) O).
  eexists. split; [reflexivity|]. rewrite r2r_ax_ny, r2r_ax_nx. do 2 (split; [reflexivity|]).
  set (b := r2r_ax (dct_names t) ax a). assert (Hb : nonempty b) by (split; unfold b; rewrite ?r2r_ax_ny, ?r2r_ax_nx; apply H).
  assert (Ob : ok_ax (dct_inverses (dct_names t)) ax b) by (unfold ok_ax, b; rewrite r2r_ax_ny, r2r_ax_nx; split; intros E; apply long_inv; apply O; exact E).
  rewrite asize_pos by exact Hb. rewrite (proj2 (ok_ok _ ax b Hb) Ob). cbn [oaeq].
  rewrite (idct_norm_shape _ ax (r2r_ax (dct_inverses (dct_names t)) ax b) a) by (unfold b; rewrite ?r2r_ax_ny, ?r2r_ax_nx; reflexivity).
  eapply aeq_trans; [apply rscale_ext, r2r_ax_inv, O|]. eapply aeq_trans; [apply rscale_scale|]. apply rscale_1. apply Rinv_r, IZRn0, norm_pos; assumption.
Qed.
(* without normalize it gives the array times 2(n+off) per axis, off being -1 for DCT-I, 1 for DST-I and 0 otherwise *)
Theorem C81_unnormalized : forall t ax a f, nonempty a -> long_for t ax a -> dct t ax a = Some f ->
  oaeq (idct false t ax f) (let off := match t with DCT_I => -1 | DST_I => 1 | _ => 0 end%Z in
    amap (fun z => z * IZR ((if has_y ax then 2 * (f_ny a + off) else 1) * (if has_x ax then 2 * (f_nx a + off) else 1))) a).
Proof.
  intros t ax a f H L E. pose proof (long_ok t ax a H L) as O. unfold dct, idct in *. rewrite asize_pos in E by exact H. rewrite (proj2 (ok_ok (dct_names t) ax a H) O) in E. apply Some_inj in E. subst f.
  set (b := r2r_ax (dct_names t) ax a). assert (Hb : nonempty b) by (split; unfold b; rewrite ?r2r_ax_ny, ?r2r_ax_nx; apply H).
  assert (Ob : ok_ax (dct_inverses (dct_names t)) ax b) by (unfold ok_ax, b; rewrite r2r_ax_ny, r2r_ax_nx; split; intros E; apply long_inv; apply O; exact E).
  rewrite asize_pos by exact Hb. rewrite (proj2 (ok_ok _ ax b Hb) Ob). cbn [oaeq]. eapply aeq_trans; [apply r2r_ax_inv, O|]. cbv zeta.
  replace (idct_norm (dct_sizes (dct_inverses (dct_names t))) ax a) with ((if has_y ax then 2 * (f_ny a + match t with DCT_I => -1 | DST_I => 1 | _ => 0 end) else 1) * (if has_x ax then 2 * (f_nx a + match t with DCT_I => -1 | DST_I => 1 | _ => 0 end) else 1))%Z; [apply aeq_refl|].
  destruct ax; cbn [idct_norm has_y has_x]; destruct t; cbn [dct_names dct_inverses dct_sizes]; ring.
Qed.
(* DCT-I of a single sample along an axis is refused *)
(* which transform each name stands for, along the rows: the usual sums *)
Theorem C81_names : forall t a f y k, nonempty a -> long_for t AX a -> dct t AX a = Some f -> (0 <= y < f_ny a)%Z -> (0 <= k < f_nx a)%Z ->
  let n := f_nx a in let v j := f_at a y j in
  f_at f y k = match t with
  | DCT_I => v 0%Z + (if Z.even k then 1 else -1) * v (n - 1)%Z + 2 * rsum (n - 2) (fun j => v (j + 1)%Z * cos (PI * IZR ((j + 1) * k) / IZR (n - 1)))
  | DCT_II => 2 * rsum n (fun j => v j * cos (PI * IZR ((2 * j + 1) * k) / IZR (2 * n)))
  | DCT_III => v 0%Z + 2 * rsum (n - 1) (fun j => v (j + 1)%Z * cos (PI * IZR ((j + 1) * (2 * k + 1)) / IZR (2 * n)))
  | DCT_IV => 2 * rsum n (fun j => v j * cos (PI * IZR ((2 * j + 1) * (2 * k + 1)) / IZR (4 * n)))
  | DST_I => 2 * rsum n (fun j => v j * sin (PI * IZR ((j + 1) * (k + 1)) / IZR (n + 1)))
  | DST_II => 2 * rsum n (fun j => v j * sin (PI * IZR ((2 * j + 1) * (k + 1)) / IZR (2 * n)))
  | DST_III => (if Z.even k then 1 else -1) * v (n - 1)%Z + 2 * rsum (n - 1) (fun j => v j * sin (PI * IZR ((j + 1) * (2 * k + 1)) / IZR (2 * n)))
  | DST_IV => 2 * rsum n (fun j => v j * sin (PI * IZR ((2 * j + 1) * (2 * k + 1)) / IZR (4 * n)))
  end.
Proof.
  intros t a f y k H L E Hy Hk n v. pose proof (long_ok t AX a H L) as O. unfold dct in E. rewrite asize_pos in E by exact H. rewrite (proj2 (ok_ok (dct_names t) AX a H) O) in E. apply Some_inj in E. subst f. cbn [r2r_ax r2r_x f_at].
  assert (N : IZR n <> 0) by (apply IZRn0; apply H). fold n.
  assert (X : forall m (f g : Z -> R), (forall j, f j = g j) -> 2 * rsum m f = 2 * rsum m g) by (intros m f g E; f_equal; apply rsum_ext; intros j _; apply E).
  destruct t; cbn [dct_names r2r]; unfold parity, h2; try (apply (f_equal (Rplus _))); apply X; intros j; apply (f_equal (Rmult _)); (apply (f_equal cos) || apply (f_equal sin));
    rewrite ?mult_IZR; try (unfold Rdiv; ring); rewrite ?plus_IZR, ?mult_IZR; field; exact N.
Qed.
Theorem C81_too_short : forall ax a, (has_y ax = true /\ f_ny a = 1%Z) \/ (has_x ax = true /\ f_nx a = 1%Z) -> dct DCT_I ax a = None.
Proof.
  intros ax a H. unfold dct. destruct (asize a =? 0)%Z; [reflexivity|]. cbn [dct_names dct_ok]. destruct H as [[A B]|[A B]]; rewrite A, B; cbn [negb orb Z.ltb Z.compare Pos.compare Pos.compare_cont andb]; [reflexivity|]. rewrite andb_false_r. reflexivity.
Qed.

(* dct and idct of maps: not inverses. Whatever the normalization the map comes back times a factor *)
Lemma emap_core nrm p a (c d : R) : nonempty a -> (1 < f_ny a)%Z -> (1 < f_nx a)%Z -> dnorm nrm a (sqrt p) = c -> dnorm nrm a (/ sqrt p) = d ->
  oaeq (bind (emap_dct nrm false p a) (emap_idct nrm false p)) (rscale (c * d * IZR ((2 * f_ny a - 2) * (2 * f_nx a - 2))) a).
Proof.
  intros H Hy Hx Ec Ed. assert (O : ok_ax REDFT00 AXY a) by (split; intros _; cbn [long_enough]; assumption).
  unfold emap_dct, emap_idct, dct, idct. rewrite asize_pos by exact H. cbn [dct_names dct_inverses dct_sizes]. rewrite (proj2 (ok_ok REDFT00 AXY a H) O). cbn [bind].
  set (b := r2r_ax REDFT00 AXY a). assert (Hb : nonempty (rscale c b)) by (split; cbn [rscale amap f_ny f_nx]; unfold b; rewrite ?r2r_ax_ny, ?r2r_ax_nx; apply H).
  rewrite Ec. assert (Ob : ok_ax REDFT00 AXY (rscale c b)) by (split; intros _; cbn [long_enough rscale amap f_ny f_nx]; unfold b; rewrite ?r2r_ax_ny, ?r2r_ax_nx; assumption).
  rewrite asize_pos by exact Hb. rewrite (proj2 (ok_ok REDFT00 AXY _ Hb) Ob). cbn [bind oaeq].
  replace (dnorm nrm (rscale c b) (/ sqrt p)) with d by (rewrite <- Ed; reflexivity).
  assert (Ob' : ok_ax REDFT00 AXY b) by (split; intros _; cbn [long_enough]; unfold b; rewrite ?r2r_ax_ny, ?r2r_ax_nx; assumption).
  eapply aeq_trans; [apply rscale_ext, r2r_ax_scale, Ob'|]. eapply aeq_trans; [apply rscale_ext, rscale_ext; apply (r2r_ax_inv REDFT00 AXY a O)|]. cbn [dct_inverses dct_sizes idct_norm].
  eapply aeq_trans; [apply rscale_scale|]. eapply aeq_trans; [apply rscale_scale|].
  replace ((2 * f_ny a - 2) * (2 * f_nx a - 2))%Z with (2 * (f_ny a + -1) * (2 * (f_nx a + -1)))%Z by ring. rewrite (Rmult_comm (c * d)). apply aeq_refl.
Qed.
Theorem C81_map_partial : forall nrm p a, (1 < f_ny a)%Z -> (1 < f_nx a)%Z -> 0 < p ->
  oaeq (bind (emap_dct nrm false p a) (emap_idct nrm false p))
       (amap (fun z => z * (match nrm with NoNorm => IZR ((2 * f_ny a - 2) * (2 * f_nx a - 2)) | _ => IZR ((2 * f_ny a - 2) * (2 * f_nx a - 2)) / IZR ((2 * f_ny a - 1) * (2 * f_nx a - 1)) end)) a).
Proof.
  intros nrm p a Hy Hx Hp. assert (H : nonempty a) by (split; lia). pose proof (emap_core nrm p a _ _ H Hy Hx eq_refl eq_refl) as K. destruct (bind _ _) as [b|]; [|contradiction]. cbn [oaeq] in *.
  eapply aeq_trans; [exact K|]. unfold rscale. assert (P : 0 < IZR ((2 * f_ny a - 1) * (2 * f_nx a - 1))) by (apply IZR_lt, Z.mul_pos_pos; lia). pose proof (sqrt_lt_R0 _ P) as SP. pose proof (sqrt_lt_R0 _ Hp) as SQ.
  pose proof (sqrt_sqrt (IZR ((2 * f_ny a - 1) * (2 * f_nx a - 1))) ltac:(lra)) as SS.
  match goal with |- aeq (amap (fun z => z * ?u) a) (amap (fun z' => z' * ?v) a) => assert (E : u = v); [|rewrite E; apply aeq_refl] end.
  destruct nrm; cbn [dnorm]; [lra| |]; set (q := sqrt (IZR _)) in *; rewrite <- SS; field; lra.
Qed.
Theorem C81_map_refuted : forall p a y x, (1 < f_ny a)%Z -> (1 < f_nx a)%Z -> 0 < p -> (0 <= y < f_ny a)%Z -> (0 <= x < f_nx a)%Z -> f_at a y x <> 0 ->
  exists b, bind (emap_dct Pix false p a) (emap_idct Pix false p) = Some b /\ f_at b y x <> f_at a y x.
Proof.
  intros p a y x Hy Hx Hp Iy Ix N. pose proof (C81_map_partial Pix p a Hy Hx Hp) as K. destruct (bind _ _) as [b|]; [|contradiction]. exists b. split; [reflexivity|]. destruct K as (K1 & K2 & K3). rewrite K3 by (rewrite ?K1, ?K2; assumption).
  cbn [amap f_at]. assert (L : IZR ((2 * f_ny a - 2) * (2 * f_nx a - 2)) < IZR ((2 * f_ny a - 1) * (2 * f_nx a - 1))) by (apply IZR_lt; nia). assert (P : 0 < IZR ((2 * f_ny a - 1) * (2 * f_nx a - 1))) by (apply IZR_lt, Z.mul_pos_pos; lia).
  set (u := IZR ((2 * f_ny a - 2) * (2 * f_nx a - 2))) in *. set (v := IZR ((2 * f_ny a - 1) * (2 * f_nx a - 1))) in *. intros E.
  apply N. assert (E' : f_at a y x * (u - v) = 0) by (replace (f_at a y x * (u - v)) with ((f_at a y x * (u / v) - f_at a y x) * v) by (field; lra); rewrite E; ring).
  apply Rmult_integral in E'. lra.
Qed.
(* dct_adjoint is not the adjoint of dct *)
Definition e01 : farr R := FA 2 3 (fun y x => if ((y =? 0) && (x =? 1))%Z then 1 else 0).
Definition e00 : farr R := FA 2 3 (fun y x => if ((y =? 0) && (x =? 0))%Z then 1 else 0).
Lemma rsum_1 f : rsum 1 f = f 0%Z.
Proof. change (rsum 1 f) with (0 + f 0%Z). ring. Qed.
Lemma rsum_2 f : rsum 2 f = f 0%Z + f 1%Z.
Proof. change (rsum 2 f) with (0 + f 0%Z + f 1%Z). ring. Qed.
Lemma rsum_3 f : rsum 3 f = f 0%Z + f 1%Z + f 2%Z.
Proof. change (rsum 3 f) with (0 + f 0%Z + f 1%Z + f 2%Z). ring. Qed.
Lemma r2r_2 a k : r2r REDFT00 2 a k = a 0%Z + parity k * a 1%Z.
Proof. cbn [r2r]. change (rsum (2 - 2) ?f) with 0. change (2 - 1)%Z with 1%Z. ring. Qed.
Lemma r2r_3 a k : r2r REDFT00 3 a k = a 0%Z + parity k * a 2%Z + 2 * (a 1%Z * cos (PI * IZR k / 2)).
Proof. cbn [r2r]. change (3 - 2)%Z with 1%Z. change (3 - 1)%Z with 2%Z. rewrite rsum_1. change (0 + 1)%Z with 1%Z. rewrite Rmult_1_r. reflexivity. Qed.
Lemma cosk0 : cos (PI * IZR 0 / 2) = 1.
Proof. replace (PI * IZR 0 / 2) with 0 by (cbn; field). apply cos_0. Qed.
Theorem C81_adjoint_refuted : exists fa gb, emap_dct NoNorm false 1 e01 = Some fa /\ emap_idct NoNorm true 1 e00 = Some gb /\ rinner fa e00 = 2 /\ rinner e01 gb = 1.
Proof.
  do 2 eexists. split; [reflexivity|]. split; [reflexivity|]. unfold rinner. split.
  - cbn [rscale amap f_ny f_nx f_at r2r_ax r2r_y r2r_x e00 e01 dnorm]. rewrite rsum_2, !rsum_3. cbn [Z.eqb andb]. rewrite !r2r_2, !r2r_3. cbn [Z.eqb andb Pos.eqb]. rewrite cosk0. change (parity 0) with 1. ring.
  - cbn [rscale amap f_ny f_nx f_at r2r_ax r2r_y r2r_x e00 e01 dnorm dct_inverses dct_names]. rewrite rsum_2, !rsum_3. cbn [Z.eqb andb Pos.eqb]. rewrite !r2r_2, !r2r_3. cbn [Z.eqb andb Pos.eqb]. change (parity 0) with 1. ring.
Qed.

(* redft00, made from an rfft of the mirrored array, is the DCT of type I *)
Theorem C81_redft00 : forall n a, (1 < n)%Z -> exists b f, redft00 false n a = Some b /\ dct DCT_I AX (FA 1 n (fun _ x => a x)) = Some f /\ forall k, (0 <= k < n)%Z -> b k = f_at f 0%Z k.
Proof.
  intros n a Hn. unfold redft00, dct. replace (n <? 2)%Z with false by lia. rewrite asize_pos by (split; cbn [f_ny f_nx]; lia).
  cbn [dct_names dct_ok has_y has_x negb orb andb f_ny f_nx]. replace (1 <? n)%Z with true by lia. do 2 eexists. split; [reflexivity|]. split; [reflexivity|]. intros k Hk. cbv zeta. rewrite redft00_r2r by exact Hn. reflexivity.
Qed.
(* the Chebyshev transform of n samples at cos(pi j/(n-1)) gives the coefficients of the polynomial through them; ichebt evaluates it *)
Theorem C81_cheb : forall n a, (1 < n)%Z -> exists c b, chebt n a = Some c /\ ichebt n c = Some b /\
  (forall j, (0 <= j < n)%Z -> a j = cheb_eval n c (node n j)) /\ (forall j, (0 <= j < n)%Z -> b j = a j).
Proof.
  intros n a Hn. unfold chebt, ichebt, redft00. replace (n <? 2)%Z with false by lia. cbn [bind]. do 2 eexists. split; [reflexivity|]. split; [reflexivity|].
  assert (K : forall j, (0 <= j < n)%Z -> r2r REDFT00 n (fun k => Re (dft (-1) (2 * (n - 1)) (fun i => RtoC (mirror n a i)) k) / IZR (2 * (n - 1)) * inner_mul n 2 k * inner_mul n 0.5 k) j = a j).
  { intros j Hj. rewrite (r2r_ext REDFT00 n _ (fun k => r2r REDFT00 n a k * (/ IZR (2 * (n - 1))))); [|exact Hn|].
    - rewrite r2r_scal by exact Hn. pose proof (r2r_inv REDFT00 n a j Hn Hj) as R. cbn [dct_inverses dct_sizes] in R. rewrite R. replace (2 * (n + -1))%Z with (2 * (n - 1))%Z by lia. field. apply IZRn0. lia.
    - intros k Hk. rewrite redft00_r2r by exact Hn. rewrite chebt_val by assumption. reflexivity. }
  split; intros j Hj.
  - rewrite <- (K j Hj) at 1. rewrite <- ichebt_eval by exact Hn. reflexivity.
  - cbv zeta. rewrite redft00_r2r by exact Hn. apply K, Hj.
Qed.
Theorem C81_cheb_eval : forall n c, (1 < n)%Z -> exists b, ichebt n c = Some b /\ forall j, (0 <= j < n)%Z -> b j = cheb_eval n c (node n j).
Proof.
  intros n c Hn. unfold ichebt, redft00. replace (n <? 2)%Z with false by lia. eexists. split; [reflexivity|]. intros j Hj. cbv beta zeta. rewrite redft00_r2r by exact Hn. apply ichebt_eval, Hn.
Qed.
(* with two axes the factors 2 are put on rows instead of columns: [[1,0,-1]], the samples of x, should give [[0,1,0]] *)
Theorem C81_cheb2_refuted : exists b, chebt2 (FA 1 3 (fun _ j => node 3 j)) = Some b /\ f_at b 0%Z 1%Z = 1 / 2.
Proof.
  exists (FA 1 3 (fun y x => Re (dft (-1) (2 * (3 - 1)) (fun j => RtoC (mirror 3 (node 3) j)) x) / IZR (2 * (3 - 1)) * inner_mul 1 2 y)). split; [reflexivity|]. cbn [f_at]. rewrite redft00_r2r by lia. rewrite r2r_3.
  unfold node. change (3 - 1)%Z with 2%Z. change (2 * 2)%Z with 4%Z. replace (PI * 0 / 2) with 0 by field. replace (PI * 1 / 2) with (PI / 2) by field. replace (PI * 2 / 2) with PI by field. rewrite cos_0, cos_PI2, cos_PI.
  change (parity 1) with (-1). change (inner_mul 1 2 0) with 1. lra.
Qed.
(* the round trip still holds *)
Theorem C81_cheb2_roundtrip : forall a, nonempty a -> (1 < f_nx a)%Z -> oaeq (bind (chebt2 a) ichebt2) a.
Proof.
  intros a [Py Px] Hx. unfold chebt2, ichebt2, redft00_2. replace (f_nx a <? 2)%Z with false by lia. cbn [bind f_ny f_nx f_at]. replace (f_nx a <? 2)%Z with false by lia. cbn [oaeq].
  split; [reflexivity|]. split; [reflexivity|]. cbn [f_ny f_nx f_at]. intros y x Iy Ix. unfold redft00. replace (f_nx a <? 2)%Z with false by lia. cbv zeta. rewrite redft00_r2r by exact Hx.
  rewrite (r2r_ext REDFT00 (f_nx a) _ (fun k => r2r REDFT00 (f_nx a) (f_at a y) k * (/ IZR (2 * (f_nx a - 1))))); [|exact Hx|].
  - rewrite r2r_scal by exact Hx. pose proof (r2r_inv REDFT00 (f_nx a) (f_at a y) x Hx Ix) as R. cbn [dct_inverses dct_sizes] in R. rewrite R. replace (2 * (f_nx a + -1))%Z with (2 * (f_nx a - 1))%Z by lia. field. apply IZRn0. lia.
  - intros k Hk. rewrite redft00_r2r by exact Hx. unfold inner_mul. destruct (_ && _)%Z; lra.
Qed.

Example C81_ex : nonempty e01 /\ long_for DCT_I AXY e01 /\ f_at e01 0%Z 1%Z <> 0 /\ (exists b, dct DST_III AY e01 = Some b) /\ cheb 3 2 = 26.
Proof.
  split; [split; cbn; lia|]. split; [intros _; split; intros _; cbn; lia|]. split; [cbn; lra|]. split; [eexists; reflexivity|]. unfold cheb. cbn. ring.
Qed.
Print Assumptions C81_inverse. Print Assumptions C81_cheb. Print Assumptions C81_map_partial.
Print Assumptions C81_names.
