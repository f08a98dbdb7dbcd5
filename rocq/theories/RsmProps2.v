(* C88: resample.py: averaging over blocks of samples and repeating samples. *)
From Coq Require Import Reals Qround Lra Lia.
From Coquelicot Require Import Complex.
From Verif Require Import Base SliceSpec ArrModel PixModel BlockModel DownModel FresModel FresLemmas DctSpec DctLemmas FftSpec FftModel FftLemmas FftLemmas2 FftLemmas3 FftLemmas4 FftLemmas5 FftProps3 RsmSpec RsmModel RsmLemmas.
Ltac Zify.zify_post_hook ::= idtac.
Open Scope R_scope. Open Scope C_scope.

Close Scope C_scope.
(* downsample_bin: the means of whole blocks; incomplete blocks at the end are left out *)
Theorem C88_down : forall axes steps sy sx d, picks 1%Z 1%Z axes steps sy sx -> (0 < sy)%Z -> (0 < sx)%Z ->
  oaeq (downsample_bin axes steps d) (FA (f_ny d / sy) (f_nx d / sx) (fun y x => mean2 sy sx (fun i j => f_at d (y * sy + i)%Z (x * sx + j)%Z))).
Proof. exact down_eq. Qed.
Lemma total_ext a b : aeq a b -> total a = total b.
Proof. intros (H1 & H2 & H3). unfold total. rewrite <- H1, <- H2. apply rsum_ext. intros y Hy. apply rsum_ext. intros x Hx. apply H3; assumption. Qed.
Theorem C88_down_total : forall axes steps sy sx d b, picks 1%Z 1%Z axes steps sy sx -> (0 < sy)%Z -> (0 < sx)%Z -> nonempty d -> (sy | f_ny d)%Z -> (sx | f_nx d)%Z ->
  downsample_bin axes steps d = Some b -> total b * (IZR sy * IZR sx) = total d.
Proof.
  intros axes steps sy sx d b P Hy Hx H Dy Dx E. pose proof (down_eq axes steps sy sx d P Hy Hx) as K. rewrite E in K. cbn [oaeq] in K. rewrite (total_ext _ _ K). apply down_total; assumption.
Qed.
(* upsample_bin: every element is repeated. The axes are named, or there is one step *)
Theorem C88_up : forall A axes steps sy sx (d : farr A), picks 1%Z 1%Z axes steps sy sx -> (axes = None -> length steps = 1%nat) -> (0 < sy)%Z -> (0 < sx)%Z ->
  exists b, upsample_bin axes steps d = Some b /\ f_ny b = (f_ny d * sy)%Z /\ f_nx b = (f_nx d * sx)%Z /\
  forall y x i j, (0 <= i < sy)%Z -> (0 <= j < sx)%Z -> f_at b (y * sy + i)%Z (x * sx + j)%Z = f_at d y x.
Proof.
  intros A axes steps sy sx d P L Hy Hx. eexists. split; [apply up_eq; eassumption|]. cbn [f_ny f_nx f_at]. split; [reflexivity|]. split; [reflexivity|]. intros y x i j Hi Hj.
  rewrite !Z.div_add_l by lia. rewrite !Z.div_small by lia. rewrite !Z.add_0_r. reflexivity.
Qed.
(* two steps and no axes: the steps are used in the wrong order *)
Theorem C88_up_refuted : forall A u v (d : farr A), (0 < u)%Z -> (0 < v)%Z ->
  upsample_bin None [u; v] d = Some (FA (f_ny d * v) (f_nx d * u) (fun y x => f_at d (y / v)%Z (x / u)%Z)).
Proof.
  intros A u v d Hu Hv. unfold upsample_bin. change (fullsteps _ [u; v]) with (Some (v, u)). cbn [bind]. replace ((v <? 1) || (u <? 1))%Z with false by lia. reflexivity.
Qed.
(* down undoes up *)
Theorem C88_up_down : forall axes steps sy sx d, picks 1%Z 1%Z axes steps sy sx -> (axes = None -> length steps = 1%nat) -> (0 < sy)%Z -> (0 < sx)%Z ->
  oaeq (bind (upsample_bin axes steps d) (downsample_bin axes steps)) d.
Proof.
  intros axes steps sy sx d P L Hy Hx. rewrite (up_eq axes steps sy sx d P L Hy Hx). cbn [bind]. pose proof (down_eq axes steps sy sx (FA (f_ny d * sy) (f_nx d * sx) (fun y x => f_at d (y / sy)%Z (x / sx)%Z)) P Hy Hx) as K.
  destruct (downsample_bin _ _ _) as [r|]; [|contradiction]. cbn [oaeq] in *. eapply aeq_trans; [exact K|]. cbn [f_ny f_nx f_at]. split; [apply Z.div_mul; lia|]. split; [apply Z.div_mul; lia|].
  intros y x _ _. cbn [f_at]. rewrite (mean2_ext sy sx _ (fun _ _ => f_at d y x)); [apply mean2_const; assumption|]. intros i j Hi Hj. rewrite !Z.div_add_l by lia. rewrite !Z.div_small by lia. rewrite !Z.add_0_r. reflexivity.
Qed.
(* resample_bin with factors that are whole numbers or one divided by a whole number: means of blocks, or repeated elements *)
Lemma picks_map {A B} (g : A -> B) dy dx axes l y x : picks dy dx axes l y x -> picks (g dy) (g dx) axes (map g l) (g y) (g x).
Proof. intros P. destruct P; cbn [map]; constructor; assumption. Qed.
Lemma picks_in {A} (Q : A -> Prop) dy dx axes l y x : picks dy dx axes l y x -> Q dy -> Q dx -> Forall Q l -> Q y /\ Q x.
Proof. intros P Hy Hx H. destruct P; repeat match goal with K : Forall _ (_ :: _) |- _ => apply Forall_cons_iff in K; destruct K end; auto. Qed.
Theorem C88_bin : forall axes us uy sy ux sx d, picks (1, 1)%Z (1, 1)%Z axes us (uy, sy) (ux, sx) -> (axes = None -> length us = 1%nat) -> Forall simple us ->
  oaeq (resample_bin axes (map frac us) d) (FA (f_ny d / sy * uy) (f_nx d / sx * ux) (fun y x => mean2 sy sx (fun i j => f_at d (y / uy * sy + i)%Z (x / ux * sx + j)%Z))).
Proof.
  intros axes us uy sy ux sx d P L S. assert (S1 : simple (1, 1)%Z) by (unfold simple; cbn [fst snd]; lia). destruct (picks_in simple _ _ _ _ _ _ P S1 S1 S) as [Sy Sx]. pose proof Sy as (Y1 & Y2 & _). pose proof Sx as (X1 & X2 & _). cbn [fst snd] in Y1, Y2, X1, X2.
  unfold resample_bin. destruct (allclose1 (map frac us)) eqn:C.
  - assert (A : Forall (fun z => z = (1, 1)%Z) us).
    { rewrite Forall_forall in *. intros z I. apply close_one; [apply S, I|]. unfold allclose1 in C. rewrite forallb_forall in C. apply C, in_map, I. }
    destruct (picks_in (fun z => z = (1, 1)%Z) _ _ _ _ _ _ P eq_refl eq_refl A) as [Ey Ex]. injection Ey as -> ->. injection Ex as -> ->. cbn [oaeq]. split; [cbn; rewrite Z.div_1_r; lia|]. split; [cbn; rewrite Z.div_1_r; lia|].
    intros y x _ _. cbn [f_at]. rewrite (mean2_ext 1 1 _ (fun _ _ => f_at d y x)); [rewrite mean2_const by lia; reflexivity|]. intros i j Hi Hj. rewrite !Z.div_1_r. f_equal; lia.
  - replace (existsb (fun f => Qeq_bool f 0) (map frac us)) with false.
    2:{ symmetry. apply not_true_is_false. intros E. apply existsb_exists in E. destruct E as (f & I & E). apply in_map_iff in I. destruct I as (z & <- & I). rewrite Forall_forall in S. rewrite (frac_ne0 z (S z I)) in E. discriminate. }
    cbv zeta. rewrite !map_map. rewrite (map_ext_in _ snd) by (intros z I; apply down_of; rewrite Forall_forall in S; auto). rewrite (map_ext_in (fun x => Z.max 1 (pyround (frac x))) fst) by (intros z I; apply up_of; rewrite Forall_forall in S; auto).
    pose proof (down_eq axes (map snd us) sy sx d (picks_map snd _ _ _ _ _ _ P) Y2 X2) as K. destruct (downsample_bin _ _ _) as [r|]; [|contradiction]. cbn [bind oaeq] in *.
    rewrite (up_eq axes (map fst us) uy ux r (picks_map fst _ _ _ _ _ _ P)) by (try assumption; rewrite map_length; assumption). cbn [oaeq]. destruct K as (K1 & K2 & K3). cbn [f_ny f_nx] in K1, K2.
    split; [cbn [f_ny]; rewrite K1; reflexivity|]. split; [cbn [f_nx]; rewrite K2; reflexivity|]. cbn [f_ny f_nx f_at]. intros y x Iy Ix. rewrite K3; [reflexivity| |].
    + split; [apply Z.div_pos; lia|]. apply Z.div_lt_upper_bound; lia.
    + split; [apply Z.div_pos; lia|]. apply Z.div_lt_upper_bound; lia.
Qed.
(* other factors are rounded: 3/4 leaves the length as it is, 2/3 halves it *)
Theorem C88_bin_refuted : forall d, nonempty d -> oaeq (resample_bin None [3 # 4]%Q d) d /\ exists b, resample_bin None [2 # 3]%Q d = Some b /\ f_nx b = (f_nx d / 2)%Z.
Proof.
  intros d H. split.
  - unfold resample_bin. change (allclose1 [3 # 4]%Q) with false. change (existsb _ [3 # 4]%Q) with false. cbv zeta. cbn [map].
    change (Z.max 1 (pyround (/ (3 # 4)))) with 1%Z. change (Z.max 1 (pyround (3 # 4))) with 1%Z. pose proof (down_eq None [1%Z] 1 1 d (picks_last _ _ _) ltac:(lia) ltac:(lia)) as K.
    destruct (downsample_bin _ _ _) as [r|]; [|contradiction]. cbn [bind oaeq] in *. rewrite (up_eq None [1%Z] 1 1 r (picks_last _ _ _)) by (auto; lia). cbn [oaeq]. destruct K as (K1 & K2 & K3). cbn [f_ny f_nx] in K1, K2. rewrite Z.div_1_r in K1, K2.
    split; [cbn [f_ny]; lia|]. split; [cbn [f_nx]; lia|]. cbn [f_ny f_nx f_at]. intros y x Iy Ix. rewrite !Z.div_1_r. rewrite K3 by lia. cbn [f_at]. rewrite (mean2_ext 1 1 _ (fun _ _ => f_at d y x)); [apply mean2_const; lia|].
    intros i j Hi Hj. f_equal; lia.
  - unfold resample_bin. change (allclose1 [2 # 3]%Q) with false. change (existsb _ [2 # 3]%Q) with false. cbv zeta. cbn [map].
    change (Z.max 1 (pyround (/ (2 # 3)))) with 2%Z. change (Z.max 1 (pyround (2 # 3))) with 1%Z. pose proof (down_eq None [2%Z] 1 2 d (picks_last _ _ _) ltac:(lia) ltac:(lia)) as K.
    destruct (downsample_bin _ _ _) as [r|]; [|contradiction]. cbn [bind oaeq] in *. rewrite (up_eq None [1%Z] 1 1 r (picks_last _ _ _)) by (auto; lia). eexists. split; [reflexivity|]. destruct K as (_ & K2 & _). cbn [f_nx] in *. lia.
Qed.

Example C88_ex : picks (1, 1)%Z (1, 1)%Z (Some [0%Z; 1%Z]) [(3, 1); (1, 2)]%Z (3, 1)%Z (1, 2)%Z /\ Forall simple [(3, 1); (1, 2)]%Z /\
  exists b, downsample_bin None [2%Z] (FA 1 3 (fun _ x => IZR x)) = Some b /\ f_nx b = 1%Z /\ f_at b 0%Z 0%Z = 1 / 2.
Proof.
  split; [constructor; left; reflexivity|]. split; [repeat constructor; cbn; lia|]. eexists. split; [reflexivity|]. split; [reflexivity|]. cbn [f_at]. change (rsum 1 ?f) with (0 + f 0%Z). cbv beta. change (rsum 2 ?f) with (0 + f 0%Z + f 1%Z). cbn. field.
Qed.
Print Assumptions C88_up. Print Assumptions C88_bin. Print Assumptions C88_up_down.
