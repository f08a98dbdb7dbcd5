(* C86: map2harm, harm2map and their adjoints. *)
From Coq Require Import Reals Lra Lia.
From Coquelicot Require Import Coquelicot.
From Verif Require Import Base ArrModel PixModel SpinSpec SpinModel SkyrModel FftSpec FftModel FftLemmas FftLemmas2 FftLemmas3 FftLemmas4 FftLemmas5 FftProps FltSpec FltModel FltLemmas FltLemmas4 FltProps.
Ltac Zify.zify_post_hook ::= idtac.
Open Scope R_scope. Open Scope C_scope.

(* what the two transforms after each other multiply by: the number of pixels without normalisation, else 1 *)
Definition both_ways (nrm : norm) (a : farr C) : farr C := match nrm with NoNorm => amap (fun z => z * RtoC (IZR (f_ny a * f_nx a))) a | _ => a end.
Lemma GF nrm p a : nonempty a -> (0 < p)%R -> aeq (Gm nrm false p (Fm nrm false p a)) (both_ways nrm a) /\ aeq (Fm nrm false p (Gm nrm false p a)) (both_ways nrm a).
Proof.
  intros H Hp. destruct (C80_map_inverse nrm p a H Hp) as [A B]. rewrite emap_fft_Fm in A by exact H. cbn [bind] in A. rewrite emap_ifft_Gm in A by exact H.
  rewrite emap_ifft_Gm in B by exact H. cbn [bind] in B. rewrite emap_fft_Fm in B by exact H. split; assumption.
Qed.
Lemma sne {A} (ny nx : Z) (a : farr A) : (0 < ny)%Z -> (0 < nx)%Z -> f_ny a = ny /\ f_nx a = nx -> nonempty a.
Proof. intros Hy Hx [E1 E2]. split; lia. Qed.
Lemma map_map_saeq ny nx (f g : farr C -> farr C) l : shaped ny nx l -> (forall a, f_ny a = ny /\ f_nx a = nx -> aeq (f a) (g a)) -> saeq (map f l) (map g l).
Proof. intros H F. unfold saeq. induction H; constructor; auto. Qed.
Lemma saeq_shaped ny nx l m : saeq l m -> shaped ny nx l -> shaped ny nx m.
Proof. unfold shaped. intros E. induction E as [|a b l m (E1 & E2 & _) E IH]; intros H; [exact H|]. inversion H as [|? ? [Hy Hx] H']; subst. constructor; [split; congruence|auto]. Qed.

(* 3-dimensional maps are refused exactly when the components can not be grouped by spin *)
Theorem C86_raises : forall sy sx nrm iau spin p ny nx l keep, (0 < ny)%Z -> (0 < nx)%Z -> spin <> [] -> shaped ny nx l ->
  (map2harm false sy sx nrm iau spin false p l = None <-> ~ fits spin (zlen l)) /\ (harm2map false sy sx nrm iau spin keep false p l = None <-> ~ fits spin (zlen l)).
Proof.
  intros sy sx nrm iau spin p ny nx l keep Hy Hx Hs H.
  assert (D : fits spin (zlen l) \/ ~ fits spin (zlen l)) by (unfold zlen; rewrite fits_done by exact Hs; destruct (snd (spin_helper _ _ _)); [left; reflexivity|right; discriminate|right; discriminate]).
  destruct D as [D|D].
  - rewrite (map2harm_eq false sy sx p nrm iau spin ny nx Hy Hx Hs false l H) by (right; exact D). rewrite (harm2map_eq false sy sx p nrm iau spin ny nx Hy Hx Hs keep false l H) by (right; exact D).
    split; (split; [discriminate|intros N; contradiction]).
  - unfold map2harm, harm2map. rewrite (Fm_each nrm false p ny nx) by assumption. cbn [bind]. rewrite !rot_all_none; [cbn [bind]|exact Hs|exact D|exact Hs|unfold zlen in *; rewrite map_length; exact D].
    split; (split; [intros _; exact D|reflexivity]).
Qed.

(* to harmonics and back *)
Theorem C86_round_trip : forall flat sy sx nrm iau spin p ny nx l, (0 < ny)%Z -> (0 < nx)%Z -> (0 < p)%R -> spin <> [] -> shaped ny nx l -> flat = true \/ fits spin (zlen l) ->
  exists h, map2harm flat sy sx nrm iau spin false p l = Some h /\ shaped ny nx h /\ length h = length l /\
  osaeq (harm2map flat sy sx nrm iau spin true false p h) (map (both_ways nrm) l) /\
  (Forall is_real l -> osaeq (harm2map flat sy sx nrm iau spin false false p h) (map (both_ways nrm) l)).
Proof.
  intros flat sy sx nrm iau spin p ny nx l Hy Hx Hp Hs H F. eexists. split; [apply (map2harm_eq flat sy sx p nrm iau spin ny nx Hy Hx Hs); assumption|].
  set (h := rots flat sy sx false iau spin (map (Fm nrm false p) l)).
  assert (SF : shaped ny nx (map (Fm nrm false p) l)) by (apply shaped_map; [intros a; apply Fm_shape|exact H]).
  assert (S : shaped ny nx h) by (apply rots_shaped; assumption). split; [exact S|]. assert (L : length h = length l) by (unfold h; rewrite rots_length, map_length; reflexivity). split; [exact L|].
  assert (FH : flat = true \/ fits spin (zlen h)) by (unfold zlen in *; rewrite L; exact F).
  rewrite !(harm2map_eq flat sy sx p nrm iau spin ny nx Hy Hx Hs) by assumption. cbn [osaeq].
  assert (K : saeq (map (Gm nrm false p) (rots flat sy sx true iau spin h)) (map (both_ways nrm) l)).
  { eapply saeq_trans; [apply (map_saeq (Gm nrm false p) (Gm nrm false p)); [intros a b; apply Gm_ext|apply (rots_inv flat sy sx iau spin ny nx false); assumption]|].
    rewrite map_map. eapply map_map_saeq; [exact H|]. intros a Ha. exact (proj1 (GF nrm p a (sne ny nx a Hy Hx Ha) Hp)). }
  split.
  - change (drop_im true) with (fun a : farr C => a). rewrite map_id. exact K.
  - intros R. eapply saeq_trans; [apply (map_saeq (drop_im false) (drop_im false)); [intros a b; apply drop_im_ext|exact K]|]. rewrite map_map.
    clear -R. unfold saeq. induction R as [|a l Ra R IH]; constructor; [|exact IH]. apply drop_im_real. destruct nrm; cbn [both_ways]; [|exact Ra|exact Ra].
    intros y x Jy Jx. cbn [amap f_at f_ny f_nx] in *. pose proof (Ra y x Jy Jx) as K. unfold Im, Cmult, RtoC in *. cbn [fst snd] in *. rewrite K. ring.
Qed.
(* from harmonics, keeping the imaginary part, and back *)
Theorem C86_back : forall flat sy sx nrm iau spin p ny nx h, (0 < ny)%Z -> (0 < nx)%Z -> (0 < p)%R -> spin <> [] -> shaped ny nx h -> flat = true \/ fits spin (zlen h) ->
  exists l, harm2map flat sy sx nrm iau spin true false p h = Some l /\ osaeq (map2harm flat sy sx nrm iau spin false p l) (map (both_ways nrm) h).
Proof.
  intros flat sy sx nrm iau spin p ny nx h Hy Hx Hp Hs H F. eexists. split; [apply (harm2map_eq flat sy sx p nrm iau spin ny nx Hy Hx Hs); assumption|].
  change (drop_im true) with (fun a : farr C => a). rewrite map_id. set (l := map (Gm nrm false p) _).
  assert (SR : shaped ny nx (rots flat sy sx true iau spin h)) by (apply rots_shaped, H).
  assert (S : shaped ny nx l) by (apply shaped_map; [intros a; apply Gm_shape|exact SR]). assert (L : length l = length h) by (unfold l; rewrite map_length; apply rots_length).
  rewrite (map2harm_eq flat sy sx p nrm iau spin ny nx Hy Hx Hs) by (exact S || (unfold zlen in *; rewrite L; exact F)). cbn [osaeq].
  assert (U : forall a, f_ny (both_ways nrm a) = f_ny a /\ f_nx (both_ways nrm a) = f_nx a) by (intros a; destruct nrm; split; reflexivity).
  eapply saeq_trans; [apply (rots_ext flat sy sx iau spin ny nx) with (m := map (both_ways nrm) (rots flat sy sx true iau spin h))|].
  - apply shaped_map; [intros a; apply Fm_shape|exact S].
  - unfold l. rewrite map_map. eapply map_map_saeq; [exact SR|]. intros a Ha. exact (proj2 (GF nrm p a (sne ny nx a Hy Hx Ha) Hp)).
  - destruct nrm; [| |].
    2,3: change (both_ways _) with (fun a : farr C => a); rewrite !map_id; apply (rots_inv flat sy sx iau spin ny nx true); exact H.
    (* without normalisation the rotations commute with the factor *)
    assert (Q : forall r, shaped ny nx r -> saeq (rots flat sy sx false iau spin (map (both_ways NoNorm) r)) (map (both_ways NoNorm) (rots flat sy sx false iau spin r))).
    { intros r Hr. unfold rots. destruct flat; [apply saeq_refl|]. rewrite map_length. generalize (groups spin (length r)) as gs. intros gs. revert r Hr. unfold shaped. induction gs as [|[[s i] j] gs IH]; intros r Hr; [apply saeq_refl|]. cbn [rotl].
      destruct (s =? 0)%Z.
      - destruct r as [|a r]; [constructor|]. inversion Hr; subst. cbn [map]. constructor; [apply aeq_refl|apply IH; assumption].
      - destruct r as [|a [|b r]]; [constructor|apply saeq_refl|]. inversion Hr as [|? ? [A1 A2] Hr']; subst. inversion Hr' as [|? ? [B1 B2] Hr'']; subst. cbn [map].
        constructor; [|constructor; [|apply IH; assumption]]; (split; [reflexivity|split; [reflexivity|]]); intros y x _ _; cbn [both_ways amap rot_first rot_second f_ny f_nx f_at]; rewrite ?B1, ?B2; ring. }
    eapply saeq_trans; [apply Q, SR|]. apply map_saeq; [|apply (rots_inv flat sy sx iau spin ny nx true); exact H]. intros a b E. cbn [both_ways]. destruct E as (E1 & E2 & E3). split; [exact E1|]. split; [exact E2|]. cbn [amap f_ny f_nx f_at]. intros y x Jy Jx. rewrite E3 by assumption. congruence.
Qed.

Lemma sinner_map (f g : farr C -> farr C) ny nx : (forall a b, f_ny a = ny /\ f_nx a = nx -> f_ny b = ny /\ f_nx b = nx -> inner (f a) b = inner a (g b)) ->
  forall l m, shaped ny nx l -> shaped ny nx m -> sinner (map f l) m = sinner l (map g m).
Proof.
  intros E. unfold shaped. induction l as [|a l IH]; intros m Hl Hm; [reflexivity|]. destruct m as [|b m]; [reflexivity|]. cbn [map]. rewrite !sinner_cons. inversion Hl; subst. inversion Hm; subst. rewrite E, IH by assumption. reflexivity.
Qed.
Lemma FG_dot nrm p ny nx a b : (0 < ny)%Z -> (0 < nx)%Z -> f_ny a = ny /\ f_nx a = nx -> f_ny b = ny /\ f_nx b = nx ->
  inner (Fm nrm false p a) b = inner a (Gm nrm true p b) /\ inner (Gm nrm false p a) b = inner a (Fm nrm true p b).
Proof.
  intros Hy Hx Ha Hb. pose proof (sne _ _ _ Hy Hx Ha) as Na. pose proof (sne _ _ _ Hy Hx Hb) as Nb. destruct Ha as [A1 A2]. destruct Hb as [B1 B2].
  destruct (C80_adjoint nrm p a b Na) as [(fa & gb & E1 & E2 & E) (fa' & gb' & E1' & E2' & E')]; [congruence|congruence|].
  rewrite emap_fft_Fm in E1, E2' by assumption. rewrite emap_ifft_Gm in E2, E1' by assumption. apply Some_inj in E1, E2, E1', E2'. subst. auto.
Qed.
(* map2harm_adjoint and harm2map_adjoint are the adjoints, for all complex maps and coefficients if the imaginary part is kept *)
Theorem C86_adjoint : forall flat sy sx nrm iau spin p ny nx l h, (0 < ny)%Z -> (0 < nx)%Z -> spin <> [] -> shaped ny nx l -> shaped ny nx h -> length l = length h ->
  flat = true \/ fits spin (zlen l) ->
  (exists hl lh, map2harm flat sy sx nrm iau spin false p l = Some hl /\ map2harm_adjoint flat sy sx nrm iau spin true p h = Some lh /\ sinner hl h = sinner l lh) /\
  (exists lh hl, harm2map flat sy sx nrm iau spin true false p h = Some lh /\ harm2map_adjoint flat sy sx nrm iau spin p l = Some hl /\ sinner lh l = sinner h hl).
Proof.
  intros flat sy sx nrm iau spin p ny nx l h Hy Hx Hs Sl Sh L F. assert (F' : flat = true \/ fits spin (zlen h)) by (unfold zlen in *; rewrite <- L; exact F). unfold map2harm_adjoint, harm2map_adjoint.
  rewrite !(map2harm_eq flat sy sx p nrm iau spin ny nx Hy Hx Hs) by assumption. rewrite !(harm2map_eq flat sy sx p nrm iau spin ny nx Hy Hx Hs) by assumption. change (drop_im true) with (fun a : farr C => a). rewrite !map_id.
  assert (SF : forall adj, shaped ny nx (map (Fm nrm adj p) l)) by (intros adj; apply shaped_map; [intros a; apply Fm_shape|exact Sl]).
  assert (SR : shaped ny nx (rots flat sy sx true iau spin h)) by (apply rots_shaped, Sh).
  split; (do 2 eexists; split; [reflexivity|split; [reflexivity|]]).
  - rewrite (rots_dot flat sy sx iau spin ny nx false) by (apply SF || exact Sh || rewrite map_length; exact L). cbn [negb].
    apply (sinner_map _ _ ny nx); [|exact Sl|exact SR]. intros a b Ha Hb. exact (proj1 (FG_dot nrm p ny nx a b Hy Hx Ha Hb)).
  - rewrite (sinner_map (Gm nrm false p) (Fm nrm true p) ny nx); [|intros a b Ha Hb; exact (proj2 (FG_dot nrm p ny nx a b Hy Hx Ha Hb))|exact SR|exact Sl].
    rewrite (rots_dot flat sy sx iau spin ny nx true); [reflexivity|exact Sh|apply SF|rewrite map_length; symmetry; exact L].
Qed.
Lemma inner_drop a b : is_real a -> inner a (drop_im false b) = RtoC (Re (inner a b)) /\ (f_ny b = f_ny a -> f_nx b = f_nx a -> Re (inner (drop_im false b) a) = Re (inner b a)).
Proof.
  intros R. assert (S2 : forall n f, RtoC (Re (csum n f)) = csum n (fun j => RtoC (Re (f j)))).
  { intros n f. unfold csum. generalize (Z.to_nat n) as k. induction k as [|k IH]; [reflexivity|]. cbn [csumn]. rewrite <- IH. apply C_eq; unfold Re, Im, RtoC, Cplus; cbn [fst snd]; ring. }
  split.
  - unfold inner, csum2. rewrite S2. apply csum_ext. intros y Hy. rewrite S2. apply csum_ext. intros x Hx. pose proof (R y x Hy Hx) as K. cbn [drop_im amap f_at]. unfold Im in K. apply C_eq; unfold Re, Im, Cmult, Cconj, RtoC; cbn [fst snd]; rewrite K; ring.
  - intros E1 E2. unfold inner, csum2. apply RtoC_inj. cbn [drop_im amap f_ny f_nx f_at]. rewrite !S2. apply csum_ext. intros y Hy. rewrite !S2. apply csum_ext. intros x Hx.
    rewrite E1 in Hy. rewrite E2 in Hx. pose proof (R y x Hy Hx) as K. unfold Im in K. apply C_eq; unfold Re, Im, Cmult, Cconj, RtoC; cbn [fst snd]; rewrite ?K; ring.
Qed.
Lemma sinner_drop l m : Forall is_real l -> sinner l (map (drop_im false) m) = RtoC (Re (sinner l m)).
Proof.
  intros R. revert m. induction R as [|a l Ra R IH]; intros m; [reflexivity|]. destruct m as [|b m]; [reflexivity|]. cbn [map]. rewrite !sinner_cons, IH. destruct (inner_drop a b Ra) as [-> _]. apply C_eq; unfold Re, Im, RtoC, Cplus; cbn [fst snd]; ring.
Qed.
Lemma sinner_drop_l ny nx l m : shaped ny nx l -> shaped ny nx m -> Forall is_real l -> Re (sinner (map (drop_im false) m) l) = Re (sinner m l).
Proof.
  unfold shaped. intros Sl Sm R. revert m Sm. induction R as [|a l Ra R IH]; intros m Sm; [destruct m; reflexivity|]. destruct m as [|b m]; [reflexivity|]. cbn [map]. rewrite !sinner_cons.
  inversion Sl as [|? ? [A1 A2] Sl']; subst. inversion Sm as [|? ? [B1 B2] Sm']; subst. destruct (inner_drop a b Ra) as [_ E]. cbn [Cplus Re fst]. fold (Re (inner (drop_im false b) a)) (Re (sinner (map (drop_im false) m) l)) (Re (inner b a)) (Re (sinner m l)).
  rewrite E, IH by (assumption || congruence). reflexivity.
Qed.
(* without the imaginary part they are the adjoints between real maps and coefficients, in the real inner product *)
Theorem C86_adjoint_real : forall flat sy sx nrm iau spin p ny nx l h, (0 < ny)%Z -> (0 < nx)%Z -> spin <> [] -> shaped ny nx l -> shaped ny nx h -> length l = length h ->
  flat = true \/ fits spin (zlen l) -> Forall is_real l ->
  (exists hl lh, map2harm flat sy sx nrm iau spin false p l = Some hl /\ map2harm_adjoint flat sy sx nrm iau spin false p h = Some lh /\ sinner l lh = RtoC (Re (sinner hl h))) /\
  (exists lh hl, harm2map flat sy sx nrm iau spin false false p h = Some lh /\ harm2map_adjoint flat sy sx nrm iau spin p l = Some hl /\ Re (sinner lh l) = Re (sinner h hl)).
Proof.
  intros flat sy sx nrm iau spin p ny nx l h Hy Hx Hs Sl Sh L F R. assert (F' : flat = true \/ fits spin (zlen h)) by (unfold zlen in *; rewrite <- L; exact F).
  destruct (C86_adjoint flat sy sx nrm iau spin p ny nx l h Hy Hx Hs Sl Sh L F) as [(hl & lh & E1 & E2 & E) (lh' & hl' & E1' & E2' & E')]. unfold map2harm_adjoint in *.
  rewrite (harm2map_eq flat sy sx p nrm iau spin ny nx Hy Hx Hs true) in E2, E1' by assumption. apply Some_inj in E2, E1'. change (drop_im true) with (fun a : farr C => a) in E2, E1'. rewrite map_id in E2, E1'.
  rewrite !(harm2map_eq flat sy sx p nrm iau spin ny nx Hy Hx Hs false) by assumption. rewrite E2, E1'. split.
  - exists hl. eexists. split; [exact E1|]. split; [reflexivity|]. rewrite sinner_drop, <- E by exact R. reflexivity.
  - eexists. exists hl'. split; [reflexivity|]. split; [exact E2'|]. rewrite (sinner_drop_l ny nx), E' by (assumption || (subst lh'; apply shaped_map; [intros a; apply Gm_shape|apply rots_shaped, Sh])). reflexivity.
Qed.
(* normalize=True keeps inner products, so also the power *)
Theorem C86_unitary : forall flat sy sx iau spin p ny nx l m, (0 < ny)%Z -> (0 < nx)%Z -> spin <> [] -> shaped ny nx l -> shaped ny nx m -> length l = length m -> flat = true \/ fits spin (zlen l) ->
  exists hl hm, map2harm flat sy sx Pix iau spin false p l = Some hl /\ map2harm flat sy sx Pix iau spin false p m = Some hm /\ sinner hl hm = sinner l m.
Proof.
  intros flat sy sx iau spin p ny nx l m Hy Hx Hs Sl Sm L F. assert (F' : flat = true \/ fits spin (zlen m)) by (unfold zlen in *; rewrite <- L; exact F).
  rewrite !(map2harm_eq flat sy sx p Pix iau spin ny nx Hy Hx Hs) by assumption. do 2 eexists. split; [reflexivity|]. split; [reflexivity|].
  assert (SF : forall r, shaped ny nx r -> shaped ny nx (map (Fm Pix false p) r)) by (intros r Hr; apply shaped_map; [intros a; apply Fm_shape|exact Hr]).
  assert (INV : saeq (rots flat sy sx true iau spin (rots flat sy sx false iau spin (map (Fm Pix false p) m))) (map (Fm Pix false p) m)) by (apply (rots_inv flat sy sx iau spin ny nx false), SF, Sm).
  rewrite (rots_dot flat sy sx iau spin ny nx false) by (apply SF, Sl || (apply rots_shaped, SF, Sm) || (rewrite rots_length, !map_length; exact L)). cbn [negb].
  assert (X : forall r u v, saeq u v -> shaped ny nx r -> shaped ny nx u -> sinner r u = sinner r v).
  { intros r u v E. revert r. unfold shaped. induction E as [|a b u v Eab E IH]; intros r Sr Su; [reflexivity|]. destruct r as [|c r]; [reflexivity|]. rewrite !sinner_cons. inversion Sr as [|? ? [C1 C2] Sr']; subst. inversion Su as [|? ? [A1 A2] Su']; subst.
    rewrite IH by assumption. f_equal. apply inner_ext; [apply aeq_refl|exact Eab|congruence|congruence]. }
  rewrite (X _ _ _ INV) by (apply SF, Sl || (apply rots_shaped, rots_shaped, SF, Sm)).
  clear -Hy Hx Sl Sm. revert m Sm. unfold shaped in *. induction Sl as [|a l Ha Sl IH]; intros m Sm; [reflexivity|]. destruct m as [|b m]; [reflexivity|]. cbn [map]. rewrite !sinner_cons. inversion Sm as [|? ? Hb Sm']; subst. rewrite IH by exact Sm'. f_equal.
  apply (C80_unitary p a b); [exact (sne _ _ _ Hy Hx Ha)|destruct Ha, Hb; congruence|destruct Ha, Hb; congruence|apply emap_fft_Fm, (sne _ _ _ Hy Hx Ha)|apply emap_fft_Fm, (sne _ _ _ Hy Hx Hb)].
Qed.
(* directions *)
Lemma cis_eq_of a b : sin (a - b) = 0%R -> (0 < cos (a - b))%R -> cis a = cis b.
Proof.
  intros S P. assert (C1 : cos (a - b) = 1%R) by (pose proof (sin2_cos2 (a - b)) as K; rewrite S in K; unfold Rsqr in K; nra).
  replace a with ((a - b) + b)%R by ring. rewrite cis_plus. unfold cis at 1. rewrite S, C1. apply C_eq; cbn; ring.
Qed.
Lemma atan2_cis r t : (0 < r)%R -> cis (atan2 (r * sin t) (r * cos t)) = cis t.
Proof.
  intros Hr. pose proof (sin2_cos2 t) as ST. unfold Rsqr in ST.
  assert (T : forall th, (0 < cos th)%R -> cos t <> 0%R -> tan th = (r * sin t / (r * cos t))%R -> sin th = (cos th * (sin t / cos t))%R).
  { intros th P N E. unfold tan in E. apply (Rmult_eq_compat_r (cos th)) in E. unfold Rdiv in E at 1. rewrite Rmult_assoc, Rinv_l in E by lra. rewrite Rmult_1_r in E. rewrite E. field. split; lra. }
  assert (CP : forall v, (0 < cos (atan v))%R) by (intros v; pose proof (atan_bound v); apply cos_gt_0; lra).
  unfold atan2. destruct (Rlt_dec 0 (r * cos t)) as [Hx|Hx].
  - assert (Ct : (0 < cos t)%R) by (apply (Rmult_lt_reg_l r); lra). set (th := atan _). assert (E : sin th = (cos th * (sin t / cos t))%R) by (apply T; [apply CP|lra|apply tan_atan]). pose proof (CP (r * sin t / (r * cos t))%R) as P. fold th in P.
    apply cis_eq_of; rewrite ?sin_minus, ?cos_minus, E; [field; lra|]. replace (cos th * cos t + cos th * (sin t / cos t) * sin t)%R with (cos th * (sin t * sin t + cos t * cos t) / cos t)%R by (field; lra). rewrite ST, Rmult_1_r. apply Rdiv_lt_0_compat; lra.
  - destruct (Rlt_dec (r * cos t) 0) as [Hn|Hn].
    + assert (Ct : (cos t < 0)%R) by (apply (Rmult_lt_reg_l r); lra). set (th := atan _). assert (E : sin th = (cos th * (sin t / cos t))%R) by (apply T; [apply CP|lra|apply tan_atan]). pose proof (CP (r * sin t / (r * cos t))%R) as P. fold th in P.
      assert (G : sin (th - t) = 0%R /\ (cos (th - t) < 0)%R).
      { rewrite sin_minus, cos_minus, E. split; [field; lra|]. replace (cos th * cos t + cos th * (sin t / cos t) * sin t)%R with (- (cos th * (sin t * sin t + cos t * cos t) / - cos t))%R by (field; lra). rewrite ST, Rmult_1_r. assert (0 < cos th / - cos t)%R by (apply Rdiv_lt_0_compat; lra). lra. }
      destruct G as [G1 G2].
      assert (SP : forall d, sin (d + PI) = (- sin d)%R /\ cos (d + PI) = (- cos d)%R /\ sin (d - PI) = (- sin d)%R /\ cos (d - PI) = (- cos d)%R) by (intros d; rewrite sin_plus, cos_plus, sin_minus, cos_minus, sin_PI, cos_PI; repeat split; ring).
      destruct (SP (th - t)%R) as (S1 & S2 & S3 & S4). destruct (Rle_dec 0 (r * sin t)); apply cis_eq_of.
      * replace (th + PI - t)%R with (th - t + PI)%R by ring. rewrite S1, G1. ring.
      * replace (th + PI - t)%R with (th - t + PI)%R by ring. rewrite S2. lra.
      * replace (th - PI - t)%R with (th - t - PI)%R by ring. rewrite S3, G1. ring.
      * replace (th - PI - t)%R with (th - t - PI)%R by ring. rewrite S4. lra.
    + assert (C0 : cos t = 0%R) by (apply (Rmult_eq_reg_l r); lra). rewrite C0 in ST. assert (Q : sin t = 1%R \/ sin t = (-1)%R) by (destruct (Rle_dec 0 (sin t)); [left|right]; nra).
      destruct Q as [Q|Q]; rewrite Q; destruct (Rlt_dec 0 (r * _)); try lra.
      * apply C_eq; cbn; [rewrite cos_PI2|rewrite sin_PI2]; lra.
      * destruct (Rlt_dec (r * -1) 0); [|lra]. replace (- PI / 2)%R with (- (PI / 2))%R by field. apply C_eq; cbn; [rewrite cos_neg, cos_PI2|rewrite sin_neg, sin_PI2]; lra.
Qed.
Lemma cis_mult_Z s a b : cis a = cis b -> cis (IZR s * a) = cis (IZR s * b).
Proof.
  intros E. assert (N : forall n, cis (INR n * a) = cis (INR n * b)).
  { induction n as [|n IH]; [cbn [INR]; rewrite !Rmult_0_l; reflexivity|]. rewrite S_INR. rewrite !Rmult_plus_distr_r, !Rmult_1_l, !cis_plus, IH, E. reflexivity. }
  destruct (Z_le_dec 0 s) as [H|H].
  - rewrite <- (Z2Nat.id s) by exact H. rewrite <- INR_IZR_INZ. apply N.
  - replace s with (- Z.of_nat (Z.to_nat (- s)))%Z by lia. rewrite opp_IZR, <- INR_IZR_INZ. rewrite <- !Ropp_mult_distr_l, !cis_opp, N. reflexivity.
Qed.
Lemma dft_cons ny nx c ky kx ms i j : (0 < ny)%Z -> (0 < nx)%Z -> (0 <= i < ny)%Z -> (0 <= j < nx)%Z ->
  f_at (dft_ax (-1) AXY (sampled ny nx 0 0 (trig ((c, ky, kx) :: ms)))) i j =
  (if ((i =? ky mod ny) && (j =? kx mod nx))%Z then c * RtoC (IZR (ny * nx)) else 0) + f_at (dft_ax (-1) AXY (sampled ny nx 0 0 (trig ms))) i j.
Proof.
  intros Hy Hx Hi Hj. pose proof (C80_modes ny nx c ky kx Hy Hx) as K. rewrite fft_some in K by (split; assumption). destruct K as (_ & _ & K). cbn [f_at] in K. rewrite <- (K i j Hi Hj). clear K.
  cbn [dft_ax dft_y dft_x sampled f_ny f_nx f_at]. rewrite <- dft_plus. apply dft_ext. intros y _. rewrite <- dft_plus. apply dft_ext. intros x _. rewrite !trig_cons. cbn [trig fold_right]. ring.
Qed.
Lemma dft_nil ny nx i j : f_at (dft_ax (-1) AXY (sampled ny nx 0 0 (trig []))) i j = 0.
Proof.
  cbn [dft_ax dft_y dft_x sampled f_ny f_nx f_at trig fold_right]. rewrite (dft_ext (-1) ny _ (fun _ => 0 * 0)); [rewrite dft_scal; ring|]. intros y _. rewrite (dft_ext (-1) nx _ (fun _ => 0 * 0)); [rewrite dft_scal; ring|]. intros x _. ring.
Qed.
Lemma ang_dir ny nx sy sx iau s ky kx phi : (0 < ny)%Z -> (0 < nx)%Z -> sy <> 0%R -> sx <> 0%R -> inside ny ky -> inside nx kx -> direction ny nx sy sx ky kx phi ->
  cis (ang (laxis ny sy (ky mod ny)) (laxis nx sx (kx mod nx)) false iau s) = cis ((if iau then -1 else 1) * (IZR s * phi)).
Proof.
  intros Hy Hx Ny Nx Iy Ix (r & Hr & E1 & E2). rewrite !laxis_mode by assumption. unfold ang. pose proof PI_RGT_0 as P. pose proof (IZRn0 ny Hy). pose proof (IZRn0 nx Hx).
  set (e := (if iau then -1 else 1)%R). replace (if iau then - (1) else 1)%R with e by (unfold e; destruct iau; lra).
  replace (2 * PI * IZR ky / (IZR ny * sy))%R with (2 * PI * r * cos (e * phi))%R.
  2:{ replace (cos (e * phi)) with (cos phi) by (unfold e; destruct iau; [rewrite <- cos_neg|]; f_equal; ring). rewrite Rmult_assoc, <- E1. field. split; assumption. }
  replace (e * (2 * PI * IZR kx / (IZR nx * sx)))%R with (2 * PI * r * sin (e * phi))%R.
  2:{ replace (sin (e * phi)) with (e * sin phi)%R by (unfold e; destruct iau; [replace (-1 * phi)%R with (- phi)%R by ring; rewrite sin_neg; ring|rewrite !Rmult_1_l; reflexivity]).
      replace (2 * PI * r * (e * sin phi))%R with (2 * PI * e * (r * sin phi))%R by ring. rewrite <- E2. field. split; assumption. }
  rewrite (cis_mult_Z s _ (e * phi)); [f_equal; ring|]. apply atan2_cis. apply Rmult_lt_0_compat; lra.
Qed.
(* a map of waves with given E and B amplitudes has the transforms of these as its harmonic coefficients *)
Theorem C86_waves : forall sy sx nrm (iau : bool) s p ny nx ws, (0 < ny)%Z -> (0 < nx)%Z -> sy <> 0%R -> sx <> 0%R -> s <> 0%Z ->
  Forall (fun w : C * C * Z * Z * R => let '(cE, cB, ky, kx, phi) := w in inside ny ky /\ inside nx kx /\ direction ny nx sy sx ky kx phi) ws ->
  let e := (if iau then -1 else 1)%R in
  exists fE fB, emap_fft nrm false p (sampled ny nx 0 0 (trig (e_pattern ws))) = Some fE /\ emap_fft nrm false p (sampled ny nx 0 0 (trig (b_pattern ws))) = Some fB /\
  osaeq (map2harm false sy sx nrm iau [s] false p [sampled ny nx 0 0 (trig (q_pattern e s ws)); sampled ny nx 0 0 (trig (u_pattern e s ws))]) [fE; fB].
Proof.
  intros sy sx nrm iau s p ny nx ws Hy Hx Ny Nx S0 HW e. do 2 eexists. split; [apply emap_fft_Fm; split; assumption|]. split; [apply emap_fft_Fm; split; assumption|].
  assert (F : fits [s] 2). { exists [(s, 0, 2)%Z]. split; [discriminate|]. split; [|reflexivity]. intros k s' a b E. destruct k as [|k]; [|destruct k; discriminate]. cbn in E. injection E as <- <- <-. split; [reflexivity|]. unfold ncomp. destruct (Z.eqb_spec s 0); [contradiction|reflexivity]. }
  rewrite (map2harm_eq false sy sx p nrm iau [s] ny nx Hy Hx ltac:(discriminate)) by ((apply Forall_cons; [split; reflexivity|apply Forall_cons; [split; reflexivity|apply Forall_nil]]) || (right; exact F)).
  cbn [osaeq map rots length].
  assert (GS : groups [s] 2 = [(s, 0, 2)%Z]). { unfold groups, spin_helper. cbn [Nat.add spin_loop nth_error]. unfold scomp. destruct (Z.eqb_spec s 0); [contradiction|]. reflexivity. }
  rewrite GS. cbn [rotl]. destruct (Z.eqb_spec s 0) as [|_]; [contradiction|].
  assert (K : forall i j, (0 <= i < ny)%Z -> (0 <= j < nx)%Z -> let a := ang (laxis ny sy i) (laxis nx sx j) false iau s in
    RtoC (cos a) * f_at (dft_ax (-1) AXY (sampled ny nx 0 0 (trig (q_pattern e s ws)))) i j + RtoC (- sin a) * f_at (dft_ax (-1) AXY (sampled ny nx 0 0 (trig (u_pattern e s ws)))) i j = f_at (dft_ax (-1) AXY (sampled ny nx 0 0 (trig (e_pattern ws)))) i j /\
    RtoC (sin a) * f_at (dft_ax (-1) AXY (sampled ny nx 0 0 (trig (q_pattern e s ws)))) i j + RtoC (cos a) * f_at (dft_ax (-1) AXY (sampled ny nx 0 0 (trig (u_pattern e s ws)))) i j = f_at (dft_ax (-1) AXY (sampled ny nx 0 0 (trig (b_pattern ws)))) i j).
  { intros i j Hi Hj a. induction HW as [|[[[[cE cB] ky] kx] phi] ws (Iy & Ix & Dr) HW IH].
    - cbn [q_pattern u_pattern e_pattern b_pattern map]. rewrite !dft_nil. split; ring.
    - change (q_pattern e s ((cE, cB, ky, kx, phi) :: ws)) with ((cE * RtoC (cos (IZR s * phi)) + cB * RtoC (e * sin (IZR s * phi)), ky, kx) :: q_pattern e s ws).
      change (u_pattern e s ((cE, cB, ky, kx, phi) :: ws)) with ((cB * RtoC (cos (IZR s * phi)) - cE * RtoC (e * sin (IZR s * phi)), ky, kx) :: u_pattern e s ws).
      change (e_pattern ((cE, cB, ky, kx, phi) :: ws)) with ((cE, ky, kx) :: e_pattern ws). change (b_pattern ((cE, cB, ky, kx, phi) :: ws)) with ((cB, ky, kx) :: b_pattern ws).
      rewrite !dft_cons by assumption. destruct IH as [IH1 IH2]. rewrite <- IH1, <- IH2. clear IH1 IH2.
      destruct ((i =? ky mod ny) && (j =? kx mod nx))%Z eqn:M; [|split; ring]. apply andb_true_iff in M as [M1 M2]. apply Z.eqb_eq in M1, M2.
      pose proof (ang_dir ny nx sy sx iau s ky kx phi Hy Hx Ny Nx Iy Ix Dr) as A. rewrite <- M1, <- M2 in A. fold a e in A. unfold cis in A. injection A as A1 A2.
      assert (B1 : cos (IZR s * phi) = cos a) by (rewrite A1; unfold e; destruct iau; [rewrite <- cos_neg|]; f_equal; ring).
      assert (B2 : (e * sin (IZR s * phi) = sin a)%R) by (rewrite A2; unfold e; destruct iau; [replace (-1 * (IZR s * phi))%R with (- (IZR s * phi))%R by ring; rewrite sin_neg; ring|rewrite !Rmult_1_l; reflexivity]).
      rewrite B1, B2, RtoC_opp. pose proof (cc1 a) as K. set (c := RtoC (cos a)) in *. set (d := RtoC (sin a)) in *. set (n := RtoC (IZR (ny * nx))).
      split.
      + match goal with |- _ = ?zz => replace zz with ((c * c + d * d) * (cE * n) + (c * f_at (dft_ax (-1) AXY (sampled ny nx 0 0 (trig (q_pattern (if iau then -1 else 1) s ws)))) i j + - d * f_at (dft_ax (-1) AXY (sampled ny nx 0 0 (trig (u_pattern (if iau then -1 else 1) s ws)))) i j)) by (rewrite K; unfold e; ring) end. unfold e. ring.
      + match goal with |- _ = ?zz => replace zz with ((c * c + d * d) * (cB * n) + (d * f_at (dft_ax (-1) AXY (sampled ny nx 0 0 (trig (q_pattern (if iau then -1 else 1) s ws)))) i j + c * f_at (dft_ax (-1) AXY (sampled ny nx 0 0 (trig (u_pattern (if iau then -1 else 1) s ws)))) i j)) by (rewrite K; unfold e; ring) end. unfold e. ring. }
  unfold saeq. apply Forall2_cons; [|apply Forall2_cons; [|apply Forall2_nil]]; (split; [reflexivity|split; [reflexivity|]]); cbn [rot_first rot_second f_ny f_nx Fm scale sampled]; intros i j Hi Hj; cbn [rot_first rot_second f_at]; rewrite queb_ang; cbn [fst snd];
    destruct (K i j Hi Hj) as [K1 K2]; unfold Fm, scale; cbn [amap f_at]; [rewrite <- K1|rewrite <- K2];
    unfold nprod; cbn [sampled f_ny f_nx]; repeat match goal with |- context [f_ny (amap ?g ?d)] => change (f_ny (amap g d)) with ny end; repeat match goal with |- context [f_nx (amap ?g ?d)] => change (f_nx (amap g d)) with nx end; match goal with |- ?a = ?b => change (@eq C a b) end; ring.
Qed.

Example C86_ex : fits [0; 2]%Z 3 /\ fits [0; 2]%Z 1 /\ ~ fits [0; 2]%Z 2 /\ fits [0; 2]%Z 4 /\ direction 8 8 1 1 1 1 (PI / 4) /\ inside 8 1.
Proof.
  assert (F : forall n, fits [0; 2]%Z (Z.of_nat n) <-> snd (spin_helper (n + 2) [0; 2]%Z (Z.of_nat n)) = Done) by (intros n; apply fits_done; discriminate).
  split; [apply (F 3%nat); reflexivity|]. split; [apply (F 1%nat); reflexivity|]. split; [intros K; apply (F 2%nat) in K; discriminate|]. split; [apply (F 4%nat); reflexivity|]. split; [|unfold inside; lia].
  pose proof (Rlt_sqrt2_0) as R2. exists (sqrt 2 / 8)%R. split; [lra|]. rewrite cos_PI4, sin_PI4. split; field; lra.
Qed.
Print Assumptions C86_raises.
Print Assumptions C86_round_trip.
Print Assumptions C86_back.
Print Assumptions C86_adjoint.
Print Assumptions C86_adjoint_real.
Print Assumptions C86_unitary.
Print Assumptions C86_waves.
