(* All scales together. *)
From Coq Require Import Reals Lra Lia.
From Coquelicot Require Import Complex.
From Verif Require Import Base SliceSpec ArrModel PixModel BlockModel FresSpec FresModel FresLemmas FftSpec FftModel FftLemmas FftLemmas2 FftLemmas3 FftLemmas4 FftLemmas5 WflSpec WflModel WflLemmas WflLemmas2.
Ltac Zify.zify_post_hook ::= idtac.
Open Scope R_scope. Open Scope C_scope.

Definition good_level (ny nx : Z) (lv : level) : Prop := good_filter ny nx (lv_filt lv) /\ lv_norm lv <> 0%R.
(* the factor of frequency (Y, X) after adding all scales to a spectrum with factor T *)
Fixpoint acc (ny nx : Z) (lvs : list level) (T : C) (Y X : Z) : C :=
  match lvs with
  | [] => T
  | lv :: t => acc ny nx t (T * cph (f_ny (lv_filt lv)) ny Y * cph (f_nx (lv_filt lv)) nx X + RtoC (fv ny nx (lv_filt lv) Y X ^ 2)) Y X
  end.

Section all.
Context (ny nx : Z) (m : farr C) (Ey : f_ny m = ny) (Ex : f_nx m = nx) (Hm : nonempty m) (HR : is_real m).
Notation M := (dft_ax (-1) AXY m).
Definition wave_is (lv : level) (w : farr C) : Prop := aeq w (dft_ax 1 AXY (spec ny nx m (lv_filt lv) (/ (lv_norm lv * IZR (ny * nx))))).
Lemma waves_of_spec lvs : List.Forall (good_level ny nx) lvs -> exists ws, waves_of (scale 1 M) lvs = Some ws /\ List.Forall2 wave_is lvs ws.
Proof.
  induction 1 as [|lv t Hl _ IH]; [exists []; split; [reflexivity|constructor]|]. destruct IH as (ws & E & W). destruct lv as [F c]. destruct Hl as [(H1 & H2 & H3) H4]. cbn [lv_filt lv_norm] in *.
  pose proof (wave_of_real ny nx m Ey Ex Hm F H1 H2 H3 HR c) as K. cbn [waves_of]. destruct (wave_of _ _) as [w|]; [|contradiction]. cbn [bind]. rewrite E. cbn [bind].
  exists (w :: ws). split; [reflexivity|]. constructor; [exact K|exact W].
Qed.
Lemma map2wave_some lvs : List.Forall (good_level ny nx) lvs -> exists ws, map2wave lvs m = Some ws /\ List.Forall2 wave_is lvs ws.
Proof.
  intros H. unfold map2wave, emap_fft. rewrite fft_some by exact Hm. cbn [bind enorm]. apply waves_of_spec, H.
Qed.
Lemma add_waves_spec lvs ws : List.Forall (good_level ny nx) lvs -> List.Forall2 wave_is lvs ws -> forall out T, f_ny out = ny -> f_nx out = nx ->
  (forall Y X, (0 <= Y < ny)%Z -> (0 <= X < nx)%Z -> f_at out Y X = f_at M Y X * T Y X * RtoC (/ IZR (ny * nx))) ->
  oaeq (add_waves lvs ws out) (FA ny nx (fun Y X => f_at M Y X * acc ny nx lvs (T Y X) Y X * RtoC (/ IZR (ny * nx)))).
Proof.
  intros H W. induction W as [|lv w t ws Hw W IH]; intros out T Oy Ox V.
  - cbn [add_waves oaeq acc]. split; [exact Oy|]. split; [exact Ox|]. rewrite Oy, Ox. intros Y X IY IX. apply V; assumption.
  - pose proof (Forall_inv H) as Hl. pose proof (Forall_inv_tail H) as Ht. destruct lv as [F c]. destruct Hl as [(H1 & H2 & H3) H4]. cbn [lv_filt lv_norm] in *. cbn [add_waves].
    pose proof (add_wave_spec ny nx m Ey Ex Hm F H1 H2 c w out H4 Hw Oy Ox) as K. destruct (add_wave _ _ _) as [o|]; [|contradiction]. cbn [oaeq bind] in *. destruct K as (K1 & K2 & K3). cbn [f_ny f_nx f_at] in *.
    apply (IH Ht o (fun Y X => T Y X * cph (f_ny F) ny Y * cph (f_nx F) nx X + RtoC (fv ny nx F Y X ^ 2)) K1 K2).
    intros Y X IY IX. rewrite K3 by lia. rewrite V by assumption. unfold Rdiv. rewrite RtoC_mult. ring.
Qed.
Lemma round_trip_eq lvs : List.Forall (good_level ny nx) lvs -> exists ws, map2wave lvs m = Some ws /\
  oaeq (wave2map ny nx lvs ws) (drop_im false (dft_ax 1 AXY (FA ny nx (fun Y X => f_at M Y X * acc ny nx lvs 0 Y X * RtoC (/ IZR (ny * nx)))))).
Proof.
  intros H. destruct (map2wave_some lvs H) as (ws & E & W). exists ws. split; [exact E|]. unfold wave2map, full2. destruct Hm as [Py Px]. replace ((0 <=? ny)%Z && (0 <=? nx)%Z) with true by lia. cbn [bind].
  pose proof (add_waves_spec lvs ws H W (FA ny nx (fun _ _ => RtoC 0)) (fun _ _ => RtoC 0) eq_refl eq_refl) as K. destruct (add_waves _ _ _) as [o|].
  - cbn [oaeq bind] in *. specialize (K ltac:(intros; cbn [f_at]; ring)). pose proof K as (K1 & K2 & _). cbn [f_ny f_nx] in *. unfold emap_ifft. rewrite ifft_some by (split; lia). cbn [bind oaeq enorm].
    apply drop_im_ext. eapply aeq_trans; [apply (scale_1 (dft_ax 1 AXY o))|]. apply dft_ax_ext, K.
  - apply K. intros. cbn [f_at]. ring.
Qed.
Lemma unit_back lvs : List.Forall (good_level ny nx) lvs -> (forall Y X, (0 <= Y < ny)%Z -> (0 <= X < nx)%Z -> acc ny nx lvs 0 Y X = 1) ->
  exists ws, map2wave lvs m = Some ws /\ oaeq (wave2map ny nx lvs ws) m.
Proof.
  intros H A. destruct (round_trip_eq lvs H) as (ws & E & K). exists ws. split; [exact E|]. destruct (wave2map _ _ _ _) as [o|]; [|exact K]. cbn [oaeq] in *. eapply aeq_trans; [exact K|].
  eapply aeq_trans; [|apply (drop_im_real false m HR)]. apply drop_im_ext. eapply aeq_trans; [|apply (ifft_fft AXY m Hm)]. eapply aeq_trans; [|apply (dft_ax_scale 1 AXY)]. apply dft_ax_ext.
  split; [cbn [f_ny scale amap]; rewrite dft_ax_ny; symmetry; exact Ey|]. split; [cbn [f_nx scale amap]; rewrite dft_ax_nx; symmetry; exact Ex|]. cbn [f_ny f_nx scale amap f_at nprod]. intros Y X IY IX.
  rewrite A by assumption. rewrite Cmult_1_r, Ey, Ex. f_equal. apply RtoC_inv. apply IZRn0. destruct Hm. nia.
Qed.
End all.

(* levels of full size *)
Definition full_size (ny nx : Z) (lv : level) : Prop := f_ny (lv_filt lv) = ny /\ f_nx (lv_filt lv) = nx.
Lemma RtoC_rsum_acc ny nx lvs : (0 < ny)%Z -> (0 < nx)%Z -> List.Forall (full_size ny nx) lvs -> forall T Y X,
  acc ny nx lvs T Y X = T + RtoC (rsum (map (fun lv => fv ny nx (lv_filt lv) Y X ^ 2)%R lvs)).
Proof.
  intros Hy Hx. induction 1 as [|lv t [Fy Fx] _ IH]; intros T Y X; cbn [acc map rsum]; [ring|]. rewrite IH, Fy, Fx, !cph_same by assumption. rewrite RtoC_plus. ring.
Qed.
Lemma complete_fv ny nx lvs Y X : List.Forall (good_level ny nx) lvs -> complete ny nx (map lv_filt lvs) -> (0 <= Y < ny)%Z -> (0 <= X < nx)%Z ->
  rsum (map (fun lv => fv ny nx (lv_filt lv) Y X ^ 2)%R lvs) = 1%R.
Proof.
  intros H C IY IX. rewrite <- (C Y X IY IX). rewrite map_map. f_equal. apply map_ext_in. intros lv Hi. apply (proj1 (Forall_forall _ _) H) in Hi. destruct Hi as [(H1 & H2 & H3) _]. rewrite (fv_value ny nx (lv_filt lv) H1 H2) by assumption. reflexivity.
Qed.
Lemma acc_first ny nx lv lvs Y X : (0 < ny)%Z -> (0 < nx)%Z -> List.Forall (full_size ny nx) lvs ->
  acc ny nx (lv :: lvs) 0 Y X = RtoC (rsum (map (fun lv => fv ny nx (lv_filt lv) Y X ^ 2)%R (lv :: lvs))).
Proof. intros Hy Hx H. cbn [acc map rsum]. rewrite RtoC_rsum_acc by assumption. rewrite RtoC_plus. ring. Qed.
