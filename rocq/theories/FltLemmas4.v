(* Lemmas about map2harm and harm2map. *)
From Coq Require Import Reals Lra Lia.
From Coquelicot Require Import Coquelicot.
From Verif Require Import Base SliceSpec SliceModel RangeModel RangeLemmas ArrModel PixModel SpinSpec SpinModel SpinLemmas SpinProps SkyrModel SkyrLemmas FftSpec FftModel FftLemmas FftLemmas2 FftLemmas3 FftLemmas4 FftLemmas5 FftProps FltSpec FltModel FltLemmas.
Ltac Zify.zify_post_hook ::= idtac.
Open Scope R_scope. Open Scope C_scope.

Fixpoint chain (a : Z) (gs : list (Z * Z * Z)) (b : Z) : Prop :=
  match gs with [] => a = b | (s, i, j) :: r => i = a /\ j = (a + scomp s)%Z /\ chain j r b end.
Lemma spin_loop_chain spin n : forall fuel ci i1 gs, spin_loop fuel spin n ci i1 = (gs, Done) -> chain i1 gs n.
Proof.
  induction fuel as [|fuel IH]; intros ci i1 gs E; [discriminate|]. cbn [spin_loop] in E. destruct (nth_error spin ci) as [s|]; [|discriminate].
  destruct (Z.min (i1 + scomp s) n - i1 =? scomp s)%Z eqn:E1; cbn [negb] in E; [|discriminate]. apply Z.eqb_eq in E1.
  destruct (Z.min (i1 + scomp s) n =? n)%Z eqn:E2.
  - injection E as <-. apply Z.eqb_eq in E2. cbn [chain]. lia.
  - destruct (spin_loop fuel spin n _ _) as [gs' e] eqn:E3. injection E as <- ->. apply IH in E3. cbn [chain]. split; [reflexivity|]. split; [lia|exact E3].
Qed.

Section Rot.
Variables sy sx : R. Variables inv iau : bool.
Fixpoint rotl (gs : list (Z * Z * Z)) (l : list (farr C)) : list (farr C) :=
  match gs with
  | [] => l
  | (s, _, _) :: r =>
      if (s =? 0)%Z then match l with p :: l => p :: rotl r l | [] => [] end
      else match l with p :: q :: l => rot_first sy sx inv iau s p q :: rot_second sy sx inv iau s p q :: rotl r l | _ => l end
  end.
Lemma upd_app {A} (pre : list A) l i v : upd (pre ++ l) (length pre + i) v = pre ++ upd l i v.
Proof. induction pre as [|a pre IH]; [reflexivity|]. cbn. f_equal. exact IH. Qed.
Lemma fold_rotl gs : forall pre l, chain (zlen pre) gs (zlen pre + zlen l) -> fold_left (fun l g => rot_group sy sx inv iau g l) gs (pre ++ l) = pre ++ rotl gs l.
Proof.
  unfold zlen. induction gs as [|[[s i] j] gs IH]; intros pre l Hc; [reflexivity|]. cbn [chain] in Hc. destruct Hc as (-> & -> & Hc). cbn [fold_left rotl].
  assert (B : forall g a b, chain a g b -> (a <= b)%Z).
  { induction g as [|[[s' i'] j'] g IHg]; intros a b H; cbn [chain] in H; [lia|]. destruct H as (_ & -> & H). apply IHg in H. unfold scomp in H. destruct (s' =? 0)%Z; lia. }
  pose proof (B _ _ _ Hc) as L. unfold scomp in L, Hc. unfold rot_group at 2. destruct (s =? 0)%Z.
  - destruct l as [|p l]; [cbn [length] in L; lia|]. replace (pre ++ p :: l) with ((pre ++ [p]) ++ l) by (rewrite <- app_assoc; reflexivity). rewrite IH; [rewrite <- app_assoc; reflexivity|].
    rewrite app_length. cbn [length] in *. replace (Z.of_nat (length pre + 1)) with (Z.of_nat (length pre) + (1 + 0))%Z by lia. replace (Z.of_nat (length pre) + (1 + 0) + Z.of_nat (length l))%Z with (Z.of_nat (length pre) + Z.of_nat (S (length l)))%Z by lia. exact Hc.
  - destruct l as [|p [|q l]]; [cbn [length] in L; lia|cbn [length] in L; lia|]. rewrite Nat2Z.id.
    assert (N1 : nth (length pre) (pre ++ p :: q :: l) nomap = p) by apply nth_middle.
    assert (N2 : nth (S (length pre)) (pre ++ p :: q :: l) nomap = q) by (change (p :: q :: l) with ([p] ++ q :: l); rewrite app_assoc; replace (S (length pre)) with (length (pre ++ [p])) by (rewrite app_length; cbn; lia); apply nth_middle).
    rewrite N1, N2. set (p' := rot_first _ _ _ _ _ _ _). set (q' := rot_second _ _ _ _ _ _ _).
    replace (upd (upd (pre ++ p :: q :: l) (length pre) p') (S (length pre)) q') with ((pre ++ [p'; q']) ++ l).
    + rewrite IH; [rewrite <- app_assoc; reflexivity|]. rewrite app_length. cbn [length] in *.
      replace (Z.of_nat (length pre + 2)) with (Z.of_nat (length pre) + (1 + 1))%Z by lia. replace (Z.of_nat (length pre) + (1 + 1) + Z.of_nat (length l))%Z with (Z.of_nat (length pre) + Z.of_nat (S (S (length l))))%Z by lia. exact Hc.
    + pose proof (upd_app pre (p :: q :: l) 0 p') as U1. rewrite Nat.add_0_r in U1. rewrite U1. pose proof (upd_app pre (upd (p :: q :: l) 0 p') 1 q') as U2. rewrite Nat.add_1_r in U2. rewrite U2. rewrite <- app_assoc. reflexivity.
Qed.
Lemma rotl_shaped ny nx gs : forall l, shaped ny nx l -> shaped ny nx (rotl gs l).
Proof.
  unfold shaped. induction gs as [|[[s i] j] gs IH]; intros l H; [exact H|]. cbn [rotl]. destruct (s =? 0)%Z.
  - destruct l as [|p l]; [exact H|]. inversion H; subst. apply Forall_cons; auto.
  - destruct l as [|p [|q l]]; [exact H|exact H|]. inversion H as [|? ? Hp H']; subst. inversion H' as [|? ? Hq H'']; subst. apply Forall_cons; [exact Hp|]. apply Forall_cons; [exact Hp|auto].
Qed.
Lemma rotl_length gs : forall l, length (rotl gs l) = length l.
Proof. induction gs as [|[[s i] j] gs IH]; intros l; [reflexivity|]. cbn [rotl]. destruct (s =? 0)%Z; [destruct l as [|p l]|destruct l as [|p [|q l]]]; cbn; rewrite ?IH; reflexivity. Qed.
End Rot.
Definition ang (l0 l1 : R) (inv iau : bool) (s : Z) : R := (IZR s * atan2 ((if inv then - (if iau then - (1) else 1) else (if iau then - (1) else 1)) * l1) l0)%R.
Lemma queb_ang l0 l1 inv iau s : queb_rotmat l0 l1 inv iau s = ((cos (ang l0 l1 inv iau s), (- sin (ang l0 l1 inv iau s))%R), (sin (ang l0 l1 inv iau s), cos (ang l0 l1 inv iau s))).
Proof. reflexivity. Qed.
Lemma ang_inv l0 l1 inv iau s : cos (ang l0 l1 (negb inv) iau s) = cos (ang l0 l1 inv iau s) /\ sin (ang l0 l1 (negb inv) iau s) = (- sin (ang l0 l1 inv iau s))%R.
Proof.
  assert (G : forall t, cos (IZR s * atan2 (- t) l0) = cos (IZR s * atan2 t l0) /\ sin (IZR s * atan2 (- t) l0) = (- sin (IZR s * atan2 t l0))%R).
  { intros t. destruct (atan2_opp t l0) as [E|(_ & E & P)].
    - rewrite E. replace (IZR s * - atan2 t l0)%R with (- (IZR s * atan2 t l0))%R by ring. rewrite cos_neg, sin_neg. auto.
    - rewrite E. split; [reflexivity|]. rewrite P. rewrite Rmult_comm in *. pose proof (sin_eq_0_1 (PI * IZR s) (ex_intro _ s (Rmult_comm _ _))) as Z0. rewrite Z0. ring. }
  unfold ang. destruct inv; cbn [negb].
  - set (e := (if iau then _ else _)%R). replace (e * l1)%R with (- (- e * l1))%R by ring. apply G.
  - set (e := (if iau then _ else _)%R). replace (- e * l1)%R with (- (e * l1))%R by ring. apply G.
Qed.
Lemma cc1 a : RtoC (cos a) * RtoC (cos a) + RtoC (sin a) * RtoC (sin a) = 1.
Proof. rewrite <- !RtoC_mult, <- RtoC_plus. f_equal. pose proof (sin2_cos2 a) as H. unfold Rsqr in H. lra. Qed.
Lemma rot_inv sy sx inv iau s p q : f_ny p = f_ny q -> f_nx p = f_nx q ->
  aeq (rot_first sy sx (negb inv) iau s (rot_first sy sx inv iau s p q) (rot_second sy sx inv iau s p q)) p /\
  aeq (rot_second sy sx (negb inv) iau s (rot_first sy sx inv iau s p q) (rot_second sy sx inv iau s p q)) q.
Proof.
  intros E1 E2. split; (split; [|split]); cbn [rot_first rot_second f_ny f_nx f_at]; try assumption; try reflexivity; intros y x _ _; rewrite !queb_ang; cbn [fst snd];
    destruct (ang_inv (laxis (f_ny p) sy y) (laxis (f_nx p) sx x) inv iau s) as [-> ->]; set (a := ang _ _ inv iau s); rewrite !RtoC_opp; pose proof (cc1 a) as K;
    set (c := RtoC (cos a)) in *; set (d := RtoC (sin a)) in *; set (u := f_at p y x); set (v := f_at q y x).
  - replace (c * (c * u + - d * v) + - - d * (d * u + c * v)) with ((c * c + d * d) * u) by ring. rewrite K. ring.
  - replace (- d * (c * u + - d * v) + c * (d * u + c * v)) with ((c * c + d * d) * v) by ring. rewrite K. ring.
Qed.
Lemma Cplus_conj' a b : Cconj (a + b) = Cconj a + Cconj b.
Proof. apply C_eq; cbn; ring. Qed.
Lemma rot_dot sy sx inv iau s ny nx p q u v : f_ny p = ny -> f_nx p = nx -> f_ny q = ny -> f_nx q = nx -> f_ny u = ny -> f_nx u = nx ->
  inner (rot_first sy sx inv iau s p q) u + inner (rot_second sy sx inv iau s p q) v = inner p (rot_first sy sx (negb inv) iau s u v) + inner q (rot_second sy sx (negb inv) iau s u v).
Proof.
  intros P1 P2 Q1 Q2 U1 U2. unfold inner. cbn [rot_first rot_second f_ny f_nx f_at]. rewrite P1, P2, Q1, Q2, U1, U2.
  unfold csum2. rewrite <- !csum_plus. apply csum_ext. intros y _. rewrite <- !csum_plus. apply csum_ext. intros x _. rewrite !queb_ang. cbn [fst snd].
  destruct (ang_inv (laxis ny sy y) (laxis nx sx x) inv iau s) as [-> ->]. rewrite !Cplus_conj', !Cmult_conj, !Cconj_RtoC, !RtoC_opp. ring.
Qed.
Lemma rot_ext sy sx inv iau s p q p' q' : f_ny p = f_ny q -> f_nx p = f_nx q -> aeq p p' -> aeq q q' ->
  aeq (rot_first sy sx inv iau s p q) (rot_first sy sx inv iau s p' q') /\ aeq (rot_second sy sx inv iau s p q) (rot_second sy sx inv iau s p' q').
Proof.
  intros E1 E2 (A1 & A2 & A3) (B1 & B2 & B3). split; (split; [|split]); cbn [rot_first rot_second f_ny f_nx f_at]; try assumption; intros y x Hy Hx; rewrite A1, A2 in *; rewrite A3, B3 by (rewrite <- ?E1, <- ?E2; lia); reflexivity.
Qed.
Lemma rotl_inv sy sx inv iau ny nx gs : forall l, shaped ny nx l -> saeq (rotl sy sx (negb inv) iau gs (rotl sy sx inv iau gs l)) l.
Proof.
  assert (R : forall l : list (farr C), saeq l l) by (induction l; constructor; auto using @aeq_refl).
  unfold shaped. induction gs as [|[[s i] j] gs IH]; intros l H; [apply R|]. cbn [rotl]. destruct (s =? 0)%Z.
  - destruct l as [|p l]; [apply R|]. inversion H; subst. constructor; [apply aeq_refl|apply IH; assumption].
  - destruct l as [|p [|q l]]; [apply R|apply R|]. inversion H as [|? ? [P1 P2] H']; subst. inversion H' as [|? ? [Q1 Q2] H'']; subst.
    destruct (rot_inv sy sx inv iau s p q) as [A B]; [congruence|congruence|]. constructor; [exact A|]. constructor; [exact B|]. apply IH. assumption.
Qed.
Lemma rotl_ext sy sx inv iau ny nx gs : forall l m, shaped ny nx l -> saeq l m -> saeq (rotl sy sx inv iau gs l) (rotl sy sx inv iau gs m).
Proof.
  unfold shaped. induction gs as [|[[s i] j] gs IH]; intros l m H E; [exact E|]. cbn [rotl]. destruct (s =? 0)%Z.
  - destruct E as [|p p' l m Ep E]; [constructor|]. inversion H; subst. constructor; [exact Ep|apply IH; assumption].
  - destruct E as [|p p' l m Ep E]; [constructor|]. destruct E as [|q q' l m Eq E]; [constructor; [exact Ep|constructor]|].
    inversion H as [|? ? [P1 P2] H']; subst. inversion H' as [|? ? [Q1 Q2] H'']; subst.
    destruct (rot_ext sy sx inv iau s p q p' q') as [A B]; [congruence|congruence|exact Ep|exact Eq|]. constructor; [exact A|]. constructor; [exact B|]. apply IH; assumption.
Qed.
Lemma sinner_cons a l b m : sinner (a :: l) (b :: m) = inner a b + sinner l m.
Proof. reflexivity. Qed.
Lemma rotl_dot sy sx inv iau ny nx gs : forall l m, shaped ny nx l -> shaped ny nx m -> length l = length m ->
  sinner (rotl sy sx inv iau gs l) m = sinner l (rotl sy sx (negb inv) iau gs m).
Proof.
  unfold shaped. induction gs as [|[[s i] j] gs IH]; intros l m H G E; [reflexivity|]. cbn [rotl]. destruct (s =? 0)%Z.
  - destruct l as [|p l]; [destruct m; [reflexivity|discriminate]|]. destruct m as [|u m]; [discriminate|]. inversion H; subst. inversion G; subst. rewrite !sinner_cons, IH by (assumption || (cbn in E; lia)). reflexivity.
  - destruct l as [|p [|q l]]; destruct m as [|u [|v m]]; try discriminate; try reflexivity.
    inversion H as [|? ? [P1 P2] H']; subst. inversion H' as [|? ? [Q1 Q2] H'']; subst. inversion G as [|? ? [U1 U2] G']; subst. inversion G' as [|? ? [V1 V2] G'']; subst.
    rewrite !sinner_cons, IH by (assumption || (cbn in E; lia)). rewrite !Cplus_assoc. f_equal. apply (rot_dot sy sx inv iau s (f_ny p) (f_nx p)); congruence.
Qed.

(* the transforms *)
Definition Fm (nrm : norm) (adj : bool) (p : R) (a : farr C) : farr C := scale (RtoC (enorm nrm (nprod AXY a) (if adj then / sqrt p else sqrt p))) (dft_ax (-1) AXY a).
Definition Gm (nrm : norm) (adj : bool) (p : R) (a : farr C) : farr C := scale (RtoC (enorm nrm (nprod AXY a) (if adj then sqrt p else / sqrt p))) (dft_ax 1 AXY a).
Lemma emap_fft_Fm nrm adj p a : nonempty a -> emap_fft nrm adj p a = Some (Fm nrm adj p a).
Proof. intros H. unfold emap_fft. rewrite fft_some by exact H. reflexivity. Qed.
Lemma emap_ifft_Gm nrm adj p a : nonempty a -> emap_ifft nrm adj p a = Some (Gm nrm adj p a).
Proof. intros H. unfold emap_ifft. rewrite ifft_some by exact H. reflexivity. Qed.
Lemma each_some {A B} (f : A -> option B) (g : A -> B) l : Forall (fun a => f a = Some (g a)) l -> each f l = Some (map g l).
Proof. induction 1 as [|a l E _ IH]; [reflexivity|]. cbn [each map]. rewrite E, IH. reflexivity. Qed.
Lemma shaped_map ny nx (f : farr C -> farr C) l : (forall a, f_ny (f a) = f_ny a /\ f_nx (f a) = f_nx a) -> shaped ny nx l -> shaped ny nx (map f l).
Proof. intros F H. unfold shaped in *. apply Forall_map. revert H. apply Forall_impl. intros a [<- <-]. apply F. Qed.
Lemma Fm_shape nrm adj p a : f_ny (Fm nrm adj p a) = f_ny a /\ f_nx (Fm nrm adj p a) = f_nx a.
Proof. split; reflexivity. Qed.
Lemma Gm_shape nrm adj p a : f_ny (Gm nrm adj p a) = f_ny a /\ f_nx (Gm nrm adj p a) = f_nx a.
Proof. split; reflexivity. Qed.
Lemma Fm_each nrm adj p ny nx l : (0 < ny)%Z -> (0 < nx)%Z -> shaped ny nx l -> each (emap_fft nrm adj p) l = Some (map (Fm nrm adj p) l).
Proof. intros Hy Hx H. apply each_some. revert H. apply Forall_impl. intros a [E1 E2]. apply emap_fft_Fm. split; lia. Qed.
Lemma Gm_each nrm adj p ny nx l : (0 < ny)%Z -> (0 < nx)%Z -> shaped ny nx l -> each (emap_ifft nrm adj p) l = Some (map (Gm nrm adj p) l).
Proof. intros Hy Hx H. apply each_some. revert H. apply Forall_impl. intros a [E1 E2]. apply emap_ifft_Gm. split; lia. Qed.
Lemma Fm_ext nrm adj p a b : aeq a b -> aeq (Fm nrm adj p a) (Fm nrm adj p b).
Proof. intros E. unfold Fm. rewrite (nprod_shape AXY a b) by apply E. apply scale_ext, dft_ax_ext, E. Qed.
Lemma Gm_ext nrm adj p a b : aeq a b -> aeq (Gm nrm adj p a) (Gm nrm adj p b).
Proof. intros E. unfold Gm. rewrite (nprod_shape AXY a b) by apply E. apply scale_ext, dft_ax_ext, E. Qed.
Lemma map_saeq (f g : farr C -> farr C) l m : (forall a b, aeq a b -> aeq (f a) (g b)) -> saeq l m -> saeq (map f l) (map g m).
Proof. intros F. induction 1; constructor; auto. Qed.
Lemma saeq_trans l m n : saeq l m -> saeq m n -> saeq l n.
Proof. intros E. revert n. induction E as [|a b l m Eab E IH]; intros n K; inversion K; subst; constructor; [eapply aeq_trans; eassumption|apply IH; assumption]. Qed.
Lemma saeq_refl l : saeq l l. Proof. induction l; constructor; auto using @aeq_refl. Qed.

(* the rotations in map2harm and harm2map *)
Definition groups (spin : list Z) (n : nat) : list (Z * Z * Z) := fst (spin_helper (n + 2) spin (Z.of_nat n)).
Definition rots (flat : bool) sy sx inv iau spin (l : list (farr C)) : list (farr C) := if flat then l else rotl sy sx inv iau (groups spin (length l)) l.
Lemma fits_done spin n : spin <> [] -> fits spin (Z.of_nat n) <-> snd (spin_helper (n + 2) spin (Z.of_nat n)) = Done.
Proof.
  intros Hs. pose proof (C16_spin_helper spin (Z.of_nat n) (n + 2) Hs ltac:(lia)) as K. destruct (spin_helper (n + 2) spin (Z.of_nat n)) as [gs e] eqn:E. cbn [snd]. destruct K as (W & [(-> & Cv)|(-> & _ & No)]).
  - split; [reflexivity|]. intros _. exists gs. split; [|auto]. intros ->. pose proof (spin_loop_spec spin (Z.of_nat n) Hs (n + 2) 0 0 ltac:(lia)) as K. rewrite Nat.mod_0_l in K by (destruct spin; [contradiction|cbn; lia]).
    unfold spin_helper in E. rewrite E in K. destruct K as (_ & _ & D & _). apply D; reflexivity.
  - split; [|discriminate]. intros (gs' & N & W' & Cv). exfalso. exact (No gs' N W' Cv).
Qed.
Lemma rot_all_some sy sx inv iau spin l : spin <> [] -> fits spin (zlen l) -> rot_all sy sx inv iau spin l = Some (rotl sy sx inv iau (groups spin (length l)) l).
Proof.
  intros Hs F. apply fits_done in F; [|exact Hs]. unfold rot_all, groups. destruct (spin_helper _ _ _) as [gs e] eqn:E. cbn [snd fst] in *. subst e. f_equal. apply (fold_rotl sy sx inv iau gs [] l). unfold zlen. cbn [length Z.of_nat]. rewrite Z.add_0_l. eapply spin_loop_chain. exact E.
Qed.
Lemma rot_all_none sy sx inv iau spin l : spin <> [] -> ~ fits spin (zlen l) -> rot_all sy sx inv iau spin l = None.
Proof. intros Hs F. unfold zlen in F. rewrite fits_done in F by exact Hs. unfold rot_all. destruct (spin_helper _ _ _) as [gs e]. cbn [snd] in F. destruct e; [contradiction|reflexivity|reflexivity]. Qed.
Section T.
Context (flat : bool) (sy sx p : R) (nrm : norm) (iau : bool) (spin : list Z) (ny nx : Z) (Hy : (0 < ny)%Z) (Hx : (0 < nx)%Z) (Hs : spin <> []).
Lemma map2harm_eq adj l : shaped ny nx l -> flat = true \/ fits spin (zlen l) -> map2harm flat sy sx nrm iau spin adj p l = Some (rots flat sy sx false iau spin (map (Fm nrm adj p) l)).
Proof.
  intros H F. unfold map2harm. rewrite (Fm_each nrm adj p ny nx) by assumption. cbn [bind]. unfold rots. destruct flat; [reflexivity|]. destruct F as [F|F]; [discriminate|]. apply rot_all_some; [exact Hs|]. unfold zlen in *. rewrite map_length. exact F.
Qed.
Lemma harm2map_eq keep adj l : shaped ny nx l -> flat = true \/ fits spin (zlen l) -> harm2map flat sy sx nrm iau spin keep adj p l = Some (map (drop_im keep) (map (Gm nrm adj p) (rots flat sy sx true iau spin l))).
Proof.
  intros H F. unfold harm2map. assert (E : (if flat then Some l else rot_all sy sx true iau spin l) = Some (rots flat sy sx true iau spin l)) by (unfold rots; destruct flat; [reflexivity|]; destruct F as [F|F]; [discriminate|]; apply rot_all_some; assumption).
  rewrite E. cbn [bind]. rewrite (Gm_each nrm adj p ny nx); [reflexivity|exact Hy|exact Hx|]. unfold rots. destruct flat; [exact H|apply rotl_shaped, H].
Qed.
Lemma rots_inv inv l : shaped ny nx l -> saeq (rots flat sy sx (negb inv) iau spin (rots flat sy sx inv iau spin l)) l.
Proof. intros H. unfold rots. destruct flat; [apply saeq_refl|]. rewrite rotl_length. eapply rotl_inv, H. Qed.
Lemma rots_ext inv l m : shaped ny nx l -> saeq l m -> saeq (rots flat sy sx inv iau spin l) (rots flat sy sx inv iau spin m).
Proof.
  intros H E. unfold rots. destruct flat; [exact E|]. replace (length m) with (length l) by (clear H; induction E; cbn; congruence). eapply rotl_ext; eassumption.
Qed.
Lemma rots_dot inv l m : shaped ny nx l -> shaped ny nx m -> length l = length m -> sinner (rots flat sy sx inv iau spin l) m = sinner l (rots flat sy sx (negb inv) iau spin m).
Proof. intros H G E. unfold rots. destruct flat; [reflexivity|]. rewrite E. eapply rotl_dot; eassumption. Qed.
Lemma rots_shaped inv l : shaped ny nx l -> shaped ny nx (rots flat sy sx inv iau spin l).
Proof. intros H. unfold rots. destruct flat; [exact H|apply rotl_shaped, H]. Qed.
Lemma rots_length inv l : length (rots flat sy sx inv iau spin l) = length l.
Proof. unfold rots. destruct flat; [reflexivity|apply rotl_length]. Qed.
End T.
