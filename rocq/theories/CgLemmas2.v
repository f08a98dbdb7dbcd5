(* Conjugate gradients end: residuals are mutually orthogonal, and there is room for only so many of those. *)
From Coq Require Import Reals Lra Lia.
From Verif Require Import Base CgSpec CgModel CgLemmas.
Open Scope R_scope.

Fixpoint lsum {T} (f : T -> R) (l : list T) : R := match l with [] => 0 | x :: t => f x + lsum f t end.
Lemma lsum_ext {T} (f g : T -> R) l : (forall x, In x l -> f x = g x) -> lsum f l = lsum g l.
Proof. induction l as [|x t IH]; intros H; cbn; [reflexivity|]. rewrite (H x) by (left; reflexivity). rewrite IH by (intros; apply H; right; assumption). reflexivity. Qed.
Lemma lsum_le {T} (f g : T -> R) l : (forall x, In x l -> f x <= g x) -> lsum f l <= lsum g l.
Proof. induction l as [|x t IH]; intros H; cbn; [lra|]. pose proof (H x (or_introl eq_refl)). specialize (IH (fun y Hy => H y (or_intror Hy))). lra. Qed.
Lemma lsum_plus {T} (f g : T -> R) l : lsum (fun x => f x + g x) l = lsum f l + lsum g l.
Proof. induction l; cbn; lra. Qed.
Lemma lsum_scal {T} c (f : T -> R) l : lsum (fun x => c * f x) l = c * lsum f l.
Proof. induction l as [|x t IH]; cbn; [ring|]. rewrite IH. ring. Qed.
Lemma lsum_0 {T} (l : list T) : lsum (fun _ => 0) l = 0.
Proof. induction l; cbn; lra. Qed.
Lemma lsum_swap {S T} (f : S -> T -> R) l m : lsum (fun x => lsum (f x) m) l = lsum (fun y => lsum (fun x => f x y) l) m.
Proof. induction l as [|x t IH]; cbn; [rewrite lsum_0; reflexivity|]. rewrite IH, <- lsum_plus. reflexivity. Qed.
Lemma lsum_one {T} (l : list T) : lsum (fun _ => 1) l = INR (length l).
Proof. induction l as [|x t IH]; [reflexivity|]. cbn [lsum length]. rewrite IH, S_INR. ring. Qed.

Section F.
Variables (U : vspace) (dot : vec U -> vec U -> R).
Hypothesis DL : dot_laws U dot.
Hypothesis POS : forall u, 0 <= dot u u.

Lemma bessel us : forall e, ForallOrdPairs (fun u v => dot u v = 0) us -> (forall u, In u us -> dot u u <> 0) ->
  lsum (fun u => dot e u * dot e u / dot u u) us <= dot e e.
Proof.
  induction us as [|u us IH]; intros e HO HN; cbn [lsum]; [apply POS|].
  pose proof (HN u (or_introl eq_refl)) as N. inversion_clear HO as [|? ? Hu Hus].
  set (c := dot e u / dot u u). set (e' := vsub U e (vscale U c u)).
  specialize (IH e' Hus (fun v Hv => HN v (or_intror Hv))).
  rewrite (lsum_ext _ (fun v => dot e v * dot e v / dot v v)) in IH.
  2: { intros v Hv. assert (E : dot e' v = dot e v). { unfold e'. rewrite (dl_sub _ _ DL), (dl_scale _ _ DL). rewrite (proj1 (Forall_forall _ _) Hu v Hv). ring. } rewrite E. reflexivity. }
  assert (E : dot e' e' = dot e e - dot e u * dot e u / dot u u).
  { unfold e' at 1. rewrite (dl_sub _ _ DL), (dl_scale _ _ DL). unfold e'. rewrite !(dsub U dot DL), !(dscale U dot DL). rewrite (dl_sym _ _ DL u e). unfold c. field. exact N. }
  rewrite E in IH. lra.
Qed.

(* the coordinates of a vector along orthonormal directions that span the space *)
Definition spanning (es : list (vec U)) : Prop := (forall e, In e es -> dot e e = 1) /\ (forall u, lsum (fun e => dot e u * dot e u) es = dot u u).
Lemma orth_len es us : spanning es -> ForallOrdPairs (fun u v => dot u v = 0) us -> (forall u, In u us -> dot u u <> 0) -> (length us <= length es)%nat.
Proof.
  intros [E1 E2] HO HN. apply INR_le. rewrite <- (lsum_one us), <- (lsum_one es).
  rewrite (lsum_ext (fun _ => 1) (fun u => lsum (fun e => dot e u * dot e u / dot u u) es) us).
  - rewrite lsum_swap. apply lsum_le. intros e He. rewrite <- (E1 e He). apply bessel; assumption.
  - intros u Hu. rewrite (lsum_ext _ (fun e => / dot u u * (dot e u * dot e u))) by (intros; unfold Rdiv; ring). rewrite lsum_scal, E2. field. apply HN, Hu.
Qed.

Lemma dot0 u v : dot u u = 0 -> dot u v = 0.
Proof.
  intros H. destruct (Req_EM_T (dot u v) 0) as [E|N]; [exact E|exfalso].
  pose proof (POS (vsub U v (vscale U ((dot v v + 1) / dot u v) u))) as P.
  rewrite (dl_sub _ _ DL), (dl_scale _ _ DL), !(dsub U dot DL), !(dscale U dot DL), H, (dl_sym _ _ DL v u) in P.
  assert (Q : dot v v - (dot v v + 1) / dot u v * dot u v - (dot v v + 1) / dot u v * (dot u v - (dot v v + 1) / dot u v * 0) = - dot v v - 2) by (field; exact N).
  pose proof (POS v). lra.
Qed.

Variables (A : vec U -> vec U) (b : vec U).
Hypothesis SA : selfadjoint dot A.
Let M (x : vec U) := x.
Let SM : selfadjoint dot M. Proof. intros u v. reflexivity. Qed.
Let init := cg_init U A M dot b None.
Let step := cg_step U A M dot.

Lemma iter_snoc {St} (f : St -> option St) n s : iter f (S n) s = match iter f n s with Some t => f t | None => None end.
Proof. revert s. induction n as [|n IH]; intros s; [cbn; destruct (f s); reflexivity|]. change (iter f (S (S n)) s) with (match f s with None => None | Some s1 => iter f (S n) s1 end). destruct (f s) as [s1|] eqn:E; [|cbn; rewrite E; reflexivity]. rewrite IH. cbn [iter]. rewrite E. reflexivity. Qed.
Lemma iter_hist n : forall s, iter step n init = Some s -> exists h, run U A M dot b (s :: h) /\ length h = n.
Proof.
  induction n as [|n IH]; intros s H; [cbn in H; apply Some_inj in H; subst s; exists []; split; [exact (run_init U A M dot b None)|reflexivity]|].
  rewrite iter_snoc in H. destruct (iter step n init) as [t|]; [|discriminate]. destruct (IH t eq_refl) as (h & R & L). exists (t :: h). split; [econstructor; eassumption|cbn; congruence].
Qed.
Lemma step_nz s s' : step s = Some s' -> cg_rz s <> 0.
Proof. unfold step, cg_step. do 3 (destruct (Req_EM_T _ _); try discriminate). auto. Qed.
Lemma run_orth h : run U A M dot b h -> ForallOrdPairs (fun u v => dot u v = 0) (map cg_r h).
Proof.
  intros R. induction R as [x0|s h s' R IH E]; [repeat constructor|]. cbn [map]. constructor; [|exact IH].
  pose proof (run_inv U A M dot b DL SA SM _ (run_step U A M dot b _ _ _ R E)) as (_ & _ & OR & _).
  apply Forall_forall. intros v Hv. change (cg_r s :: map cg_r h) with (map cg_r (s :: h)) in Hv. apply in_map_iff in Hv as (t & <- & Ht). exact (proj1 (OR t Ht)).
Qed.
Lemma run_tail_nz s h : run U A M dot b (s :: h) -> forall t, In t h -> dot (cg_r t) (cg_r t) <> 0.
Proof.
  intros R. remember (s :: h) as l. revert s h Heql. induction R as [x0|s h s' R IH E]; intros s0 h0 Hl; apply (f_equal (@List.tl _)) in Hl; cbn [List.tl] in Hl; subst h0; [intros t []|].
  intros t [<-|Ht]; [|exact (IH s h eq_refl t Ht)]. pose proof (run_inv U A M dot b DL SA SM _ R) as (RZ & _). unfold zof, M in RZ. rewrite <- RZ. exact (step_nz _ _ E).
Qed.

(* no more steps than dimensions *)
Lemma iter_bound es n s : spanning es -> iter step n init = Some s -> (n <= length es)%nat /\ (cg_rz s <> 0 -> (n < length es)%nat).
Proof.
  intros HE H. destruct (iter_hist n s H) as (h & R & L). pose proof (run_orth _ R) as O. pose proof (run_tail_nz _ _ R) as NZ. cbn [map] in O. split.
  - rewrite <- L, <- (map_length cg_r h). apply orth_len; [exact HE|inversion_clear O; assumption|]. intros u Hu. apply in_map_iff in Hu as (t & <- & Ht). exact (NZ t Ht).
  - intros N. enough (length (cg_r s :: map cg_r h) <= length es)%nat as Q by (cbn in Q; rewrite map_length, L in Q; exact Q). apply orth_len; [exact HE|exact O|].
    intros u [<-|Hu]; [|apply in_map_iff in Hu as (t & <- & Ht); exact (NZ t Ht)]. pose proof (run_inv U A M dot b DL SA SM _ R) as (RZ & _). unfold zof, M in RZ. rewrite <- RZ. exact N.
Qed.

(* it does not break down before the residual is zero *)
Variable K : vec U -> Prop.
Hypothesis Kb : K b.
Hypothesis Kadd : forall u v a, K u -> K v -> K (vadd U u (vscale U a v)).
Hypothesis Ksub : forall u v a, K u -> K v -> K (vsub U u (vscale U a v)).
Hypothesis KA : forall u, K (A u).
Hypothesis KD : forall u, K u -> dot u (A u) = 0 -> dot u u = 0.

Lemma step_K s s' : step s = Some s' -> K (cg_r s) /\ K (cg_p s) -> K (cg_r s') /\ K (cg_p s').
Proof.
  unfold step, cg_step. do 3 (destruct (Req_EM_T _ _); try discriminate). intros E [Kr Kp]. apply Some_inj in E. subst s'. cbn [cg_r cg_p]. unfold M.
  split; [apply Ksub; [exact Kr|apply KA]|apply Kadd; [apply Ksub; [exact Kr|apply KA]|exact Kp]].
Qed.
Lemma iter_K n : forall s, iter step n init = Some s -> K (cg_r s) /\ K (cg_p s).
Proof.
  induction n as [|n IH]; intros s H; [cbn in H; apply Some_inj in H; subst s; split; exact Kb|]. rewrite iter_snoc in H. destruct (iter step n init) as [t|]; [|discriminate]. exact (step_K t s H (IH t eq_refl)).
Qed.
Lemma iter_rz0 n : forall s, iter step n init = Some s -> cg_rz0 s = dot b b /\ cg_rz s = dot (cg_r s) (cg_r s) /\ dot (cg_r s) (cg_p s) = cg_rz s.
Proof.
  intros s H. destruct (iter_hist n s H) as (h & R & _). pose proof (run_inv U A M dot b DL SA SM _ R) as (RZ & RP & _).
  split; [|split; [exact RZ|exact RP]]. clear h R RZ RP. revert s H. induction n as [|n IH]; intros s H; [cbn in H; apply Some_inj in H; subst s; reflexivity|]. rewrite iter_snoc in H.
  destruct (iter step n init) as [t|]; [|discriminate]. rewrite <- (IH t eq_refl). unfold step, cg_step in H. do 3 (destruct (Req_EM_T _ _); try discriminate). apply Some_inj in H. subst s. reflexivity.
Qed.
Lemma step_ok n s : dot b b <> 0 -> iter step n init = Some s -> cg_rz s <> 0 -> exists s', step s = Some s'.
Proof.
  intros Nb H N. destruct (iter_rz0 n s H) as (R0 & RZ & RP). destruct (iter_K n s H) as [_ Kp]. unfold step, cg_step.
  destruct (Req_EM_T _ _) as [E|_]; [exfalso|].
  - apply KD in E; [|exact Kp]. apply N. rewrite <- RP, (dl_sym _ _ DL). apply dot0, E.
  - destruct (Req_EM_T (cg_rz0 s) 0) as [E|_]; [exfalso; apply Nb; congruence|]. destruct (Req_EM_T (cg_rz s) 0) as [E|_]; [contradiction|]. eexists. reflexivity.
Qed.
Lemma step_ok0 s : dot b b = 0 -> step init = Some s -> False.
Proof. intros Nb H. apply step_nz in H. apply H. exact Nb. Qed.

Lemma progress n : dot b b <> 0 -> (exists k s, (k <= n)%nat /\ iter step k init = Some s /\ cg_rz s = 0) \/ (exists s, iter step n init = Some s /\ cg_rz s <> 0).
Proof.
  intros Nb. induction n as [|n [(k & s & Hk & H & Z)|(s & H & N)]].
  - right. exists init. split; [reflexivity|exact Nb].
  - left. exists k, s. split; [lia|auto].
  - destruct (step_ok n s Nb H N) as [s' E]. assert (H' : iter step (S n) init = Some s') by (rewrite iter_snoc, H; exact E).
    destruct (Req_EM_T (cg_rz s') 0) as [Z|N']; [left; exists (S n), s'; auto|right; exists s'; auto].
Qed.
Lemma ends es : spanning es -> exists k s, (k <= length es)%nat /\ iter step k init = Some s /\ dot (cg_r s) (cg_r s) = 0.
Proof.
  intros HE. destruct (Req_EM_T (dot b b) 0) as [Z|Nb]; [exists O, init; split; [lia|]; split; [reflexivity|exact Z]|].
  destruct (progress (length es) Nb) as [(k & s & Hk & H & Z)|(s & H & N)].
  - exists k, s. split; [exact Hk|]. split; [exact H|]. destruct (iter_rz0 k s H) as (_ & RZ & _). congruence.
  - destruct (iter_bound es _ s HE H) as [_ Q]. specialize (Q N). lia.
Qed.
End F.
