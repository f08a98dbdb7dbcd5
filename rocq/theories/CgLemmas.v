From Coq Require Import Reals Lra.
From Verif Require Import Base CgSpec CgModel.
Open Scope R_scope.

Section C.
Variables (U : vspace) (A M : vec U -> vec U) (dot : vec U -> vec U -> R) (b : vec U).
Hypothesis LS : linear_system U A.

Definition honest (s : cg (vec U)) : Prop := cg_r s = vsub U b (A (cg_x s)).
Lemma init_honest x0 : honest (cg_init U A M dot b x0).
Proof. unfold honest, cg_init. destruct x0; cbn; [reflexivity|]. symmetry. apply LS. Qed.
Lemma step_honest s s' : cg_step U A M dot s = Some s' -> honest s -> honest s'.
Proof.
  unfold cg_step, honest. repeat destruct (Req_EM_T _ _); try discriminate. intros H Hr. apply Some_inj in H. subst s'. cbn. rewrite Hr, (ls_lin _ _ LS), (ls_sub _ _ LS). reflexivity.
Qed.
Lemma iter_honest n : forall s s', iter (cg_step U A M dot) n s = Some s' -> honest s -> honest s'.
Proof. induction n as [|n IH]; cbn; intros s s' H Hs; [congruence|]. destruct (cg_step U A M dot s) as [s1|] eqn:E; [|discriminate]. eauto using step_honest. Qed.

Lemma load_save (s t : cg (vec U)) : load t (save s) = s.
Proof. destruct s, t. reflexivity. Qed.

(* ---- conjugacy ---- *)
Hypothesis DL : dot_laws U dot.
Hypothesis SA : selfadjoint dot A.
Hypothesis SM : selfadjoint dot M.

Lemma dadd u v w : dot w (vadd U u v) = dot w u + dot w v. Proof. rewrite !(dl_sym _ _ DL w). apply (dl_add _ _ DL). Qed.
Lemma dsub u v w : dot w (vsub U u v) = dot w u - dot w v. Proof. rewrite !(dl_sym _ _ DL w). apply (dl_sub _ _ DL). Qed.
Lemma dscale a u w : dot w (vscale U a u) = a * dot w u. Proof. rewrite !(dl_sym _ _ DL w). apply (dl_scale _ _ DL). Qed.

(* the run so far: h lists the states passed, latest first *)
Inductive run : list (cg (vec U)) -> Prop :=
| run_init x0 : run [cg_init U A M dot b x0]
| run_step s h s' : run (s :: h) -> cg_step U A M dot s = Some s' -> run (s' :: s :: h).

Definition zof (s : cg (vec U)) := M (cg_r s).
(* facts about the latest state and each earlier one *)
Definition orth (s t : cg (vec U)) : Prop := dot (cg_r s) (zof t) = 0 /\ dot (cg_r s) (cg_p t) = 0 /\ dot (cg_p s) (A (cg_p t)) = 0.

Lemma run_inv h : run h -> match h with [] => True | s :: h' =>
  cg_rz s = dot (cg_r s) (zof s) /\ (dot (cg_r s) (cg_p s) = cg_rz s) /\ (forall t, In t h' -> orth s t) /\
  (* how earlier directions are made, and what z and A p are in terms of directions and residuals *)
  (forall w, (forall t, In t h' -> dot w (cg_p t) = 0) -> dot w (zof s) = dot w (cg_p s)) end.
Proof.
  intros H. induction H as [x0|s h s' Hrun IH E].
  - unfold cg_init. destruct x0; cbn; (split; [reflexivity|split; [reflexivity|split; [intros ? []|reflexivity]]]).
  - destruct IH as (RZ & RP & OR & ZP). pose proof Hrun as Hrun0.
    unfold cg_step in E. destruct (Req_EM_T _ 0) as [|N1]; [discriminate|]. destruct (Req_EM_T (cg_rz0 s) 0); [discriminate|]. destruct (Req_EM_T (cg_rz s) 0) as [|N2]; [discriminate|]. apply Some_inj in E.
    set (Ap := A (cg_p s)) in *. set (pAp := dot (cg_p s) Ap) in *. set (al := cg_rz s / pAp) in *.
    assert (Er : cg_r s' = vsub U (cg_r s) (vscale U al Ap)) by (subst s'; reflexivity).
    assert (Erz : cg_rz s' = dot (cg_r s') (zof s')) by (subst s'; reflexivity).
    assert (Ep : cg_p s' = vadd U (zof s') (vscale U (cg_rz s' / cg_rz s) (cg_p s))) by (subst s'; reflexivity). clear E.
    (* r' is orthogonal to every direction so far *)
    assert (RP' : forall t, In t (s :: h) -> dot (cg_r s') (cg_p t) = 0).
    { intros t [<-|Ht]; rewrite Er, (dl_sub _ _ DL), (dl_scale _ _ DL).
      - rewrite RP. fold Ap. rewrite (dl_sym _ _ DL Ap). fold pAp. unfold al. field. exact N1.
      - destruct (OR t Ht) as (_ & O2 & O3). rewrite O2. unfold Ap. rewrite SA. rewrite O3. ring. }
    (* and to every preconditioned residual so far *)
    assert (RZ' : forall t, In t (s :: h) -> dot (cg_r s') (zof t) = 0).
    { intros t Ht. assert (exists h1, run (t :: h1) /\ incl h1 (s :: h)) as (h1 & R1 & I1).
      { clear - Hrun0 Ht. remember (s :: h) as l. clear Heql. induction Hrun0 as [x0|s1 h1 s2 R1 IH E]; [destruct Ht as [<-|[]]; exists []; split; [constructor|intros ? []]|].
        destruct Ht as [<-|Ht]; [exists (s1 :: h1); split; [econstructor; eassumption|intros x Hx; right; exact Hx]|]. destruct (IH Ht) as (h2 & R2 & I2). exists h2. split; [exact R2|]. intros x Hx. right. apply I2, Hx. }
      (* z_t is a combination of p_t and the direction before it *)
      clear - R1 I1 RP' Ht DL. remember (t :: h1) as l eqn:El. destruct R1 as [x0|s1 h2 s2 R2 E].
      - injection El as Et _. rewrite <- (RP' t Ht). unfold zof. f_equal. subst t. unfold cg_init. destruct x0; reflexivity.
      - injection El as -> <-. unfold cg_step in E. destruct (Req_EM_T _ 0); [discriminate|]. destruct (Req_EM_T (cg_rz0 s1) 0); [discriminate|]. destruct (Req_EM_T (cg_rz s1) 0); [discriminate|]. apply Some_inj in E.
        assert (Ept : cg_p t = vadd U (zof t) (vscale U (cg_rz t / cg_rz s1) (cg_p s1))) by (subst t; reflexivity).
        pose proof (RP' t Ht) as Q1. pose proof (RP' s1 (I1 s1 (or_introl eq_refl))) as Q2. rewrite Ept, dadd, dscale, Q2 in Q1. lra. }
    assert (SYM : forall t, In t (s :: h) -> dot (zof s') (cg_r t) = 0). { intros t Ht. unfold zof. rewrite SM. apply RZ'. exact Ht. }
    (* A p in terms of residuals: for a direction with a successor *)
    assert (AP : forall t t', In t' (s' :: s :: h) -> In t (s :: h) -> forall a, a <> 0 -> cg_r t' = vsub U (cg_r t) (vscale U a (A (cg_p t))) -> forall w, dot w (A (cg_p t)) = (dot w (cg_r t) - dot w (cg_r t')) / a).
    { intros t t' _ _ a Na -> w. rewrite dsub, dscale. field. exact Na. }
    split; [exact Erz|]. split; [rewrite Ep, dadd, dscale, (RP' s (or_introl eq_refl)), <- Erz; ring|]. split.
    + intros t Ht. split; [apply RZ'; exact Ht|]. split; [apply RP'; exact Ht|].
      rewrite Ep, (dl_add _ _ DL), (dl_scale _ _ DL). destruct Ht as [<-|Ht].
      * fold Ap pAp. assert (Na : al <> 0) by (unfold al; apply Rmult_integral_contrapositive; split; [exact N2|apply Rinv_neq_0_compat; exact N1]).
        unfold Ap. rewrite (AP s s' (or_introl eq_refl) (or_introl eq_refl) al Na Er (zof s')). rewrite (SYM s (or_introl eq_refl)). rewrite (dl_sym _ _ DL (zof s')), <- Erz. fold Ap. fold pAp. unfold al. field. auto.
      * destruct (OR t Ht) as (_ & _ & O3). rewrite O3.
        (* t has a successor t' in s :: h *)
        assert (exists t', In t' (s :: h) /\ exists a, a <> 0 /\ cg_r t' = vsub U (cg_r t) (vscale U a (A (cg_p t)))) as (t' & Ht' & a & Na & Et').
        { clear - Hrun0 Ht. revert t Ht. remember (s :: h) as l. revert s h Heql. induction Hrun0 as [x0|s1 h1 s2 R1 IH E]; intros s h Heql t Ht.
          - injection Heql as -> <-. destruct Ht.
          - injection Heql as -> <-. destruct Ht as [<-|Ht].
            + exists s. split; [left; reflexivity|]. unfold cg_step in E. destruct (Req_EM_T _ 0) as [|N1]; [discriminate|]. destruct (Req_EM_T (cg_rz0 s1) 0); [discriminate|]. destruct (Req_EM_T (cg_rz s1) 0) as [|N2]; [discriminate|]. apply Some_inj in E.
              exists (cg_rz s1 / dot (cg_p s1) (A (cg_p s1))). split; [apply Rmult_integral_contrapositive; split; [exact N2|apply Rinv_neq_0_compat; exact N1]|]. subst s. reflexivity.
            + destruct (IH s1 h1 eq_refl t Ht) as (t' & Ht' & a & Na & E'). exists t'. split; [right; exact Ht'|]. exists a. auto. }
        rewrite (AP t t' (or_intror Ht') (or_intror Ht) a Na Et' (zof s')). rewrite (SYM t (or_intror Ht)), (SYM t' Ht'). field. auto.
    + intros w Hw. rewrite Ep, dadd, dscale, (Hw s (or_introl eq_refl)). ring.
Qed.

Lemma iter_run n : forall s s' h, run (s :: h) -> iter (cg_step U A M dot) n s = Some s' -> exists h', run (s' :: h' ++ s :: h) \/ (n = O /\ s' = s).
Proof.
  induction n as [|n IH]; cbn; intros s s' h R H; [exists []; right; split; congruence|]. destruct (cg_step U A M dot s) as [s1|] eqn:E; [|discriminate].
  destruct (IH s1 s' (s :: h) (run_step _ _ _ R E) H) as (h' & [R'|[-> ->]]); [|exists []; left; econstructor; eassumption].
  exists (h' ++ [s1]). left. rewrite <- app_assoc. exact R'.
Qed.

Lemma run_iter x0 : forall m s, iter (cg_step U A M dot) m (cg_init U A M dot b x0) = Some s -> exists h, run (s :: h).
Proof. intros m s H. destruct (iter_run m _ _ [] (run_init x0) H) as (h' & [R|[-> ->]]); eauto. exists []. constructor. Qed.

Lemma conjugate x0 m n s t : iter (cg_step U A M dot) m (cg_init U A M dot b x0) = Some t -> (0 < n)%nat -> iter (cg_step U A M dot) n t = Some s -> orth s t.
Proof.
  intros H1 Hn H2. destruct (run_iter x0 m t H1) as (h & R). destruct (iter_run n t s h R H2) as (h' & [R'|[E _]]); [|lia].
  apply run_inv in R'. destruct R' as (_ & _ & O & _). apply O. apply in_or_app. right. left. reflexivity.
Qed.
End C.

Section Mr.
Variables (U : vspace) (A : vec U -> vec U) (dot : vec U -> vec U -> R) (b : vec U).
Hypothesis LS : linear_system U A.
Definition mr_honest (s : minres (vec U)) : Prop := mr_r s = vsub U b (A (mr_x s)) /\ mr_q s = A (mr_p s) /\ mr_rz s = dot (mr_r s) (A (mr_r s)).
Lemma mr_init_honest x0 : mr_honest (mr_init U A dot b x0).
Proof. unfold mr_honest, mr_init. destruct x0; cbn; repeat split. symmetry. apply LS. Qed.
Lemma mr_step_honest s s' : mr_step U A dot s = Some s' -> mr_honest s -> mr_honest s'.
Proof.
  unfold mr_step, mr_honest. repeat destruct (Req_EM_T _ _); try discriminate. intros H (H1 & H2 & H3). apply Some_inj in H. subst s'. cbn.
  rewrite H1, H2, (ls_lin _ _ LS), (ls_sub _ _ LS), (ls_lin' _ _ LS). auto.
Qed.
Lemma mr_iter_honest n : forall s s', iter (mr_step U A dot) n s = Some s' -> mr_honest s -> mr_honest s'.
Proof. induction n as [|n IH]; cbn; intros s s' H Hs; [congruence|]. destruct (mr_step U A dot s) as [s1|] eqn:E; [|discriminate]. eauto using mr_step_honest. Qed.
End Mr.
