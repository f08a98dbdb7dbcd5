(* Conjugate gradients on the normal equations of a linear fit with a kernel. *)
From Coq Require Import Reals Lra Lia FunctionalExtensionality.
From Coquelicot Require Import Complex.
From Verif Require Import Base ArrModel CgSpec CgModel CgLemmas CgLemmas2 FftSpec FftLemmas NufSpec NufModel.
Ltac Zify.zify_post_hook ::= idtac.
Open Scope R_scope. Open Scope C_scope.

Definition cs {I} (idx : list I) (f : I -> C) : C := lsumc (map f idx).
Lemma cs_nil {I} (f : I -> C) : cs [] f = 0. Proof. reflexivity. Qed.
Lemma cs_cons {I} x (t : list I) f : cs (x :: t) f = f x + cs t f. Proof. reflexivity. Qed.
Lemma cs_ext {I} (l : list I) f g : (forall i, In i l -> f i = g i) -> cs l f = cs l g.
Proof. intros H. unfold cs. f_equal. apply map_ext_in, H. Qed.
Lemma cs_0 {I} (l : list I) : cs l (fun _ => RtoC 0) = 0.
Proof. induction l as [|x t IH]; [reflexivity|]. rewrite cs_cons, IH. ring. Qed.
Lemma cs_plus {I} (l : list I) f g : cs l (fun i => f i + g i) = cs l f + cs l g.
Proof. induction l as [|x t IH]; [cbn; ring|]. rewrite !cs_cons, IH. ring. Qed.
Lemma cs_minus {I} (l : list I) f g : cs l (fun i => f i - g i) = cs l f - cs l g.
Proof. induction l as [|x t IH]; [cbn; ring|]. rewrite !cs_cons, IH. ring. Qed.
Lemma cs_scal_l {I} (l : list I) c f : cs l (fun i => c * f i) = c * cs l f.
Proof. induction l as [|x t IH]; [cbn; ring|]. rewrite !cs_cons, IH. ring. Qed.
Lemma cs_scal_r {I} (l : list I) c f : cs l (fun i => f i * c) = cs l f * c.
Proof. induction l as [|x t IH]; [cbn; ring|]. rewrite !cs_cons, IH. ring. Qed.
Lemma cs_swap {I J} (l : list I) (m : list J) f : cs l (fun i => cs m (f i)) = cs m (fun j => cs l (fun i => f i j)).
Proof. induction l as [|x t IH]; [rewrite cs_nil; symmetry; apply cs_0|]. rewrite cs_cons, IH, <- cs_plus. apply cs_ext. reflexivity. Qed.
Lemma cs_conj {I} (l : list I) f : Cconj (cs l f) = cs l (fun i => Cconj (f i)).
Proof. induction l as [|x t IH]; [rewrite !cs_nil; apply Cconj_RtoC|]. rewrite !cs_cons, <- IH. unfold Cconj, Cplus. cbn [fst snd]. f_equal. ring. Qed.
Lemma cs_map {I J} (l : list I) (h : I -> J) f : cs (map h l) f = cs l (fun i => f (h i)).
Proof. unfold cs. rewrite map_map. reflexivity. Qed.
Lemma cs_app {I} (l m : list I) f : cs (l ++ m) f = cs l f + cs m f.
Proof. induction l as [|x t IH]; [cbn [app]; rewrite cs_nil; ring|]. cbn [app]. rewrite !cs_cons, IH. ring. Qed.

Lemma re_conj_mul a b : Re (Cconj a * b) = (Re a * Re b + Im a * Im b)%R.
Proof. unfold Cconj, Cmult, Re, Im. cbn. ring. Qed.
Lemma re_plus (a b : C) : Re (a + b) = (Re a + Re b)%R. Proof. reflexivity. Qed.
Lemma fdot_cs {I} (idx : list I) u v : fdot idx u v = Re (cs idx (fun i => Cconj (u i) * v i)).
Proof. unfold fdot. induction idx as [|x t IH]; [reflexivity|]. rewrite cs_cons. cbn [map fold_right]. rewrite IH, re_plus, re_conj_mul. reflexivity. Qed.
Lemma fdot_lsum {I} (idx : list I) u v : fdot idx u v = lsum (fun i => (Re (u i) * Re (v i) + Im (u i) * Im (v i))%R) idx.
Proof. unfold fdot. induction idx as [|x t IH]; [reflexivity|]. cbn [map fold_right lsum]. rewrite IH. reflexivity. Qed.

Lemma fdot_laws {I} (idx : list I) : dot_laws (fspace I) (fdot idx).
Proof.
  constructor; cbn [vec vadd vsub vscale fspace]; intros; rewrite !fdot_lsum.
  - apply lsum_ext. intros. ring.
  - rewrite <- lsum_plus. apply lsum_ext. intros i _. cbn [Re Im Cplus fst snd]. unfold Re, Im, Cplus. cbn. ring.
  - transitivity (lsum (fun i => Re (u i) * Re (w i) + Im (u i) * Im (w i))%R idx + (-1) * lsum (fun i => Re (v i) * Re (w i) + Im (v i) * Im (w i))%R idx)%R; [|ring].
    rewrite <- lsum_scal, <- lsum_plus. apply lsum_ext. intros i _. unfold Re, Im, Cminus, Cplus, Copp. cbn. ring.
  - rewrite <- lsum_scal. apply lsum_ext. intros i _. unfold Re, Im, Cmult, RtoC. cbn. ring.
Qed.
Lemma lsum_nonneg {T} (f : T -> R) l : (forall x, In x l -> (0 <= f x)%R) -> (0 <= lsum f l)%R.
Proof. intros H. rewrite <- (lsum_0 l). apply lsum_le, H. Qed.
Lemma lsum_zero {T} (f : T -> R) l : (forall x, In x l -> (0 <= f x)%R) -> lsum f l = 0%R -> forall x, In x l -> f x = 0%R.
Proof.
  induction l as [|a t IH]; intros H E x Hx; [destruct Hx|]. cbn [lsum] in E. pose proof (H a (or_introl eq_refl)). pose proof (lsum_nonneg f t (fun y Hy => H y (or_intror Hy))).
  destruct Hx as [<-|Hx]; [lra|]. apply IH; [intros; apply H; right; assumption|lra|exact Hx].
Qed.
Lemma fdot_pos {I} (idx : list I) u : (0 <= fdot idx u u)%R.
Proof. rewrite fdot_lsum. apply lsum_nonneg. intros i _. nra. Qed.
Lemma fdot_zero {I} (idx : list I) u : fdot idx u u = 0%R -> forall i, In i idx -> u i = 0.
Proof.
  rewrite fdot_lsum. intros H i Hi. pose proof (lsum_zero (fun i => Re (u i) * Re (u i) + Im (u i) * Im (u i))%R idx (fun j _ => ltac:(nra)) H i Hi) as E. cbn beta in E.
  apply C_eq; cbn; nra.
Qed.
Lemma fdot_ext {I} (idx : list I) u v u' v' : (forall i, In i idx -> u i = u' i) -> (forall i, In i idx -> v i = v' i) -> fdot idx u v = fdot idx u' v'.
Proof. intros H1 H2. rewrite !fdot_lsum. apply lsum_ext. intros i Hi. rewrite H1, H2 by exact Hi. reflexivity. Qed.

(* an orthonormal basis *)
Section B.
Variables (I : Type) (eqd : forall a b : I, {a = b} + {a <> b}) (idx : list I).
Hypothesis ND : NoDup idx.
Definition unit_at (c : C) (i : I) : I -> C := fun j => if eqd j i then c else 0.
Definition basis : list (I -> C) := map (unit_at 1) idx ++ map (unit_at Ci) idx.
Lemma lsum_delta (l : list I) (x : I) (f : I -> R) : NoDup l -> In x l -> lsum (fun j => if eqd j x then f j else 0%R) l = f x.
Proof.
  induction l as [|a t IH]; intros HN HI; [destruct HI|]. inversion_clear HN as [|? ? Na Nt]. cbn [lsum]. destruct (eqd a x) as [->|N].
  - rewrite (lsum_ext _ (fun _ => 0%R)); [rewrite lsum_0; ring|]. intros j Hj. destruct (eqd j x) as [->|_]; [contradiction|reflexivity].
  - destruct HI as [->|HI]; [contradiction|]. rewrite IH by assumption. ring.
Qed.
Lemma fdot_unit c i u : In i idx -> fdot idx (unit_at c i) u = (Re c * Re (u i) + Im c * Im (u i))%R.
Proof.
  intros Hi. rewrite fdot_lsum. rewrite (lsum_ext _ (fun j => if eqd j i then (Re c * Re (u j) + Im c * Im (u j))%R else 0%R)).
  - apply (lsum_delta idx i (fun j => (Re c * Re (u j) + Im c * Im (u j))%R)); assumption.
  - intros j _. unfold unit_at. destruct (eqd j i); [reflexivity|]. cbn. ring.
Qed.
Lemma lsum_app {T} (f : T -> R) l m : lsum f (l ++ m) = (lsum f l + lsum f m)%R.
Proof. induction l as [|x t IH]; cbn; [ring|]. rewrite IH. ring. Qed.
Lemma lsum_map {S T} (f : T -> R) (h : S -> T) l : lsum f (map h l) = lsum (fun x => f (h x)) l.
Proof. induction l as [|x t IH]; cbn; [reflexivity|]. rewrite IH. reflexivity. Qed.
Lemma basis_spanning : spanning (fspace I) (fdot idx) basis.
Proof.
  split.
  - intros e He. apply in_app_or in He as [He|He]; apply in_map_iff in He as (i & <- & Hi); rewrite fdot_unit by exact Hi; unfold unit_at; destruct (eqd i i); try congruence; cbn; ring.
  - intros u. unfold basis. rewrite lsum_app, !lsum_map, <- lsum_plus. rewrite fdot_lsum. apply lsum_ext. intros i Hi. rewrite !fdot_unit by exact Hi. cbn. ring.
Qed.
Lemma basis_len : length basis = (2 * length idx)%nat.
Proof. unfold basis. rewrite app_length, !map_length. lia. Qed.
End B.

Section L.
Variables (I J : Type) (idx : list I) (jdx : list J) (K : I -> J -> C).
Definition Pk (u : I -> C) (j : J) : C := cs idx (fun i => u i * K i j).
Definition PTk (v : J -> C) (i : I) : C := cs jdx (fun j => v j * Cconj (K i j)).
Definition Ak (u : I -> C) : I -> C := PTk (Pk u).
Lemma Pk_lin u a p j : Pk (fun i => u i + RtoC a * p i) j = Pk u j + RtoC a * Pk p j.
Proof. unfold Pk. rewrite <- cs_scal_l, <- cs_plus. apply cs_ext. intros. ring. Qed.
Lemma PTk_lin u a p i : PTk (fun j => u j + RtoC a * p j) i = PTk u i + RtoC a * PTk p i.
Proof. unfold PTk. rewrite <- cs_scal_l, <- cs_plus. apply cs_ext. intros. ring. Qed.
Lemma PTk_ext u v i : (forall j, In j jdx -> u j = v j) -> PTk u i = PTk v i.
Proof. intros H. apply cs_ext. intros j Hj. rewrite H by exact Hj. reflexivity. Qed.
Lemma Pk_ext u v j : (forall i, In i idx -> u i = v i) -> Pk u j = Pk v j.
Proof. intros H. apply cs_ext. intros i Hi. rewrite H by exact Hi. reflexivity. Qed.
Lemma adj u v : cs idx (fun i => Cconj (u i) * PTk v i) = cs jdx (fun j => Cconj (Pk u j) * v j).
Proof.
  transitivity (cs idx (fun i => cs jdx (fun j => Cconj (u i) * (v j * Cconj (K i j))))).
  - apply cs_ext. intros i _. unfold PTk. rewrite cs_scal_l. reflexivity.
  - rewrite cs_swap. apply cs_ext. intros j _. unfold Pk. rewrite cs_conj, <- cs_scal_r. apply cs_ext. intros i _. rewrite Cmult_conj. ring.
Qed.
Lemma adjR u v : fdot idx u (PTk v) = fdot jdx (Pk u) v.
Proof. rewrite !fdot_cs, adj. reflexivity. Qed.

Lemma lin_Ak : linear_system (fspace I) Ak.
Proof.
  constructor; cbn [vec vadd vsub vscale vzero fspace]; intros.
  - apply functional_extensionality. intros i. unfold Ak. rewrite (PTk_ext _ (fun j => Pk x j + RtoC a * Pk p j)) by (intros; apply Pk_lin). apply PTk_lin.
  - apply functional_extensionality. intros i. unfold Ak. rewrite (PTk_ext _ (fun j => Pk x j + RtoC a * Pk p j)).
    + rewrite PTk_lin. ring.
    + intros j _. rewrite <- Pk_lin. apply Pk_ext. intros. ring.
  - apply functional_extensionality. intros i. ring.
  - apply functional_extensionality. intros i. unfold Ak, PTk. rewrite (cs_ext _ _ (fun _ => RtoC 0)); [rewrite cs_0; ring|]. intros j _. unfold Pk. rewrite (cs_ext _ _ (fun _ => RtoC 0)) by (intros; ring). rewrite cs_0. ring.
Qed.
Lemma sa_Ak : selfadjoint (fdot idx) Ak.
Proof. intros u v. rewrite (dl_sym _ _ (fdot_laws idx) (Ak u)). unfold Ak. rewrite !adjR. apply (dl_sym _ _ (fdot_laws jdx)). Qed.

(* orthogonal to everything the fit cannot see *)
Definition seen (u : I -> C) : Prop := forall v, (forall j, In j jdx -> Pk v j = 0) -> fdot idx u v = 0%R.
Lemma seen_PT v : seen (PTk v).
Proof.
  intros u Hu. rewrite (dl_sym _ _ (fdot_laws idx)), adjR. rewrite (fdot_ext jdx _ v (fun _ => 0) v) by (auto). rewrite fdot_lsum.
  rewrite (lsum_ext _ (fun _ => 0%R)); [apply lsum_0|]. intros. cbn. ring.
Qed.
Lemma seen_D u : seen u -> fdot idx u (Ak u) = 0%R -> fdot idx u u = 0%R.
Proof. intros HS H. apply HS. unfold Ak in H. rewrite adjR in H. exact (fdot_zero jdx _ H). Qed.

Variables (a : J -> C) (eps : R).
Hypothesis eps0 : (0 <= eps)%R.
Let b := PTk a.
Let init := cg_init (fspace I) Ak (fun z => z) (fdot idx) b None.
Let step := cg_step (fspace I) Ak (fun z => z) (fdot idx).

Lemma Kadd u v c : seen u -> seen v -> seen (vadd (fspace I) u (vscale (fspace I) c v)).
Proof. intros Hu Hv w Hw. rewrite (dl_add _ _ (fdot_laws idx)), (dl_scale _ _ (fdot_laws idx)), Hu, Hv by exact Hw. ring. Qed.
Lemma Ksub u v c : seen u -> seen v -> seen (vsub (fspace I) u (vscale (fspace I) c v)).
Proof. intros Hu Hv w Hw. rewrite (dl_sub _ _ (fdot_laws idx)), (dl_scale _ _ (fdot_laws idx)), Hu, Hv by exact Hw. ring. Qed.

(* where the loop is *)
Lemma while_done fuel : forall n s x, iter step n init = Some s -> cg_while (fspace I) Ak (fdot idx) eps fuel s = Done x ->
  exists k s', iter step k init = Some s' /\ x = cg_x s' /\ above (cg_err s') eps = false.
Proof.
  induction fuel as [|f IH]; intros n s x H D; cbn [cg_while] in D; destruct (above (cg_err s) eps) eqn:E; try discriminate; try (injection D as <-; exists n, s; auto).
  destruct (cg_step _ _ _ _ s) as [s1|] eqn:ES; [|discriminate]. apply (IH (S n) s1); [rewrite iter_snoc, H; exact ES|exact D].
Qed.
Lemma iter_err n : forall s, iter step n init = Some s -> cg_err s = match n with O => None | _ => Some (cg_rz s / fdot idx b b)%R end.
Proof.
  induction n as [|n IH]; intros s H; [cbn in H; apply Some_inj in H; subst s; reflexivity|].
  pose proof H as H0. rewrite iter_snoc in H. destruct (iter step n init) as [t|] eqn:E; [|discriminate].
  destruct (iter_rz0 (fspace I) (fdot idx) (fdot_laws idx) Ak b sa_Ak n t E) as (R0 & _ & _). unfold step, cg_step in H. do 3 (destruct (Req_EM_T _ _); try discriminate). apply Some_inj in H. subst s. cbn [cg_err cg_rz]. rewrite R0. reflexivity.
Qed.
Lemma solve_residual fuel x : solve (fspace I) Ak (fdot idx) b eps fuel = Done x ->
  (fdot idx (fun i => (b i - Ak x i)%C) (fun i => (b i - Ak x i)%C) <= eps * fdot idx b b)%R.
Proof.
  intros D. destruct (while_done fuel O init x eq_refl D) as (k & s & H & -> & E).
  pose proof (iter_honest (fspace I) Ak (fun z => z) (fdot idx) b lin_Ak k _ _ H (init_honest _ _ _ _ _ lin_Ak None)) as Hr. unfold honest in Hr. cbn [vsub fspace] in Hr.
  destruct (iter_rz0 (fspace I) (fdot idx) (fdot_laws idx) Ak b sa_Ak k s H) as (R0 & RZ & _). rewrite (iter_err k s H) in E. destruct k as [|k]; [discriminate|].
  cbn [above] in E. destruct (Rlt_dec eps _) as [|NL]; [discriminate|]. apply Rnot_lt_le in NL.
  assert (Nb : fdot idx b b <> 0%R). { intros Z. rewrite iter_snoc in H. destruct (iter step k init) as [t|] eqn:Et; [|discriminate]. destruct k as [|k]; [cbn in Et; apply Some_inj in Et; subst t; exact (step_ok0 (fspace I) (fdot idx) Ak b _ Z H)|].
    cbn [iter] in Et. destruct (step init) as [s1|] eqn:E1; [|discriminate]. exact (step_ok0 (fspace I) (fdot idx) Ak b _ Z E1). }
  pose proof (fdot_pos idx b) as Pb. assert (Pb' : (0 < fdot idx b b)%R) by lra.
  rewrite <- Hr. rewrite <- RZ. apply (Rmult_le_reg_r (/ fdot idx b b)); [apply Rinv_0_lt_compat, Pb'|]. replace (eps * fdot idx b b * / fdot idx b b)%R with eps by (field; lra). exact NL.
Qed.
Lemma while_ends (eqd : forall x y : I, {x = y} + {x <> y}) : NoDup idx -> fdot idx b b <> 0%R -> forall fuel n s, iter step n init = Some s -> (2 * length idx <= fuel + n)%nat ->
  (cg_rz s <> 0%R \/ n <> O) -> exists x, cg_while (fspace I) Ak (fdot idx) eps fuel s = Done x.
Proof.
  intros ND Nb. assert (KD : forall u, seen u -> fdot idx u (Ak u) = 0%R -> fdot idx u u = 0%R) by apply seen_D.
  induction fuel as [|f IH]; intros n s H HF Hs; cbn [cg_while]; destruct (above (cg_err s) eps) eqn:E; try (eexists; reflexivity).
  - exfalso. destruct (iter_bound (fspace I) (fdot idx) (fdot_laws idx) (fdot_pos idx) Ak b sa_Ak (basis I eqd idx) n s (basis_spanning I eqd idx ND) H) as [_ Q0]. assert (Q : cg_rz s <> 0%R -> (n < 2 * length idx)%nat) by (rewrite <- (basis_len I eqd idx); exact Q0).
    destruct (Req_EM_T (cg_rz s) 0) as [Z|N]; [|specialize (Q N); lia]. rewrite (iter_err n s H) in E. destruct n as [|n]; [destruct Hs; congruence|]. rewrite Z in E. cbn [above] in E. unfold Rdiv in E. rewrite Rmult_0_l in E. destruct (Rlt_dec eps 0); [lra|discriminate].
  - destruct (Req_EM_T (cg_rz s) 0) as [Z|N].
    + exfalso. rewrite (iter_err n s H) in E. destruct n as [|n]; [destruct Hs; congruence|]. rewrite Z in E. cbn [above] in E. unfold Rdiv in E. rewrite Rmult_0_l in E. destruct (Rlt_dec eps 0); [lra|discriminate].
    + destruct (step_ok (fspace I) (fdot idx) (fdot_laws idx) (fdot_pos idx) Ak b sa_Ak seen (seen_PT a) Kadd Ksub (fun u => seen_PT (Pk u)) KD n s Nb H N) as [s' ES]. rewrite ES.
      apply (IH (S n)); [rewrite iter_snoc, H; exact ES|lia|right; discriminate].
Qed.
Lemma solve_ends (eqd : forall x y : I, {x = y} + {x <> y}) fuel : NoDup idx -> fdot idx b b <> 0%R -> (2 * length idx <= fuel)%nat -> exists x, solve (fspace I) Ak (fdot idx) b eps fuel = Done x.
Proof. intros ND Nb HF. apply (while_ends eqd ND Nb fuel O init eq_refl); [lia|]. left. exact Nb. Qed.
Lemma solve_zero fuel : fdot idx b b = 0%R -> (0 < fuel)%nat -> solve (fspace I) Ak (fdot idx) b eps fuel = Nan.
Proof.
  intros Z HF. destruct fuel as [|f]; [lia|]. unfold solve. cbn [cg_while cg_init cg_err above]. destruct (cg_step _ _ _ _ _) as [s|] eqn:E; [|reflexivity]. exfalso. exact (step_ok0 (fspace I) (fdot idx) Ak b _ Z E).
Qed.

(* a zero residual is a least-squares fit *)
Lemma zero_least x u : (forall i, In i idx -> b i - Ak x i = 0) ->
  (fdot jdx (fun j => (Pk x j - a j)%C) (fun j => (Pk x j - a j)%C) <= fdot jdx (fun j => (Pk u j - a j)%C) (fun j => (Pk u j - a j)%C))%R.
Proof.
  intros HZ. assert (M1 : RtoC (-1) = - RtoC 1) by (apply C_eq; cbn; ring). set (e := fun j => Pk x j - a j). set (d := fun i => u i - x i).
  assert (E1 : forall j, Pk u j - a j = e j + RtoC 1 * Pk d j).
  { intros j. unfold e. rewrite (Pk_ext u (fun i => x i + RtoC 1 * d i)) by (intros; unfold d; ring). rewrite Pk_lin. ring. }
  rewrite (fdot_ext jdx (fun j => Pk u j - a j) _ (fun j => e j + RtoC 1 * Pk d j) (fun j => e j + RtoC 1 * Pk d j)) by (intros; apply E1).
  pose proof (fdot_laws jdx) as DL. change (fun j => e j + RtoC 1 * Pk d j) with (vadd (fspace J) e (vscale (fspace J) 1 (Pk d))).
  rewrite (dl_add _ _ DL), (dl_scale _ _ DL), !(dadd (fspace J) (fdot jdx) DL), !(dscale (fspace J) (fdot jdx) DL).
  assert (E2 : fdot jdx (Pk d) e = 0%R).
  { rewrite <- adjR. rewrite (fdot_ext idx d _ d (fun _ => 0)); [rewrite fdot_lsum, (lsum_ext _ (fun _ => 0%R)); [apply lsum_0|]; intros; cbn; ring|reflexivity|].
    intros i Hi. specialize (HZ i Hi). unfold e. rewrite (PTk_ext _ (fun j => Pk x j + RtoC (-1) * a j)) by (intros; rewrite M1; ring). rewrite PTk_lin. change (PTk (Pk x) i) with (Ak x i). change (PTk a i) with (b i).
    replace (Ak x i + RtoC (-1) * b i) with (- (b i - Ak x i)) by (rewrite M1; ring). rewrite HZ. ring. }
  rewrite (dl_sym _ _ DL e (Pk d)). rewrite E2. pose proof (fdot_pos jdx (Pk d)). lra.
Qed.
End L.
