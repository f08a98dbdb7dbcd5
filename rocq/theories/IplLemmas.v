(* Lemmas for IplProps: sums, and adjoints of the spline filter's steps. *)
From Coq Require Import Reals Lra FunctionalExtensionality.
From Verif Require Import Base AlmModel IplSpec IplModel.
Ltac Zify.zify_post_hook ::= idtac.
Open Scope R_scope.

(* ---------------------------------------------------------------- sums *)
Lemma rsuml_app l1 l2 : rsuml (l1 ++ l2) = rsuml l1 + rsuml l2.
Proof. induction l1 as [|x l1 IH]; cbn [app rsuml]; [ring|]. rewrite IH. ring. Qed.
Lemma rsuml_perm l1 l2 : Permutation l1 l2 -> rsuml l1 = rsuml l2.
Proof. induction 1; cbn [rsuml]; try lra; congruence. Qed.
Lemma rsuml_ext {A} (f g : A -> R) l : (forall x, In x l -> f x = g x) -> rsuml (map f l) = rsuml (map g l).
Proof. intros H. rewrite (map_ext_in f g l H). reflexivity. Qed.
Lemma rsuml_zero {A} (f : A -> R) l : (forall x, In x l -> f x = 0) -> rsuml (map f l) = 0.
Proof. induction l as [|x l IH]; intros H; cbn [map rsuml]; [reflexivity|]. rewrite H by (left; reflexivity). rewrite IH by (intros; apply H; right; assumption). ring. Qed.
Lemma rsuml_plus {A} (f g : A -> R) l : rsuml (map (fun x => f x + g x) l) = rsuml (map f l) + rsuml (map g l).
Proof. induction l as [|x l IH]; cbn [map rsuml]; [ring|]. rewrite IH. ring. Qed.
Lemma rsuml_scal {A} c (f : A -> R) l : rsuml (map (fun x => c * f x) l) = c * rsuml (map f l).
Proof. induction l as [|x l IH]; cbn [map rsuml]; [ring|]. rewrite IH. ring. Qed.
Lemma rsuml_swap {A B} (f : A -> B -> R) l m :
  rsuml (map (fun x => rsuml (map (f x) m)) l) = rsuml (map (fun y => rsuml (map (fun x => f x y) l)) m).
Proof.
  induction l as [|x l IH]; cbn [map rsuml]; [symmetry; apply rsuml_zero; reflexivity|].
  rewrite IH, <- rsuml_plus. apply rsuml_ext. reflexivity.
Qed.
Lemma rsuml_flat_map {A B} (f : B -> R) (g : A -> list B) l : rsuml (map f (flat_map g l)) = rsuml (map (fun x => rsuml (map f (g x))) l).
Proof. induction l as [|x l IH]; cbn [flat_map map rsuml]; [reflexivity|]. rewrite map_app, rsuml_app, IH. reflexivity. Qed.
Lemma rsuml_delta (f : Z -> R) l d : NoDup l -> In d l -> rsuml (map (fun e => if (e =? d)%Z then f e else 0) l) = f d.
Proof.
  induction l as [|x l IH]; intros ND HI; [destruct HI|]. inversion ND as [|? ? Hn ND']; subst. cbn [map rsuml].
  destruct (Z.eqb_spec x d) as [E|E].
  - subst. rewrite rsuml_zero; [ring|]. intros y Hy. destruct (Z.eqb_spec y d); [subst; contradiction|reflexivity].
  - destruct HI as [|HI]; [contradiction|]. rewrite IH by assumption. ring.
Qed.
Lemma zrange_nodup a b : NoDup (zrange a b).
Proof. apply zrange_NoDup. Qed.
Lemma rsuml_filter {A} (t : A -> bool) (f : A -> R) l : rsuml (map (fun x => if t x then f x else 0) l) = rsuml (map f (filter t l)).
Proof. induction l as [|x l IH]; cbn [map filter rsuml]; [reflexivity|]. destruct (t x); cbn [map rsuml]; rewrite IH; ring. Qed.

Lemma zrange_block (A B : Z) (h : Z -> R) : (0 <= A)%Z -> (0 <= B)%Z ->
  rsuml (map h (zrange 0 (A * B))) = rsuml (map (fun j => rsuml (map (fun s => h (j * B + s)%Z) (zrange 0 B))) (zrange 0 A)).
Proof.
  intros HA HB. pattern A. apply natlike_ind; [..|exact HA].
  - reflexivity.
  - intros a Ha IH. rewrite (zrange_split 0 (a * B) (Z.succ a * B)) by nia. rewrite map_app, rsuml_app, IH.
    unfold Z.succ at 2. rewrite (zrange_snoc 0 a) by lia. rewrite map_app, rsuml_app. cbn [map rsuml]. rewrite Rplus_0_r.
    f_equal.
    replace (Z.succ a * B)%Z with (a * B + B)%Z by ring. unfold zrange. replace (a * B + B - a * B)%Z with B by ring. rewrite Z.sub_0_r.
    generalize (Z.to_nat B). intros k. f_equal.
    assert (G : forall k c d, map h (zseq (c + d) k) = map (fun s => h (c + s)%Z) (zseq d k)).
    { clear. induction k as [|k IH]; intros c d; cbn [zseq map]; [reflexivity|]. f_equal. rewrite <- IH. f_equal. f_equal. lia. }
    rewrite <- (G k (a * B)%Z 0%Z). f_equal. f_equal. lia.
Qed.

(* ---------------------------------------------------------------- folds *)
Lemma ofold_total {S A} (f : S -> A -> option S) (g : S -> A -> S) l s :
  (forall s x, In x l -> f s x = Some (g s x)) -> ofold f l s = Some (fold_left g l s).
Proof.
  revert s; induction l as [|x l IH]; intros s H; cbn [ofold fold_left]; [reflexivity|].
  rewrite H by (left; reflexivity). apply IH. intros; apply H; right; assumption.
Qed.
Lemma ofold_app {S A} (f : S -> A -> option S) l1 l2 s : ofold f (l1 ++ l2) s = (s <- ofold f l1 s;; ofold f l2 s).
Proof. revert s; induction l1 as [|x l1 IH]; intros s; cbn [app ofold bind]; [reflexivity|]. destruct (f s x); [apply IH|reflexivity]. Qed.

(* ---------------------------------------------------------------- adjoint programs *)
Section Adjoint.
Variable d : arr -> arr -> R.

Definition adjf (F G : arr -> arr) : Prop := forall f g, d (F f) g = d f (G g).
Definition adjp (P Q : arr -> option arr) : Prop :=
  exists F G, (forall a, P a = Some (F a)) /\ (forall a, Q a = Some (G a)) /\ adjf F G.

Lemma adjp_id : adjp (@Some arr) (@Some arr).
Proof. exists (fun a => a), (fun a => a). repeat split. Qed.
Lemma adjp_bind P1 Q1 P2 Q2 : adjp P1 Q1 -> adjp P2 Q2 -> adjp (fun a => a <- P1 a;; P2 a) (fun a => a <- Q2 a;; Q1 a).
Proof.
  intros (F1 & G1 & HP1 & HQ1 & A1) (F2 & G2 & HP2 & HQ2 & A2).
  exists (fun a => F2 (F1 a)), (fun a => G1 (G2 a)). split; [|split].
  - intros a. rewrite HP1. cbn [bind]. apply HP2.
  - intros a. rewrite HQ2. cbn [bind]. apply HQ1.
  - intros f g. rewrite A2, A1. reflexivity.
Qed.
Lemma adjp_ofold {A} (P Q : arr -> A -> option arr) l :
  (forall x, In x l -> adjp (fun a => P a x) (fun a => Q a x)) -> adjp (ofold P l) (ofold Q (rev l)).
Proof.
  induction l as [|x l IH]; intros H; [apply adjp_id|].
  destruct (adjp_bind _ _ _ _ (H x (or_introl eq_refl)) (IH (fun y Hy => H y (or_intror Hy)))) as (F & G & HF & HG & HA).
  exists F, G. split; [|split; [|exact HA]].
  - intros a. rewrite <- HF. reflexivity.
  - intros a. rewrite <- HG. cbn [rev]. rewrite ofold_app. cbn [ofold]. destruct (ofold Q (rev l) a) as [b|]; cbn [bind]; [|reflexivity]. destruct (Q b x); reflexivity.
Qed.
Lemma adjp_ext P Q P' Q' : (forall a, P a = P' a) -> (forall a, Q a = Q' a) -> adjp P Q -> adjp P' Q'.
Proof. intros HP HQ (F & G & HF & HG & HA). exists F, G. split; [|split]; [intros a; rewrite <- HP; apply HF|intros a; rewrite <- HQ; apply HG|exact HA]. Qed.
Lemma adjp_dot P Q : adjp P Q -> forall x y, exists x' y', P x = Some x' /\ Q y = Some y' /\ d x' y = d x y'.
Proof. intros (F & G & HF & HG & HA) x y. exists (F x), (G y). split; [apply HF|]. split; [apply HG|]. apply HA. Qed.
End Adjoint.

(* ---------------------------------------------------------------- one line *)
Definition dot1 (n : Z) (f g : arr) : R := rsuml (map (fun i => f i * g i) (zrange 1 (n + 1))).
Definition setf (f : arr) (i : Z) (v : R) : arr := fun j => if (j =? i)%Z then v else f j.
Definition ind (i j : Z) : R := if (j =? i)%Z then 1 else 0.
Definition lin (n i : Z) (c : Z -> R) (f : arr) : arr := setf f i (dot1 n c f).
Definition linT (i : Z) (c : Z -> R) (g : arr) : arr := fun j => (if (j =? i)%Z then 0 else g j) + c j * g i.

Lemma lin_adj n i c : (1 <= i <= n)%Z -> adjf (dot1 n) (lin n i c) (linT i c).
Proof.
  intros Hi f g. unfold lin, linT, dot1.
  transitivity (rsuml (map (fun j => (if (j =? i)%Z then dot1 n c f * g j else 0) + (if (j =? i)%Z then 0 else f j * g j)) (zrange 1 (n + 1)))).
  - apply rsuml_ext. intros j _. unfold setf. destruct (j =? i)%Z; unfold dot1; ring.
  - rewrite rsuml_plus, (rsuml_delta (fun j => dot1 n c f * g j) _ i) by (try apply zrange_nodup; apply zrange_In; lia).
    unfold dot1. rewrite Rmult_comm, <- rsuml_scal, <- rsuml_plus. apply rsuml_ext. intros j _. destruct (j =? i)%Z; ring.
Qed.

Lemma rd_in n a i : (1 <= i <= n)%Z -> rd n a i = Some (a i).
Proof. intros H. unfold rd. destruct ((1 <=? i) && (i <=? n))%Z eqn:E; [reflexivity|lia]. Qed.
Lemma wr_in n a i v : (1 <= i <= n)%Z -> wr n a i v = Some (setf a i v).
Proof. intros H. unfold wr. destruct ((1 <=? i) && (i <=? n))%Z eqn:E; [reflexivity|lia]. Qed.

Lemma dot1_ind n i f : (1 <= i <= n)%Z -> dot1 n (ind i) f = f i.
Proof.
  intros H. unfold dot1, ind. rewrite <- (rsuml_delta f (zrange 1 (n + 1)) i) by (try apply zrange_nodup; apply zrange_In; lia).
  apply rsuml_ext. intros j _. destruct (j =? i)%Z; ring.
Qed.
Lemma dot1_plus n c e f : dot1 n (fun j => c j + e j) f = dot1 n c f + dot1 n e f.
Proof. unfold dot1. rewrite <- rsuml_plus. apply rsuml_ext. intros; ring. Qed.
Lemma dot1_scal n q c f : dot1 n (fun j => q * c j) f = q * dot1 n c f.
Proof. unfold dot1. rewrite <- rsuml_scal. apply rsuml_ext. intros; ring. Qed.
Lemma dot1_comm n f g : dot1 n f g = dot1 n g f.
Proof. unfold dot1. apply rsuml_ext. intros; ring. Qed.
Lemma dot1_0 n f : dot1 n (fun _ => 0) f = 0.
Proof. unfold dot1. apply rsuml_zero. intros; ring. Qed.

(* a program that performs lin, and one that performs its transpose *)
Lemma adjp_lin n i c P Q : (1 <= i <= n)%Z -> (forall a, P a = Some (lin n i c a)) -> (forall a, Q a = Some (linT i c a)) -> adjp (dot1 n) P Q.
Proof. intros Hi HP HQ. exists (lin n i c), (linT i c). split; [exact HP|]. split; [exact HQ|]. apply lin_adj, Hi. Qed.

Lemma setf_setf a i u v : setf (setf a i u) i v = setf a i v.
Proof. apply functional_extensionality. intros j. unfold setf. destruct (j =? i)%Z; reflexivity. Qed.
Lemma setf_same a i v : setf a i v i = v.
Proof. unfold setf. rewrite Z.eqb_refl. reflexivity. Qed.
Lemma setf_other a i v j : j <> i -> setf a i v j = a j.
Proof. intros H. unfold setf. destruct (Z.eqb_spec j i); [contradiction|reflexivity]. Qed.

(* coefficients p^k at the k-th index of a list *)
Fixpoint coef (p : R) (l : list Z) (pn : R) (e : Z) : R :=
  match l with [] => 0 | i :: l => ind i e * pn + coef p l (pn * p) e end.
Lemma coef_out p l pn e : ~ In e l -> coef p l pn e = 0.
Proof.
  revert pn; induction l as [|i l IH]; intros pn H; cbn [coef]; [reflexivity|]. rewrite IH by (intros G; apply H; right; exact G).
  unfold ind. destruct (Z.eqb_spec e i); [exfalso; apply H; left; congruence|ring].
Qed.
Lemma coef_app p l1 l2 pn e : coef p (l1 ++ l2) pn e = coef p l1 pn e + coef p l2 (pn * p ^ length l1) e.
Proof. revert pn; induction l1 as [|i l1 IH]; intros pn; cbn [app coef length pow]; [rewrite Rmult_1_r; ring|]. rewrite IH. replace (pn * p * p ^ length l1) with (pn * (p * p ^ length l1)) by ring. ring. Qed.

Lemma gather_spec n p l a pn : (1 <= n)%Z -> (forall i, In i l -> (2 <= i <= n)%Z) ->
  ofold (gather1 n p) l (a, pn) = Some (setf a 1 (a 1%Z + dot1 n (coef p l pn) a), pn * p ^ length l).
Proof.
  intros Hn. revert a pn; induction l as [|i l IH]; intros a pn H; cbn [ofold length pow].
  - cbn [coef]. rewrite dot1_0, !Rplus_0_r, Rmult_1_r. f_equal. f_equal. apply functional_extensionality. intros j. unfold setf. destruct (Z.eqb_spec j 1); congruence.
  - assert (Hi := H i (or_introl eq_refl)). unfold gather1 at 1. rewrite !rd_in by lia. cbn [bind]. rewrite wr_in by lia. cbn [bind].
    rewrite IH by (intros; apply H; right; assumption).
    rewrite setf_setf, setf_same. cbn [coef].
    assert (E : dot1 n (fun e => ind i e * pn + coef p l (pn * p) e) a = pn * a i + dot1 n (coef p l (pn * p)) a).
    { rewrite (dot1_plus n (fun e => ind i e * pn)). f_equal. transitivity (dot1 n (fun e => pn * ind i e) a); [unfold dot1; apply rsuml_ext; intros; ring|]. rewrite dot1_scal, dot1_ind by lia. reflexivity. }
    rewrite E.
    assert (E2 : dot1 n (coef p l (pn * p)) (setf a 1 (a 1%Z + pn * a i)) = dot1 n (coef p l (pn * p)) a).
    { unfold dot1. apply rsuml_ext. intros k Hk. unfold setf. destruct (Z.eqb_spec k 1); [|reflexivity]. subst k. rewrite coef_out; [ring|]. intros G. specialize (H 1%Z (or_intror G)). lia. }
    rewrite E2. f_equal. f_equal; [f_equal|]; ring.
Qed.
Lemma spread_spec n p v l a pn : (forall i, In i l -> (1 <= i <= n)%Z) ->
  ofold (spread n p v) l (a, pn) = Some (fun e => a e + v * coef p l pn e, pn * p ^ length l).
Proof.
  revert a pn; induction l as [|i l IH]; intros a pn H; cbn [ofold length pow coef].
  - f_equal. f_equal; [apply functional_extensionality; intros; ring|ring].
  - assert (Hi := H i (or_introl eq_refl)). unfold spread at 1. rewrite rd_in by lia. cbn [bind]. rewrite wr_in by lia. cbn [bind].
    rewrite IH by (intros; apply H; right; assumption). f_equal. f_equal; [|ring].
    apply functional_extensionality. intros e. unfold setf, ind. destruct (Z.eqb_spec e i) as [E|E]; [subst|]; ring.
Qed.
Lemma accum_spec n p a l v pn : (forall i, In i l -> (1 <= i <= n)%Z) ->
  ofold (accum n p a) l (v, pn) = Some (v + dot1 n (coef p l pn) a, pn * p ^ length l).
Proof.
  revert v pn; induction l as [|i l IH]; intros v pn H; cbn [ofold length pow coef].
  - rewrite dot1_0. f_equal. f_equal; ring.
  - assert (Hi := H i (or_introl eq_refl)). unfold accum at 1. rewrite rd_in by lia. cbn [bind].
    rewrite IH by (intros; apply H; right; assumption). f_equal. f_equal; [|ring].
    rewrite (dot1_plus n (fun e => ind i e * pn)).
    replace (dot1 n (fun e => ind i e * pn) a) with (a i * pn); [ring|].
    transitivity (pn * dot1 n (ind i) a); [rewrite dot1_ind by lia; ring|]. rewrite <- dot1_scal. unfold dot1. apply rsuml_ext; intros; ring.
Qed.

(* ---------------------------------------------------------------- the steps of one pole *)
Lemma adj_div1 n q : (1 <= n)%Z -> adjp (dot1 n) (fun a => div1 n a q) (fun a => div1 n a q).
Proof.
  intros Hn. apply (adjp_lin n 1 (fun j => / q * ind 1 j)); [lia|..]; intros a; unfold div1; rewrite rd_in by lia; cbn [bind]; rewrite wr_in by lia; f_equal; unfold lin, linT.
  - rewrite dot1_scal, dot1_ind by lia. f_equal. unfold Rdiv. ring.
  - apply functional_extensionality. intros j. unfold setf, ind, Rdiv. destruct (Z.eqb_spec j 1); ring.
Qed.

Lemma causal_adj b n m p : (2 <= n)%Z -> adjp (dot1 n) (causal_init b n m p) (causal_init_T b n m p).
Proof.
  intros Hn. destruct b.
  - apply adjp_id.
  - apply (adj_div1 n (1 - p)). lia.
  - set (l := map (fun i => n - i)%Z (zrange 0 (Z.min n m - 1))).
    assert (Hl : forall i, In i l -> (2 <= i <= n)%Z).
    { intros i Hi. unfold l in Hi. apply in_map_iff in Hi as (k & E & Hk). apply zrange_In in Hk. lia. }
    destruct (Z.geb_spec m n) as [Hm|Hm].
    + assert (El : p * p ^ length l = p ^ Z.to_nat n).
      { unfold l. rewrite map_length. unfold zrange. rewrite zseq_length. replace (Z.to_nat n) with (S (Z.to_nat (Z.min n m - 1 - 0))) by lia. reflexivity. }
      set (q := 1 - p ^ Z.to_nat n).
      apply (adjp_lin n 1 (fun j => / q * (ind 1 j + coef p l p j))); [lia|..]; intros a; unfold causal_init, causal_init_T; replace (m >=? n)%Z with true by lia; fold l.
      * rewrite gather_spec by (lia || exact Hl). cbn [bind fst snd]. unfold div1. rewrite rd_in by lia. cbn [bind]. rewrite wr_in by lia.
        rewrite setf_setf, setf_same, El. unfold lin. rewrite dot1_scal, dot1_plus, dot1_ind by lia. f_equal. f_equal. unfold q, Rdiv. ring.
      * unfold div1. rewrite rd_in by lia. cbn [bind]. rewrite wr_in by lia. cbn [bind]. rewrite rd_in by lia. cbn [bind].
        rewrite spread_spec by (intros i Hi; apply Hl in Hi; lia). cbn [bind fst]. f_equal. apply functional_extensionality. intros j.
        rewrite setf_same. unfold linT, setf, ind, Rdiv, q. destruct (Z.eqb_spec j 1) as [E|E]; [subst; rewrite coef_out by (intros G; apply Hl in G; lia)|]; ring.
    + apply (adjp_lin n 1 (fun j => ind 1 j + coef p l p j)); [lia|..]; intros a; unfold causal_init, causal_init_T; replace (m >=? n)%Z with false by lia; fold l.
      * rewrite gather_spec by (lia || exact Hl). cbn [bind fst snd]. unfold lin. rewrite dot1_plus, dot1_ind by lia. reflexivity.
      * cbn [bind]. rewrite rd_in by lia. cbn [bind].
        rewrite spread_spec by (intros i Hi; apply Hl in Hi; lia). cbn [bind fst]. f_equal. apply functional_extensionality. intros j.
        unfold linT, ind. destruct (Z.eqb_spec j 1) as [E|E]; [subst; rewrite coef_out by (intros G; apply Hl in G; lia)|]; ring.
  - set (l := zrange 2 (Z.min m n + 1)).
    assert (Hl : forall i, In i l -> (2 <= i <= n)%Z) by (intros i Hi; apply zrange_In in Hi; lia).
    destruct (Z.geb_spec m n) as [Hm|Hm].
    + set (l2 := rev (zrange 2 n)).
      assert (Hl2 : forall i, In i l2 -> (2 <= i <= n)%Z) by (intros i Hi; apply in_rev, zrange_In in Hi; lia).
      assert (El : p * p ^ length l * p ^ length l2 = p ^ Z.to_nat (2 * n - 2)).
      { unfold l, l2. rewrite rev_length. unfold zrange. rewrite !zseq_length. rewrite Rmult_assoc, <- pow_add. change (p * p ^ ?k) with (p ^ S k). f_equal. lia. }
      set (q := 1 - p ^ Z.to_nat (2 * n - 2)).
      apply (adjp_lin n 1 (fun j => / q * (ind 1 j + coef p (l ++ l2) p j))); [lia|..]; intros a; unfold causal_init, causal_init_T; replace (m >=? n)%Z with true by lia; fold l; fold l2.
      * assert (G : ofold (gather1 n p) (l ++ l2) (a, p) = (st <- ofold (gather1 n p) l (a, p);; ofold (gather1 n p) l2 st)) by apply ofold_app.
        rewrite gather_spec in G by (lia || (intros i Hi; apply in_app_or in Hi as [Hi|Hi]; auto)).
        destruct (ofold (gather1 n p) l (a, p)) as [st|]; [|discriminate G]. cbn [bind] in G |- *. rewrite <- G. cbn [bind fst snd].
        unfold div1. rewrite rd_in by lia. cbn [bind]. rewrite wr_in by lia. rewrite setf_setf, setf_same, app_length, pow_add, <- Rmult_assoc, El.
        unfold lin. rewrite dot1_scal, dot1_plus, dot1_ind by lia. f_equal. f_equal. unfold q, Rdiv. ring.
      * unfold div1. rewrite rd_in by lia. cbn [bind]. rewrite wr_in by lia. cbn [bind]. rewrite rd_in by lia. cbn [bind].
        rewrite spread_spec by (intros i Hi; apply Hl in Hi; lia). cbn [bind]. rewrite spread_spec by (intros i Hi; apply Hl2 in Hi; lia). cbn [bind fst].
        f_equal. apply functional_extensionality. intros j. unfold linT. rewrite setf_same, coef_app. unfold setf, ind, Rdiv, q.
        destruct (Z.eqb_spec j 1) as [E|E]; [subst; rewrite !coef_out by (intros G; (apply Hl in G || apply Hl2 in G); lia)|]; ring.
    + apply (adjp_lin n 1 (fun j => ind 1 j + coef p l p j)); [lia|..]; intros a; unfold causal_init, causal_init_T; replace (m >=? n)%Z with false by lia; fold l.
      * rewrite gather_spec by (lia || exact Hl). cbn [bind fst snd]. unfold lin. rewrite dot1_plus, dot1_ind by lia. reflexivity.
      * cbn [bind]. rewrite rd_in by lia. cbn [bind].
        rewrite spread_spec by (intros i Hi; apply Hl in Hi; lia). cbn [bind fst]. f_equal. apply functional_extensionality. intros j.
        unfold linT, ind. destruct (Z.eqb_spec j 1) as [E|E]; [subst; rewrite coef_out by (intros G; apply Hl in G; lia)|]; ring.
Qed.

(* a(i) = c*a(i) + e*a(k) *)
Lemma lin2 n i k c e a : (1 <= i <= n)%Z -> (1 <= k <= n)%Z -> lin n i (fun j => c * ind i j + e * ind k j) a = setf a i (c * a i + e * a k).
Proof. intros Hi Hk. unfold lin. rewrite dot1_plus, !dot1_scal, !dot1_ind by lia. reflexivity. Qed.
Lemma linT2 i k c e g : i <> k -> linT i (fun j => c * ind i j + e * ind k j) g = setf (setf g k (g k + e * g i)) i (c * g i).
Proof.
  intros Hk. apply functional_extensionality. intros j. unfold linT, setf, ind.
  destruct (Z.eqb_spec j i) as [E|E]; destruct (Z.eqb_spec j k) as [E2|E2]; subst; try contradiction; ring.
Qed.

Lemma back_init_adj b n m p : (2 <= n)%Z -> adjp (dot1 n) (back_init b n m p) (back_init_T b n m p).
Proof.
  intros Hn. destruct b.
  - apply (adjp_lin n n (fun j => - p / (1 - p ^ 2) * ind n j)); [lia|..]; intros a; unfold back_init, back_init_T; rewrite rd_in by lia; cbn [bind]; rewrite wr_in by lia; f_equal.
    + unfold lin. rewrite dot1_scal, dot1_ind by lia. reflexivity.
    + apply functional_extensionality. intros j. unfold linT, setf, ind. destruct (Z.eqb_spec j n); ring.
  - set (v := - p / (1 - p ^ 2) / (1 - p)).
    apply (adjp_lin n n (fun j => v * ind n j + (- v * p ^ 2) * ind (n - 1) j)); [lia|..]; intros a; unfold back_init, back_init_T; rewrite rd_in by lia; cbn [bind]; rewrite rd_in by lia; cbn [bind]; rewrite wr_in by lia.
    + rewrite lin2 by lia. f_equal. f_equal. fold v. ring.
    + cbn [bind]. rewrite wr_in by lia. rewrite linT2 by lia. fold v. f_equal. f_equal. f_equal. ring.
  - set (l := zrange 1 (Z.min m n + 1)).
    assert (Hl : forall i, In i l -> (1 <= i <= n)%Z) by (intros i Hi; apply zrange_In in Hi; lia).
    set (q := if (m >=? n)%Z then / (1 - p ^ Z.to_nat n) else 1).
    apply (adjp_lin n n (fun j => - p * ind n j + (- p * p * q) * coef p l 1 j)); [lia|..]; intros a; unfold back_init, back_init_T; rewrite rd_in by lia; cbn [bind].
    + fold l. rewrite accum_spec by exact Hl. cbn [bind fst snd]. rewrite wr_in by lia. f_equal. unfold lin. rewrite dot1_plus, !dot1_scal, dot1_ind by lia. f_equal. unfold q, Rdiv.
      destruct (Z.geb_spec m n) as [Hm|Hm]; [|ring].
      replace (length l) with (Z.to_nat n) by (unfold l, zrange; rewrite zseq_length; lia). rewrite Rmult_1_l. ring.
    + rewrite wr_in by lia. cbn [bind]. fold l. rewrite spread_spec by exact Hl. cbn [bind fst]. f_equal. apply functional_extensionality. intros j.
      unfold linT, setf, ind, q, Rdiv. destruct (m >=? n)%Z; destruct (Z.eqb_spec j n); ring.
  - set (v := - p / (1 - p ^ 2)).
    apply (adjp_lin n n (fun j => v * ind n j + (v * p) * ind (n - 1) j)); [lia|..]; intros a; unfold back_init, back_init_T; rewrite rd_in by lia; cbn [bind]; rewrite rd_in by lia; cbn [bind]; rewrite wr_in by lia.
    + rewrite lin2 by lia. f_equal. f_equal. fold v. ring.
    + cbn [bind]. rewrite wr_in by lia. rewrite linT2 by lia. reflexivity.
Qed.

Lemma rev_zrange_shift a b : rev (zrange (a + 1) (b + 1)) = map (fun i => i + 1)%Z (rev (zrange a b)).
Proof.
  rewrite map_rev. f_equal. unfold zrange. replace (b + 1 - (a + 1))%Z with (b - a)%Z by lia.
  generalize (Z.to_nat (b - a)) as k. intros k. revert a. induction k as [|k IH]; intros a; cbn [zseq map]; [reflexivity|]. f_equal. apply IH.
Qed.
Lemma ofold_map {S A B} (f : S -> B -> option S) (g : A -> B) l s : ofold f (map g l) s = ofold (fun s x => f s (g x)) l s.
Proof. revert s; induction l as [|x l IH]; intros s; cbn [map ofold]; [reflexivity|]. destruct (f s (g x)); [apply IH|reflexivity]. Qed.
Lemma ofold_ext {S A} (f g : S -> A -> option S) l s : (forall s x, In x l -> f s x = g s x) -> ofold f l s = ofold g l s.
Proof. revert s; induction l as [|x l IH]; intros s H; cbn [ofold]; [reflexivity|]. rewrite H by (left; reflexivity). destruct (g s x); [apply IH; intros; apply H; right; assumption|reflexivity]. Qed.

Lemma forwards_adj n p : (2 <= n)%Z -> adjp (dot1 n) (forwards n p) (forwards_T n p).
Proof.
  intros Hn.
  pose (Q := fun (a : arr) i => x <- rd n a (i - 1);; y <- rd n a i;; wr n a (i - 1) (x + p * y)).
  apply (adjp_ext (dot1 n) (forwards n p) (ofold Q (rev (zrange 2 (n + 1))))); [reflexivity|..].
  - intros a. unfold forwards_T. replace 2%Z with (1 + 1)%Z by lia. rewrite rev_zrange_shift, ofold_map. apply ofold_ext. intros s x _. unfold Q.
    replace (x + 1 - 1)%Z with x by lia. reflexivity.
  - apply adjp_ofold. intros i Hi. apply zrange_In in Hi.
    apply (adjp_lin n i (fun j => 1 * ind i j + p * ind (i - 1) j)); [lia|..]; intros a; unfold Q; rewrite rd_in by lia; cbn [bind]; rewrite rd_in by lia; cbn [bind]; rewrite wr_in by lia; f_equal.
    + rewrite lin2 by lia. f_equal. ring.
    + rewrite linT2 by lia. apply functional_extensionality. intros j. unfold setf. destruct (Z.eqb_spec j i) as [E|E]; [subst; destruct (Z.eqb_spec i (i - 1)); [lia|ring]|]. destruct (Z.eqb_spec j (i - 1)); reflexivity.
Qed.

Lemma backwards_adj n p : (2 <= n)%Z -> adjp (dot1 n) (backwards n p) (backwards_T n p).
Proof.
  intros Hn.
  pose (step := fun (a : arr) i => setf (setf a (i + 1) (a (i + 1)%Z + p * a i)) i (- p * a i)).
  apply (adjp_ext (dot1 n) (backwards n p) (ofold (fun a i => Some (step a i)) (zrange 1 n))); [reflexivity|..].
  - intros a. rewrite (ofold_total _ step) by reflexivity. unfold backwards_T. rewrite rd_in by lia. cbn [bind]. rewrite wr_in by lia. cbn [bind].
    pose (cstep := fun (a : arr) i => setf a i (p * (a (i - 1)%Z - a i))).
    rewrite (ofold_total _ cstep).
    2: { intros s i Hi. apply zrange_In in Hi. rewrite !rd_in by lia. cbn [bind]. rewrite wr_in by lia. reflexivity. }
    cbn [bind]. rewrite rd_in by lia. cbn [bind]. rewrite rd_in by lia. cbn [bind]. rewrite wr_in by lia. f_equal.
    assert (G : forall k, (2 <= k)%Z -> fold_left step (zrange 1 k) a =
      let c := fold_left cstep (zrange 2 k) (setf a 1 (- p * a 1%Z)) in setf c k (c k - c (k - 1)%Z)).
    { intros k Hk. replace k with (2 + Z.of_nat (Z.to_nat (k - 2)))%Z by lia. generalize (Z.to_nat (k - 2)) as e. clear k Hk. induction e as [|e IH].
      - change (2 + Z.of_nat 0)%Z with 2%Z. change (zrange 1 2) with [1%Z]. change (zrange 2 2) with (@nil Z). cbv zeta. cbn [fold_left]. unfold step.
        change (1 + 1)%Z with 2%Z. change (2 - 1)%Z with 1%Z. apply functional_extensionality. intros j. unfold setf. change (2 =? 1)%Z with false. change (1 =? 1)%Z with true. cbv iota.
        destruct (Z.eqb_spec j 1) as [E|E]; [subst; change (1 =? 2)%Z with false; reflexivity|]. destruct (j =? 2)%Z; [ring|reflexivity].
      - set (k := (2 + Z.of_nat e)%Z) in *. replace (2 + Z.of_nat (S e))%Z with (k + 1)%Z by lia.
        rewrite (zrange_snoc 1 k), (zrange_snoc 2 k) by lia. cbv zeta. rewrite !fold_left_app, IH. cbn [fold_left]. cbv zeta.
        set (c := fold_left cstep (zrange 2 k) (setf a 1 (- p * a 1%Z))). unfold step, cstep. apply functional_extensionality. intros j.
        unfold setf. rewrite Z.eqb_refl. replace (k + 1 =? k)%Z with false by lia. replace (k + 1 - 1)%Z with k by lia. rewrite Z.eqb_refl.
        destruct (Z.eqb_spec j k) as [E|E].
        + subst j. replace (k =? k + 1)%Z with false by lia. ring.
        + destruct (Z.eqb_spec j (k + 1)); [ring|reflexivity]. }
    rewrite G by lia. reflexivity.
  - apply (adjp_ext (dot1 n) (backwards n p) (ofold (fun a i => Some (step a i)) (rev (rev (zrange 1 n))))); [reflexivity| |].
    + intros a. rewrite rev_involutive. reflexivity.
    + apply adjp_ofold. intros i Hi. apply in_rev, zrange_In in Hi.
      apply (adjp_lin n i (fun j => - p * ind i j + p * ind (i + 1) j)); [lia|..]; intros a.
      * rewrite rd_in by lia. cbn [bind]. rewrite rd_in by lia. cbn [bind]. rewrite wr_in by lia. rewrite lin2 by lia. f_equal. f_equal. ring.
      * rewrite linT2 by lia. reflexivity.
Qed.

Lemma pole_adj b n m p : (2 <= n)%Z -> adjp (dot1 n) (pole_fwd b n m p) (pole_trans b n m p).
Proof.
  intros Hn.
  pose proof (adjp_bind _ _ _ _ _ (causal_adj b n m p Hn) (adjp_bind _ _ _ _ _ (forwards_adj n p Hn) (adjp_bind _ _ _ _ _ (back_init_adj b n m p Hn) (backwards_adj n p Hn)))) as A.
  revert A. apply adjp_ext; intros a; unfold pole_fwd, pole_trans; [reflexivity|].
  destruct (backwards_T n p a) as [a1|]; cbn [bind]; [|reflexivity]. destruct (back_init_T b n m p a1) as [a2|]; cbn [bind]; [|reflexivity].
  destruct (forwards_T n p a2) as [a3|]; reflexivity.
Qed.

Lemma pole_loop_adj b n ps : (2 <= n)%Z -> adjp (dot1 n) (pole_loop b n false ps) (pole_loop b n true ps).
Proof. intros Hn. unfold pole_loop. apply adjp_ofold. intros p _. apply pole_adj, Hn. Qed.
