From Coq Require Import Reals List Bool Lia Lra Psatz Permutation Sorted.
From Verif Require Import CndSpec CndProps EigSpec EigModel EigProps EisSpec EisModel.
Import ListNotations.
Open Scope R_scope.
Ltac Zify.zify_post_hook ::= idtac.

Lemma sorted_rev {T : Type} (P : T -> T -> Prop) l : StronglySorted P l -> StronglySorted (fun x y => P y x) (rev l).
Proof.
  assert (AP : forall l x, StronglySorted (fun x y => P y x) l -> Forall (fun y => P x y) l -> StronglySorted (fun x y => P y x) (l ++ [x])).
  { induction l0 as [|y l0 IH]; intros x S F; cbn; [constructor; [constructor|constructor]|]. inversion S; subst. inversion F; subst. constructor; [now apply IH|]. apply Forall_app. split; [assumption|]. constructor; [assumption|constructor]. }
  induction 1 as [|x l S IH F]; cbn; [constructor|]. apply AP; [exact IH|]. now apply Forall_rev.
Qed.
Lemma sorted_firstn {T : Type} (P : T -> T -> Prop) l : forall k, StronglySorted P l -> StronglySorted P (firstn k l).
Proof. induction l as [|x l IH]; intros [|k] S; cbn; try constructor; inversion S; subst; [now apply IH|]. rewrite Forall_forall in *. intros y Y. apply H2. rewrite <- (firstn_skipn k l). apply in_or_app. now left. Qed.
Lemma sorted_split {T : Type} (P : T -> T -> Prop) l : forall k x y, StronglySorted P l -> In x (firstn k l) -> In y (skipn k l) -> P x y.
Proof.
  induction l as [|z l IH]; intros [|k] x y S X Y; cbn in X, Y; try contradiction. inversion S; subst. destruct X as [->|X]; [|now apply (IH k x y)]. rewrite Forall_forall in H2. apply H2. rewrite <- (firstn_skipn k l). apply in_or_app. now right.
Qed.
Lemma sorted_map {T U : Type} (P : U -> U -> Prop) (f : T -> U) l : StronglySorted (fun x y => P (f x) (f y)) l -> StronglySorted P (map f l).
Proof. induction 1 as [|x l S IH F]; cbn; constructor; [exact IH|]. apply Forall_map. exact F. Qed.

Section Dec.
Variables (eigh : nat -> mat -> (nat -> R) * mat) (argsort : nat -> (nat -> R) -> list nat).
Hypothesis OK : eigh_ok eigh.
Hypothesis AS : argsort_ok argsort.
Variables (n : nat) (A : mat).
Hypothesis SY : symmetric n A.

Lemma order_in E nmax k : In k (order argsort n E nmax) -> (k < n)%nat.
Proof.
  intros H. assert (I : In k (rev (argsort n E))). { unfold order, upto in H. destruct nmax as [m|]; [|exact H]. rewrite <- (firstn_skipn m). apply in_or_app. now left. }
  apply in_rev in I. destruct (AS n E) as [P _]. apply (Permutation_in _ P) in I. apply in_seq in I. lia.
Qed.
Lemma order_nodup E nmax : NoDup (order argsort n E nmax).
Proof.
  destruct (AS n E) as [P _]. assert (N : NoDup (rev (argsort n E))). { apply NoDup_rev. apply (Permutation_NoDup (Permutation_sym P)), seq_NoDup. }
  unfold order, upto. destruct nmax as [m|]; [|exact N]. rewrite <- (firstn_skipn m (rev _)) in N. clear -N. set (l := firstn m (rev (argsort n E))) in *. revert N. generalize (skipn m (rev (argsort n E))). intros r. induction l as [|x l IH]; intros N; [constructor|]. cbn in N. inversion N; subst. constructor; [|now apply IH]. intros I. apply H1. apply in_or_app. now left.
Qed.

(* C132 the values come in descending order, at most nmax of them *)
Theorem C132_order nmax : StronglySorted (fun x y => fst y <= fst x) (eigsort eigh argsort n A nmax) /\
  length (eigsort eigh argsort n A nmax) = match nmax with None => n | Some k => Nat.min k n end.
Proof.
  unfold eigsort. destruct (eigh n A) as [E V]. destruct (AS n E) as [P S]. split.
  - apply sorted_map. cbn [fst]. pose proof (sorted_rev _ _ S) as S'. unfold order, upto. destruct nmax; [now apply sorted_firstn|exact S'].
  - rewrite map_length. assert (L : length (rev (argsort n E)) = n) by (rewrite rev_length, (Permutation_length P), seq_length; reflexivity). unfold order, upto. destruct nmax; [rewrite firstn_length, L; reflexivity|exact L].
Qed.
(* they are eigenvalues with their vectors, which are orthonormal *)
Theorem C132_vectors nmax : (forall e v, In (e, v) (eigsort eigh argsort n A nmax) -> (forall i, (i < n)%nat -> lsum (seq 0 n) (fun j => A i j * v j) = e * v i)) /\
  forall p q d, (p < length (eigsort eigh argsort n A nmax))%nat -> (q < length (eigsort eigh argsort n A nmax))%nat ->
    inner n (snd (nth p (eigsort eigh argsort n A nmax) d)) (snd (nth q (eigsort eigh argsort n A nmax) d)) = delta p q.
Proof.
  unfold eigsort. destruct (OK n A SY) as (HV & HA). destruct (eigh n A) as [E V]. cbn [fst snd] in HV, HA. split.
  - intros e v H i I. apply in_map_iff in H. destruct H as (k & Q & K). injection Q as <- <-. apply order_in in K.
    rewrite (lsum_ext _ _ (fun j => lsum (seq 0 n) (fun l => (V i l * E l) * (V j l * V j k)))).
    + rewrite lsum_swap. rewrite (lsum_ext _ _ (fun l => V i l * E l * delta l k)).
      * rewrite (lsum_delta (seq 0 n) (fun l => V i l * E l)); [ring|apply seq_NoDup|apply in_seq; lia].
      * intros l L. apply in_seq in L. rewrite lsum_scal. f_equal. apply (cols n V HV); lia.
    + intros j J. apply in_seq in J. rewrite HA by lia. rewrite Rmult_comm, <- lsum_scal. apply lsum_ext. intros l _. ring.
  - intros p q d. rewrite !map_length. intros P Q. set (o := order argsort n E nmax) in *. set (f := fun k : nat => (E k, fun i : nat => V i k)).
    assert (NT : forall r, (r < length o)%nat -> nth r (map f o) d = f (nth r o 0%nat)) by (intros r R; rewrite (nth_indep _ d (f 0%nat)) by (rewrite map_length; exact R); apply map_nth).
    rewrite !NT by assumption. unfold f, inner. cbn [snd]. rewrite (cols n V HV) by (apply (order_in E nmax), nth_In; assumption). unfold delta. destruct (Nat.eqb_spec p q) as [->|N]; [now rewrite Nat.eqb_refl|].
    destruct (Nat.eqb_spec (nth p o 0%nat) (nth q o 0%nat)) as [X|]; [|reflexivity]. exfalso. apply N. apply (proj1 (NoDup_nth o 0%nat) (order_nodup E nmax) p q P Q X).
Qed.
(* no eigenvalue that is left out is larger *)
Theorem C132_largest nmax l : eigenvalue n A l -> (exists v, In (l, v) (eigsort eigh argsort n A nmax)) \/ forall e v, In (e, v) (eigsort eigh argsort n A nmax) -> l <= e.
Proof.
  intros H. unfold eigsort. destruct (OK n A SY) as (HV & HA). destruct (eigh n A) as [E V]. cbn [fst snd] in HV, HA. destruct (value_conv n V HV A E l HA H) as (k & K & ->). destruct (AS n E) as [P S].
  assert (I : In k (rev (argsort n E))) by (apply in_rev; rewrite rev_involutive; apply (Permutation_in _ (Permutation_sym P)); apply in_seq; lia). unfold order, upto. destruct nmax as [m|].
  - rewrite <- (firstn_skipn m (rev _)) in I. apply in_app_or in I. destruct I as [I|I].
    + left. exists (fun i => V i k). apply in_map_iff. exists k. split; [reflexivity|exact I].
    + right. intros e v Q. apply in_map_iff in Q. destruct Q as (p & X & Q). injection X as <- <-. exact (sorted_split _ _ m p k (sorted_rev _ _ S) Q I).
  - left. exists (fun i => V i k). apply in_map_iff. exists k. split; [reflexivity|exact I].
Qed.
Lemma coords V (HV : inverse n V (fun i j => V j i)) a : norm2 n a = lsum (seq 0 n) (fun k => inner n (fun i => V i k) a ^ 2).
Proof.
  unfold inner. rewrite (lsum_ext (seq 0 n) (fun k => _ ^ 2) (fun k => lsum (seq 0 n) (fun i => lsum (seq 0 n) (fun j => (a i * a j) * (V i k * V j k))))).
  - rewrite lsum_swap. apply lsum_ext. intros i I. rewrite lsum_swap. rewrite (lsum_ext _ _ (fun j => (a i * a j) * delta j i)).
    + rewrite (lsum_delta _ (fun j => a i * a j)); [reflexivity|apply seq_NoDup|exact I].
    + intros j J. apply in_seq in I, J. rewrite lsum_scal, delta_sym. f_equal. apply (rows_ n V HV); lia.
  - intros k _. set (s := lsum (seq 0 n) (fun i => V i k * a i)). replace (s ^ 2) with (s * s) by ring. unfold s at 1. rewrite Rmult_comm, <- lsum_scal. apply lsum_ext. intros i _. rewrite Rmult_comm. unfold s. rewrite <- lsum_scal. apply lsum_ext. intros j _. ring.
Qed.
Lemma quad E V a : decomposes n A E V -> covar n A a a = lsum (seq 0 n) (fun k => E k * inner n (fun i => V i k) a ^ 2).
Proof.
  intros (HV & HA). unfold covar, inner. rewrite (lsum_ext (seq 0 n) (fun k => _ * _) (fun k => lsum (seq 0 n) (fun i => lsum (seq 0 n) (fun j => a i * (V i k * (E k * V j k)) * a j)))).
  - symmetry. rewrite lsum_swap. apply lsum_ext. intros i I. rewrite lsum_swap.
    apply lsum_ext. intros j J. symmetry. apply in_seq in I, J. rewrite HA by lia. transitivity (lsum (seq 0 n) (fun k => (a i * a j) * (V i k * (E k * V j k)))); [rewrite lsum_scal; ring|apply lsum_ext; intros; ring].
  - intros k _. set (s := lsum (seq 0 n) (fun i => V i k * a i)). replace (E k * s ^ 2) with (s * (E k * s)) by ring. unfold s at 1. rewrite Rmult_comm, <- lsum_scal. apply lsum_ext. intros i _. replace (E k * s * (V i k * a i)) with ((E k * V i k * a i) * s) by ring. unfold s. rewrite <- lsum_scal. apply lsum_ext. intros j _. ring.
Qed.
Lemma roots_some (E : nat -> R) (V : mat) l : (forall k, In k l -> 0 <= E k) -> exists Q, roots (map (fun k => (E k, fun i => V i k)) l) = Some Q /\ length Q = length l /\
  forall a, explained n Q a = lsum l (fun k => E k * inner n (fun i => V i k) a ^ 2).
Proof.
  induction l as [|k l IH]; intros P; [exists []; repeat split; reflexivity|]. destruct IH as (Q & R & L & X); [intros; apply P; now right|]. cbn [map roots]. assert (0 <= E k) by (apply P; now left). destruct (Rlt_dec (E k) 0); [lra|]. rewrite R. eexists. split; [reflexivity|]. split; [cbn; now rewrite L|].
  intros a. cbn [explained fold_right]. fold (explained n Q a). rewrite X, lsum_cons. f_equal. unfold inner. rewrite (lsum_ext _ _ (fun i => sqrt (E k) * (V i k * a i))) by (intros; ring). rewrite lsum_scal. rewrite Rpow_mult_distr. f_equal. replace (sqrt (E k) ^ 2) with (sqrt (E k) * sqrt (E k)) by ring. now apply sqrt_sqrt.
Qed.
(* merged: for matrices without negative eigenvalues QQ' is the matrix, or what is left of it is between nothing and each of the eigenvalues that are kept *)
Theorem C132_merged nmax : (forall a, 0 <= covar n A a a) -> exists Q, eigsort_merged eigh argsort n A nmax = Some Q /\ length Q = length (eigsort eigh argsort n A nmax) /\
  (nmax = None -> forall a, covar n A a a = explained n Q a) /\
  forall a, explained n Q a <= covar n A a a /\ forall e v, In (e, v) (eigsort eigh argsort n A nmax) -> covar n A a a - explained n Q a <= e * norm2 n a.
Proof.
  intros PS. unfold eigsort_merged, eigsort. pose proof (OK n A SY) as D. destruct (eigh n A) as [E V]. cbn [fst snd] in D. assert (HV := proj1 D). destruct (AS n E) as [P S].
  assert (EP : forall k, (k < n)%nat -> 0 <= E k) by (intros k K; now apply (positive_values n A E V k D)).
  destruct (roots_some E V (order argsort n E nmax)) as (Q & R & L & X); [intros k K; apply EP, (order_in E nmax), K|]. exists Q. split; [exact R|]. split; [now rewrite map_length|].
  assert (PE : Permutation (seq 0 n) (rev (argsort n E))) by (eapply perm_trans; [apply Permutation_sym, P|apply Permutation_rev]).
  split.
  - intros ->. intros a. rewrite (quad E V a D), X. apply lsum_perm. exact PE.
  - intros a. set (f := fun k => E k * inner n (fun i => V i k) a ^ 2). set (rest := match nmax with None => [] | Some m => skipn m (rev (argsort n E)) end).
    assert (SPL : rev (argsort n E) = order argsort n E nmax ++ rest). { unfold order, upto, rest. destruct nmax; [now rewrite firstn_skipn|now rewrite app_nil_r]. }
    assert (RI : forall k, In k rest -> (k < n)%nat). { intros k K. assert (I : In k (rev (argsort n E))) by (rewrite SPL; apply in_or_app; now right). apply (Permutation_in _ (Permutation_sym PE)) in I. apply in_seq in I. lia. }
    assert (TOT : covar n A a a = lsum (order argsort n E nmax) f + lsum rest f) by (rewrite (quad E V a D), (lsum_perm _ _ _ PE), SPL, lsum_app; reflexivity).
    assert (NT : norm2 n a = lsum (order argsort n E nmax) (fun k => inner n (fun i => V i k) a ^ 2) + lsum rest (fun k => inner n (fun i => V i k) a ^ 2)) by (rewrite (coords V HV a), (lsum_perm _ _ _ PE), SPL, lsum_app; reflexivity).
    assert (POS : forall l g, (forall k, In k l -> 0 <= g k) -> 0 <= lsum l g). { clear. induction l as [|x l IH]; intros g G; [rewrite lsum_nil; lra|]. rewrite lsum_cons. specialize (IH g ltac:(intros; apply G; now right)). specialize (G x (or_introl eq_refl)). lra. }
    rewrite X. fold f. split.
    + assert (0 <= lsum rest f) by (apply POS; intros k K; unfold f; pose proof (EP k (RI k K)); pose proof (pow2_ge_0 (inner n (fun i => V i k) a)); nra). lra.
    + intros e v H. apply in_map_iff in H. destruct H as (p & Y & H). injection Y as <- <-. pose proof (EP p (order_in E nmax p H)) as Ep.
      assert (BO : forall k, In k rest -> E k <= E p). { intros k K. unfold rest, order, upto in *. destruct nmax as [m|]; [|contradiction]. exact (sorted_split _ _ m p k (sorted_rev _ _ S) H K). }
      assert (LE : lsum rest f <= E p * lsum rest (fun k => inner n (fun i => V i k) a ^ 2)).
      { rewrite <- lsum_scal. clear -BO. unfold f. induction rest as [|k r IH]; [rewrite !lsum_nil; lra|]. rewrite !lsum_cons. specialize (IH ltac:(intros; apply BO; now right)). specialize (BO k (or_introl eq_refl)). pose proof (pow2_ge_0 (inner n (fun i => V i k) a)). nra. }
      assert (0 <= lsum (order argsort n E nmax) (fun k => inner n (fun i => V i k) a ^ 2)) by (apply POS; intros; apply pow2_ge_0). rewrite NT. nra.
Qed.
End Dec.
Print Assumptions C132_order.
Print Assumptions C132_vectors.
Print Assumptions C132_largest.
Print Assumptions C132_merged.
(* the matrix ((2,1),(1,2)) meets the conditions, and argsort of one number exists *)
Example C132_ex_hyps : symmetric 2 ex_C /\ (forall a, 0 <= covar 2 ex_C a a) /\ eigenvalue 2 ex_C 3 /\ eigenvalue 2 ex_C 1.
Proof.
  split; [intros i j _ _; apply C129_ex_hyps|]. split; [apply C129_ex_hyps|]. split.
  - exists (fun _ => 1). split; [exists 0%nat; split; [lia|lra]|]. intros [|[|i]] I; [| |lia]; unfold lsum, ex_C; cbn [seq fold_right Nat.eqb]; lra.
  - exists (fun i => match i with O => 1 | _ => -1 end). split; [exists 0%nat; split; [lia|lra]|]. intros [|[|i]] I; [| |lia]; unfold lsum, ex_C; cbn [seq fold_right Nat.eqb]; lra.
Qed.
