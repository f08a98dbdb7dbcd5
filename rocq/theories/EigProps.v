From Coq Require Import Reals List Bool Lia Lra Psatz.
From Verif Require Import CndSpec CndProps EigSpec EigModel BldModel BldLemmas.
Import ListNotations.
Open Scope R_scope.
Ltac Zify.zify_post_hook ::= idtac.

Section Dec.
Variables (n : nat) (V : mat).
Hypothesis HV : inverse n V (fun i j => V j i).
Lemma cols k l : (k < n)%nat -> (l < n)%nat -> lsum (seq 0 n) (fun i => V i k * V i l) = delta k l.
Proof. intros K L. exact (proj2 (HV k l K L)). Qed.
Lemma rows_ i j : (i < n)%nat -> (j < n)%nat -> lsum (seq 0 n) (fun k => V i k * V j k) = delta i j.
Proof. intros I J. exact (proj1 (HV i j I J)). Qed.
Lemma rebuilt_prod f g i j : mprod n (rebuilt n V f) (rebuilt n V g) i j = rebuilt n V (fun k => f k * g k) i j.
Proof.
  unfold mprod, rebuilt. set (S := seq 0 n).
  rewrite (lsum_ext S _ (fun m => lsum S (fun k => lsum S (fun l => (V i k * f k * (g l * V j l)) * (V m k * V m l))))).
  - rewrite lsum_swap. apply lsum_ext. intros k Hk. rewrite lsum_swap. rewrite (lsum_ext S _ (fun l => (V i k * f k * (g l * V j l)) * delta l k)).
    + rewrite (lsum_delta S (fun l => V i k * f k * (g l * V j l))); [ring|apply seq_NoDup|exact Hk].
    + intros l Hl. rewrite lsum_scal. f_equal. apply in_seq in Hk, Hl. rewrite delta_sym. apply cols; lia.
  - intros m _. rewrite Rmult_comm, <- lsum_scal. apply lsum_ext. intros k _. rewrite (Rmult_comm (lsum _ _)), <- lsum_scal. apply lsum_ext. intros l _. ring.
Qed.
Lemma rebuilt_one i j : (i < n)%nat -> (j < n)%nat -> rebuilt n V (fun _ => 1) i j = delta i j.
Proof. intros I J. rewrite <- (rows_ i j I J). apply lsum_ext. intros k _. ring. Qed.
Lemma rebuilt_ext f g i j : (forall k, (k < n)%nat -> f k = g k) -> rebuilt n V f i j = rebuilt n V g i j.
Proof. intros H. apply lsum_ext. intros k K. apply in_seq in K. rewrite H by lia. reflexivity. Qed.
Lemma mprod_ext A A' B B' i j : (i < n)%nat -> (j < n)%nat -> meq n A A' -> meq n B B' -> mprod n A B i j = mprod n A' B' i j.
Proof. intros I J HA HB. apply lsum_ext. intros k K. apply in_seq in K. rewrite HA, HB by lia. reflexivity. Qed.
Lemma rebuilt_power A f k : meq n A (rebuilt n V f) -> meq n (mpower n A k) (rebuilt n V (fun l => f l ^ k)).
Proof.
  intros H. induction k as [|k IH]; intros i j I J; cbn [mpower].
  - symmetry. rewrite <- (rebuilt_one i j I J). apply rebuilt_ext. reflexivity.
  - rewrite (mprod_ext _ _ _ _ i j I J IH H), rebuilt_prod. apply rebuilt_ext. intros l _. cbn. ring.
Qed.
Lemma value A f k : meq n A (rebuilt n V f) -> (k < n)%nat -> eigenvalue n A (f k).
Proof.
  intros H K. exists (fun i => V i k). split.
  - destruct (Bool.bool_dec (existsb (fun i => if Req_EM_T (V i k) 0 then false else true) (seq 0 n)) true) as [E|E].
    + apply existsb_exists in E. destruct E as (i & I & Z). apply in_seq in I. exists i. split; [lia|]. destruct (Req_EM_T (V i k) 0); [discriminate|assumption].
    + exfalso. pose proof (cols k k K K) as Q. unfold delta in Q. rewrite Nat.eqb_refl in Q. rewrite (lsum_ext _ _ (fun _ => 0)), lsum_0 in Q; [lra|].
      intros i I. destruct (Req_EM_T (V i k) 0) as [Z|Z]; [rewrite Z; ring|]. exfalso. apply E. apply existsb_exists. exists i. split; [exact I|]. destruct (Req_EM_T (V i k) 0); [contradiction|reflexivity].
  - intros i I. rewrite (lsum_ext _ _ (fun j => lsum (seq 0 n) (fun l => (V i l * f l) * (V j l * V j k)))).
    + rewrite lsum_swap. rewrite (lsum_ext _ _ (fun l => V i l * f l * delta l k)).
      * rewrite (lsum_delta (seq 0 n) (fun l => V i l * f l)); [ring|apply seq_NoDup|apply in_seq; lia].
      * intros l L. apply in_seq in L. rewrite lsum_scal. f_equal. apply cols; lia.
    + intros j J. apply in_seq in J. rewrite H by lia. unfold rebuilt. rewrite Rmult_comm, <- lsum_scal. apply lsum_ext. intros l _. ring.
Qed.
(* every eigenvalue is one of the list *)
Lemma value_conv A f l : meq n A (rebuilt n V f) -> eigenvalue n A l -> exists k, (k < n)%nat /\ l = f k.
Proof.
  intros H (v & (i & I & Ni) & Hv). set (c := fun k => lsum (seq 0 n) (fun j => V j k * v j)).
  assert (EXP : forall i, (i < n)%nat -> v i = lsum (seq 0 n) (fun k => V i k * c k)).
  { intros p P. unfold c. rewrite (lsum_ext _ _ (fun k => lsum (seq 0 n) (fun j => v j * (V p k * V j k)))) by (intros k _; rewrite <- lsum_scal; apply lsum_ext; intros j _; ring).
    rewrite lsum_swap. rewrite (lsum_ext _ _ (fun j => v j * delta j p)); [symmetry; apply lsum_delta; [apply seq_NoDup|apply in_seq; lia]|]. intros j J. apply in_seq in J. rewrite lsum_scal, delta_sym, rows_ by lia. reflexivity. }
  assert (CV : forall k, (k < n)%nat -> f k * c k = l * c k).
  { intros k K. transitivity (lsum (seq 0 n) (fun i => V i k * (l * v i))); [|unfold c; rewrite <- lsum_scal; apply lsum_ext; intros j _; ring].
    rewrite (lsum_ext _ _ (fun i => V i k * lsum (seq 0 n) (fun m => V i m * (f m * c m)))).
    - rewrite (lsum_ext _ _ (fun i => lsum (seq 0 n) (fun m => (f m * c m) * (V i k * V i m)))) by (intros p _; rewrite <- lsum_scal; apply lsum_ext; intros m _; ring).
      rewrite lsum_swap. rewrite (lsum_ext _ _ (fun m => f m * c m * delta m k)); [symmetry; apply (lsum_delta _ (fun m => f m * c m)); [apply seq_NoDup|apply in_seq; lia]|]. intros m M. apply in_seq in M. rewrite lsum_scal, delta_sym, cols by lia. reflexivity.
    - intros p P. apply in_seq in P. f_equal. rewrite <- Hv by lia. rewrite (lsum_ext _ (fun j => A p j * v j) (fun j => lsum (seq 0 n) (fun m => V p m * (f m * (V j m * v j))))).
      + rewrite lsum_swap. apply lsum_ext. intros m _. rewrite lsum_scal. f_equal. rewrite lsum_scal. reflexivity.
      + intros j J. apply in_seq in J. rewrite H by lia. unfold rebuilt. rewrite Rmult_comm, <- lsum_scal. apply lsum_ext. intros m _. ring. }
  destruct (existsb (fun k => if Req_EM_T (c k) 0 then false else true) (seq 0 n)) eqn:E.
  - apply existsb_exists in E. destruct E as (k & K & Z). apply in_seq in K. exists k. split; [lia|]. destruct (Req_EM_T (c k) 0) as [|N]; [discriminate|]. specialize (CV k ltac:(lia)). apply (Rmult_eq_reg_r (c k)); [lra|exact N].
  - exfalso. apply Ni. rewrite (EXP i I). rewrite (lsum_ext _ _ (fun _ => 0)); [apply lsum_0|]. intros k K. destruct (Req_EM_T (c k) 0) as [Z|Z]; [rewrite Z; ring|]. exfalso.
    assert (existsb (fun k => if Req_EM_T (c k) 0 then false else true) (seq 0 n) = true); [|congruence]. apply existsb_exists. exists k. split; [exact K|]. destruct (Req_EM_T (c k) 0); [contradiction|reflexivity].
Qed.
End Dec.

(* powers of numbers *)
Lemma int_valued z : is_int_valued (IZR z) = true /\ floorR (IZR z) = z.
Proof. assert (F : floorR (IZR z) = z) by (apply floorR_unique; lra). split; [|exact F]. unfold is_int_valued. rewrite F. destruct (Req_EM_T (IZR z) (IZR z)); [reflexivity|contradiction]. Qed.
Lemma npow_nat x k : (0 < k)%nat -> npow x (INR k) = Some (x ^ k).
Proof.
  intros K. assert (0 < INR k) by now apply lt_0_INR. unfold npow. destruct (Rlt_dec 0 x) as [P|P]; [rewrite Rpower_pow by exact P; reflexivity|]. destruct (Rlt_dec x 0) as [N|N].
  - rewrite INR_IZR_INZ. destruct (int_valued (Z.of_nat k)) as [-> ->]. rewrite <- pow_powerRZ. reflexivity.
  - assert (x = 0) as -> by lra. destruct (Rlt_dec 0 (INR k)); [|contradiction]. rewrite pow_i by exact K. reflexivity.
Qed.
Lemma npow_inv x : x <> 0 -> npow x (-1) = Some (/ x).
Proof.
  intros N. unfold npow. destruct (Rlt_dec 0 x) as [P|P].
  - replace (-1) with (- (1)) by lra. rewrite Rpower_Ropp, Rpower_1 by exact P. reflexivity.
  - destruct (Rlt_dec x 0); [|lra]. destruct (int_valued (-1)) as [-> ->]. unfold powerRZ. rewrite Pos2Nat.inj_1, pow_1. reflexivity.
Qed.

Definition eigh_ok (eigh : nat -> mat -> (nat -> R) * mat) : Prop :=
  forall n A, symmetric n A -> decomposes n A (fst (eigh n A)) (snd (eigh n A)).

Lemma new_all n e rlim alim top E g : (forall k, (k < n)%nat -> new_value e rlim alim top (E k) = Some (g k)) ->
  exists E', new_values n e rlim alim top E = Some E' /\ forall k, (k < n)%nat -> E' k = g k.
Proof.
  intros H. unfold new_values. replace (forallb _ (seq 0 n)) with true by (symmetry; apply forallb_forall; intros k K; apply in_seq in K; rewrite H by lia; reflexivity).
  eexists. split; [reflexivity|]. intros k K. cbn beta. rewrite H by exact K. reflexivity.
Qed.
Lemma eigpow_value eigh n A e rlim alim g : eigh_ok eigh -> symmetric n A ->
  let E := fst (eigh n A) in
  (forall k, (k < n)%nat -> new_value e rlim alim (rmax (map (fun k => Rabs (E k)) (seq 0 n))) (E k) = Some (g k)) ->
  exists P, eigpow eigh n A e rlim alim = Some P /\ meq n P (rebuilt n (snd (eigh n A)) g).
Proof.
  intros OK S E H. unfold eigpow. destruct (eigh n A) as [E0 V] eqn:Q. cbn [fst snd] in *. subst E. destruct (new_all n e rlim alim _ E0 g H) as (E' & -> & HE). eexists. split; [reflexivity|]. intros i j I J. now apply rebuilt_ext.
Qed.
Lemma positive_values n A E V k : decomposes n A E V -> (forall a, 0 <= covar n A a a) -> (k < n)%nat -> 0 <= E k.
Proof.
  intros (HV & HA) P K. specialize (P (fun i => V i k)). rewrite covar_row in P.
  destruct (value n V HV A E k HA K) as (v & _).
  assert (EV : forall j, (j < n)%nat -> lsum (seq 0 n) (fun i => V i k * A i j) = E k * V j k).
  { intros j J. rewrite (lsum_ext _ _ (fun i => lsum (seq 0 n) (fun l => (E l * V j l) * (V i k * V i l)))).
    - rewrite lsum_swap. rewrite (lsum_ext _ _ (fun l => (E l * V j l) * delta l k)).
      + rewrite (lsum_delta _ (fun l => E l * V j l)); [reflexivity|apply seq_NoDup|apply in_seq; lia].
      + intros l L. apply in_seq in L. rewrite lsum_scal, delta_sym. f_equal. apply (cols n V HV); lia.
    - intros i I. apply in_seq in I. rewrite HA by lia. rewrite <- lsum_scal. apply lsum_ext. intros l _. ring. }
  rewrite (lsum_ext _ _ (fun j => E k * (V j k * V j k))) in P by (intros j J; apply in_seq in J; rewrite EV by lia; ring).
  rewrite lsum_scal, (cols n V HV) in P by assumption. unfold delta in P. rewrite Nat.eqb_refl in P. lra.
Qed.
Lemma not_masked e rlim alim top x : (is_int_valued e = true \/ 0 <= x) -> (0 <= e \/ (top * rlim <= Rabs x /\ alim <= Rabs x)) -> new_value e rlim alim top x = npow x e.
Proof.
  intros A B. unfold new_value, ltb. replace (negb (is_int_valued e) && _) with false; [replace ((if Rlt_dec e 0 then true else false) && _) with false; [reflexivity|]|].
  - symmetry. destruct B as [B|[B1 B2]]; [destruct (Rlt_dec e 0); [lra|reflexivity]|]. destruct (Rlt_dec (Rabs x) (top * rlim)); [lra|]. destruct (Rlt_dec (Rabs x) alim); [lra|]. apply andb_false_r.
  - symmetry. destruct A as [->|A]; [reflexivity|]. destruct (Rlt_dec x 0); [lra|]. apply andb_false_r.
Qed.

(* C130 whole positive powers are repeated products *)
Theorem C130_power eigh n A k rlim alim : eigh_ok eigh -> symmetric n A -> (0 < k)%nat ->
  exists P, eigpow eigh n A (INR k) rlim alim = Some P /\ meq n P (mpower n A k).
Proof.
  intros OK S K. destruct (OK n A S) as (HV & HA). assert (K0 : 0 < INR k) by now apply lt_0_INR.
  destruct (eigpow_value eigh n A (INR k) rlim alim (fun l => fst (eigh n A) l ^ k) OK S) as (P & E & M).
  - intros l L. rewrite not_masked; [now apply npow_nat|left; rewrite INR_IZR_INZ; apply int_valued|left; lra].
  - exists P. split; [exact E|]. intros i j I J. rewrite (M i j I J). symmetry. now apply (rebuilt_power n _ HV A _ k HA).
Qed.
Print Assumptions C130_power.
(* positive powers of matrices without negative eigenvalues add up *)
Theorem C130_add eigh n A e f rlim alim : eigh_ok eigh -> symmetric n A -> (forall a, 0 <= covar n A a a) -> 0 < e -> 0 < f ->
  exists P Q S, eigpow eigh n A e rlim alim = Some P /\ eigpow eigh n A f rlim alim = Some Q /\ eigpow eigh n A (e + f) rlim alim = Some S /\ meq n (mprod n P Q) S.
Proof.
  intros OK S PS He Hf. destruct (OK n A S) as (HV & HA). set (E := fst (eigh n A)) in *. set (V := snd (eigh n A)) in *.
  assert (EP : forall k, (k < n)%nat -> 0 <= E k) by (intros k K; now apply (positive_values n A E V k (conj HV HA))).
  set (pw := fun (t x : R) => if Rlt_dec 0 x then Rpower x t else 0).
  assert (G : forall t, 0 < t -> exists P, eigpow eigh n A t rlim alim = Some P /\ meq n P (rebuilt n V (fun k => pw t (E k)))).
  { intros t T. apply eigpow_value; try assumption. intros k K. fold E. rewrite not_masked; [|right; now apply EP|left; lra]. unfold npow, pw. specialize (EP k K). destruct (Rlt_dec 0 (E k)); [reflexivity|]. destruct (Rlt_dec (E k) 0); [lra|]. destruct (Rlt_dec 0 t); [reflexivity|contradiction]. }
  destruct (G e He) as (P & P1 & P2). destruct (G f Hf) as (Q & Q1 & Q2). destruct (G (e + f) ltac:(lra)) as (T & T1 & T2). exists P, Q, T. repeat split; try assumption.
  intros i j I J. rewrite (mprod_ext n _ _ _ _ i j I J P2 Q2), (rebuilt_prod n V HV), (T2 i j I J). apply rebuilt_ext. intros k K. unfold pw. destruct (Rlt_dec 0 (E k)); [now rewrite Rpower_plus|ring].
Qed.
Print Assumptions C130_add.
(* roots *)
Theorem C130_root eigh n A k rlim alim : eigh_ok eigh -> symmetric n A -> (forall a, 0 <= covar n A a a) -> (0 < k)%nat ->
  exists P, eigpow eigh n A (/ INR k) rlim alim = Some P /\ symmetric n P /\ meq n (mpower n P k) A.
Proof.
  intros OK S PS K. destruct (OK n A S) as (HV & HA). set (E := fst (eigh n A)) in *. set (V := snd (eigh n A)) in *.
  assert (EP : forall l, (l < n)%nat -> 0 <= E l) by (intros l L; now apply (positive_values n A E V l (conj HV HA))).
  assert (K0 : 0 < INR k) by now apply lt_0_INR. assert (I0 : 0 < / INR k) by now apply Rinv_0_lt_compat.
  destruct (eigpow_value eigh n A (/ INR k) rlim alim (fun l => if Rlt_dec 0 (E l) then Rpower (E l) (/ INR k) else 0) OK S) as (P & P1 & P2).
  { intros l L. fold E. rewrite not_masked; [|right; now apply EP|left; lra]. unfold npow. specialize (EP l L). destruct (Rlt_dec 0 (E l)); [reflexivity|]. destruct (Rlt_dec (E l) 0); [lra|]. destruct (Rlt_dec 0 (/ INR k)); [reflexivity|contradiction]. }
  exists P. split; [exact P1|]. split.
  - intros i j I J. rewrite (P2 i j I J), (P2 j i J I). apply lsum_ext. intros l _. ring.
  - intros i j I J. rewrite (rebuilt_power n V HV P _ k P2 i j I J), (HA i j I J). apply rebuilt_ext. intros l L. specialize (EP l L). destruct (Rlt_dec 0 (E l)) as [Q|Q].
    + rewrite <- Rpower_pow by apply exp_pos. rewrite Rpower_mult, Rinv_l, Rpower_1; lra.
    + rewrite pow_i by exact K. lra.
Qed.
Print Assumptions C130_root.
Lemma fold_max_in l : forall x, In (fold_left Rmax l x) (x :: l).
Proof. induction l as [|y l IH]; intros x; [now left|]. cbn [fold_left]. destruct (IH (Rmax x y)) as [E|I]; [|right; right; exact I]. rewrite <- E. unfold Rmax. destruct (Rle_dec x y); [right; now left|now left]. Qed.
(* the inverse *)
Theorem C130_inverse eigh n A rlim alim : eigh_ok eigh -> symmetric n A -> 0 < alim -> well_conditioned n rlim alim A ->
  exists P, eigpow eigh n A (-1) rlim alim = Some P /\ inverse n A P.
Proof.
  intros OK S A0 W. destruct (OK n A S) as (HV & HA). set (E := fst (eigh n A)) in *. set (V := snd (eigh n A)) in *.
  assert (EV : forall k, (k < n)%nat -> eigenvalue n A (E k)) by (intros k K; now apply (value n V HV A E k HA)).
  assert (NZ : forall k, (k < n)%nat -> E k <> 0). { intros k K Z. destruct (W _ (EV k K)) as [L _]. rewrite Z, Rabs_R0 in L. lra. }
  destruct (eigpow_value eigh n A (-1) rlim alim (fun l => / E l) OK S) as (P & P1 & P2).
  - intros k K. fold E. rewrite not_masked; [now apply npow_inv, NZ|left; apply int_valued|right].
    destruct (W _ (EV k K)) as [L M]. split; [|exact L]. destruct n as [|m]; [lia|]. cbn [seq map rmax].
    assert (I : In (fold_left Rmax (map (fun k => Rabs (E k)) (seq 1 m)) (Rabs (E O))) (map (fun k => Rabs (E k)) (seq 0 (Datatypes.S m)))) by apply fold_max_in.
    apply in_map_iff in I. destruct I as (p & <- & I). apply in_seq in I. apply M, EV. lia.
  - exists P. split; [exact P1|]. intros i j I J. split.
    + change (lsum (seq 0 n) (fun k => A i k * P k j)) with (mprod n A P i j). rewrite (mprod_ext n _ _ _ _ i j I J HA P2), <- (rebuilt_one n V HV i j I J).
      change (mprod n (rebuilt n V E) (rebuilt n V (fun l => / E l)) i j = rebuilt n V (fun _ => 1) i j). rewrite (rebuilt_prod n V HV). apply rebuilt_ext. intros k K. apply Rinv_r. now apply NZ.
    + change (lsum (seq 0 n) (fun k => P i k * A k j)) with (mprod n P A i j). rewrite (mprod_ext n _ _ _ _ i j I J P2 HA), <- (rebuilt_one n V HV i j I J).
      change (mprod n (rebuilt n V (fun l => / E l)) (rebuilt n V E) i j = rebuilt n V (fun _ => 1) i j). rewrite (rebuilt_prod n V HV). apply rebuilt_ext. intros k K. apply Rinv_l. now apply NZ.
Qed.
Print Assumptions C130_inverse.
(* any two real powers of a well conditioned positive matrix *)
Theorem C130_group eigh n A e f rlim alim : eigh_ok eigh -> symmetric n A -> (forall a, 0 <= covar n A a a) -> 0 < alim -> well_conditioned n rlim alim A ->
  exists P Q S, eigpow eigh n A e rlim alim = Some P /\ eigpow eigh n A f rlim alim = Some Q /\ eigpow eigh n A (e + f) rlim alim = Some S /\ meq n (mprod n P Q) S /\ (e + f = 0 -> meq n S delta).
Proof.
  intros OK S PS A0 W. destruct (OK n A S) as (HV & HA). set (E := fst (eigh n A)) in *. set (V := snd (eigh n A)) in *.
  assert (EV : forall k, (k < n)%nat -> eigenvalue n A (E k)) by (intros k K; now apply (value n V HV A E k HA)).
  assert (EP : forall k, (k < n)%nat -> 0 < E k). { intros k K. pose proof (positive_values n A E V k (conj HV HA) PS K). destruct (W _ (EV k K)) as [L _]. rewrite Rabs_right in L; lra. }
  assert (G : forall t, exists P, eigpow eigh n A t rlim alim = Some P /\ meq n P (rebuilt n V (fun k => Rpower (E k) t))).
  { intros t. apply eigpow_value; try assumption. intros k K. fold E. rewrite not_masked.
    - unfold npow. specialize (EP k K). destruct (Rlt_dec 0 (E k)); [reflexivity|contradiction].
    - right. apply Rlt_le, EP, K.
    - right. destruct (W _ (EV k K)) as [L M]. split; [|exact L]. destruct n as [|m]; [lia|]. cbn [seq map rmax].
      assert (I : In (fold_left Rmax (map (fun k => Rabs (E k)) (seq 1 m)) (Rabs (E O))) (map (fun k => Rabs (E k)) (seq 0 (Datatypes.S m)))) by apply fold_max_in.
      apply in_map_iff in I. destruct I as (p & <- & I). apply in_seq in I. apply M, EV. lia. }
  destruct (G e) as (P & P1 & P2). destruct (G f) as (Q & Q1 & Q2). destruct (G (e + f)) as (T & T1 & T2). exists P, Q, T. repeat split; try assumption.
  - intros i j I J. rewrite (mprod_ext n _ _ _ _ i j I J P2 Q2), (rebuilt_prod n V HV), (T2 i j I J). apply rebuilt_ext. intros k K. now rewrite Rpower_plus.
  - intros Z i j I J. rewrite (T2 i j I J), Z, <- (rebuilt_one n V HV i j I J). apply rebuilt_ext. intros k K. rewrite Rpower_O; [reflexivity|now apply EP].
Qed.
Print Assumptions C130_group.
(* stacks of matrices: with one axis of matrices each is treated by itself *)
Theorem C130_stack eigh n A e rlim alim s : eigpow3 eigh n A e rlim alim s = eigpow eigh n (A s) e rlim alim.
Proof. unfold eigpow3, eigpow. destruct (eigh n (A s)) as [E V]. reflexivity. Qed.
Print Assumptions C130_stack.
(* with two axes of matrices they are not: a matrix with an inverse becomes zero beside a larger one *)
Theorem C130_stack_refuted eigh rlim alim : eigh_ok eigh -> 0 < rlim < 1 -> 0 < alim -> alim < rlim ->
  exists A : nat -> nat -> mat, (forall s t, symmetric 1 (A s t)) /\ well_conditioned 1 rlim alim (A 0%nat 0%nat) /\
    eigpow4 eigh 2 1 A (-1) rlim alim 0 0 <> None /\ forall P, eigpow4 eigh 2 1 A (-1) rlim alim 0 0 = Some P -> ~ inverse 1 (A 0%nat 0%nat) P.
Proof.
  intros OK Rl A0 Ar. set (a := (alim + rlim) / 2). exists (fun _ t _ _ => match t with O => a | _ => 1 end).
  assert (SY : forall x, symmetric 1 (fun _ _ => x)) by (intros x i j _ _; reflexivity).
  assert (EX : forall x, fst (eigh 1%nat (fun _ _ => x)) O = x /\ snd (eigh 1%nat (fun _ _ => x)) O O * snd (eigh 1%nat (fun _ _ => x)) O O = 1).
  { intros x. destruct (OK 1%nat (fun _ _ => x) (SY x)) as (HV & HA). pose proof (proj1 (HV O O ltac:(lia) ltac:(lia))) as V1. specialize (HA O O ltac:(lia) ltac:(lia)).
    unfold lsum, delta in V1, HA. cbn [seq fold_right Nat.eqb] in V1, HA. set (v := snd (eigh 1%nat (fun _ _ => x)) O O) in *. set (l := fst (eigh 1%nat (fun _ _ => x)) O) in *. cbn beta in V1, HA. assert (VV : v * v = 1) by lra. split; [|exact VV]. rewrite HA. replace (v * (l * v) + 0) with (l * (v * v)) by ring. rewrite VV. ring. }
  split; [intros s t; apply SY|]. split; [|split].
  - intros l (v & (i & I & Ni) & H). assert (i = O) as -> by lia. assert (L : l = a). { specialize (H O I). unfold lsum in H. cbn [seq fold_right] in H. nra. }
    rewrite L. split; [rewrite Rabs_right; unfold a; lra|]. intros m (w & (j & J & Nj) & Hm). assert (j = O) as -> by lia. assert (M : m = a). { specialize (Hm O J). unfold lsum in Hm. cbn [seq fold_right] in Hm. nra. } rewrite M. pose proof (Rabs_pos a). nra.
  - unfold eigpow4. destruct (eigh 1%nat (fun _ _ => a)) as [E V] eqn:Q. cbn [seq map forallb]. rewrite Q. cbn [fst].
    destruct (EX a) as [Ea _]. rewrite Q in Ea. cbn [fst] in Ea. destruct (EX 1) as [E1 _]. rewrite Ea, E1. 
    assert (NV : new_value (-1) rlim alim (rmax [Rabs a; Rabs 1]) a = Some 0).
    { unfold new_value, ltb. cbn [rmax fold_left]. destruct (int_valued (-1)) as [-> _]. cbn [negb andb orb]. destruct (Rlt_dec (-1) 0); [|lra]. rewrite (Rabs_right a), (Rabs_right 1), Rmax_right by (unfold a; lra). destruct (Rlt_dec a (1 * rlim)); [reflexivity|unfold a in *; lra]. }
    rewrite NV. discriminate.
  - intros P H IV. unfold eigpow4 in H. destruct (eigh 1%nat (fun _ _ => a)) as [E V] eqn:Q. cbn [seq map forallb] in H. rewrite Q in H. cbn [fst] in H.
    destruct (EX a) as [Ea _]. rewrite Q in Ea. cbn [fst] in Ea. destruct (EX 1) as [E1 _]. rewrite Ea, E1 in H.
    assert (NV : new_value (-1) rlim alim (rmax [Rabs a; Rabs 1]) a = Some 0).
    { unfold new_value, ltb. cbn [rmax fold_left]. destruct (int_valued (-1)) as [-> _]. cbn [negb andb orb]. destruct (Rlt_dec (-1) 0); [|lra]. rewrite (Rabs_right a), (Rabs_right 1), Rmax_right by (unfold a; lra). destruct (Rlt_dec a (1 * rlim)); [reflexivity|unfold a in *; lra]. }
    rewrite NV in H. injection H as <-. pose proof (proj1 (IV O O ltac:(lia) ltac:(lia))) as D. unfold lsum, rebuilt, delta in D. cbn [seq fold_right Nat.eqb lsum] in D. unfold lsum in D. cbn [seq fold_right] in D. cbn beta in D.
    rewrite ?Ea, ?E1 in D. cbn [rmax fold_left] in NV. rewrite NV in D. lra.
Qed.
Print Assumptions C130_stack_refuted.
Example C130_ex_hyps : symmetric 2 ex_C /\ (forall a, 0 <= covar 2 ex_C a a) /\ well_conditioned 2 (1 / 10) (1 / 10) ex_C.
Proof.
  split; [intros i j _ _; apply C129_ex_hyps|]. split; [apply C129_ex_hyps|].
  assert (EV : forall l, eigenvalue 2 ex_C l -> l = 1 \/ l = 3).
  { intros l (v & (i & I & Ni) & H). pose proof (H 0%nat ltac:(lia)) as H0. pose proof (H 1%nat ltac:(lia)) as H1. unfold lsum, ex_C in H0, H1. cbn [seq fold_right Nat.eqb] in H0, H1.
    set (x := v 0%nat) in *. set (y := v 1%nat) in *. assert (XY : x <> 0 \/ y <> 0) by (destruct i as [|[|i]]; [now left|now right|lia]).
    assert (S1 : (l - 3) * (x + y) = 0) by lra. assert (S2 : (l - 1) * (x - y) = 0) by lra.
    apply Rmult_integral in S1. apply Rmult_integral in S2. destruct S1 as [|S1]; [right; lra|]. destruct S2 as [|S2]; [left; lra|]. exfalso. destruct XY; lra. }
  intros l L. assert (Rabs l = 1 \/ Rabs l = 3) by (destruct (EV l L) as [-> | ->]; [left|right]; apply Rabs_right; lra). split; [lra|].
  intros m M. assert (Rabs m = 1 \/ Rabs m = 3) by (destruct (EV m M) as [-> | ->]; [left|right]; apply Rabs_right; lra). lra.
Qed.
