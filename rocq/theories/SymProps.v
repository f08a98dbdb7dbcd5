(* C57: compressed symmetric matrices (pixell/powspec.py). *)
From Verif Require Import Base RangeLemmas NdSpec NdModel NdLemmas SymSpec SymModel SymLemmas.
Local Open Scope Z_scope.
Ltac Zify.zify_post_hook ::= idtac.

(* C57: in every scheme, the order for n elements lists n different elements of the smallest symmetric matrix that has that many, with its whole diagonal *)
Theorem C57_order n s : 1 <= n -> exists k which, compressed_order n s = Some which /\ smallest_size k n /\ selection k n which.
Proof.
  intros H. destruct (order_selection n s ltac:(lia)) as [w [E S]]. exists (ncomp_of n), w. split; [ assumption | ]. split; [ | assumption ].
  destruct (ncomp_spec n ltac:(lia)) as [X | [X _]]; [ assumption | lia ].
Qed.
Print Assumptions C57_order.
(* the tables of the documentation *)
Example C57_order_example :
  map (fun n => compressed_order n Stable) [1; 2; 3; 4; 5; 6] = map Some [[(0,0)]; [(0,0);(1,1)]; [(0,0);(1,1);(0,1)]; [(0,0);(1,1);(0,1);(2,2)]; [(0,0);(1,1);(0,1);(2,2);(0,2)]; [(0,0);(1,1);(0,1);(2,2);(0,2);(1,2)]] /\
  map (fun n => compressed_order n Diag) [1; 2; 3; 4; 5; 6] = map Some [[(0,0)]; [(0,0);(1,1)]; [(0,0);(1,1);(0,1)]; [(0,0);(1,1);(2,2);(0,1)]; [(0,0);(1,1);(2,2);(0,1);(1,2)]; [(0,0);(1,1);(2,2);(0,1);(1,2);(0,2)]] /\
  map (fun n => compressed_order n Row) [1; 2; 3; 4; 5; 6] = map Some [[(0,0)]; [(0,0);(1,1)]; [(0,0);(0,1);(1,1)]; [(0,0);(0,1);(1,1);(2,2)]; [(0,0);(0,1);(0,2);(1,1);(2,2)]; [(0,0);(0,1);(0,2);(1,1);(1,2);(2,2)]].
Proof. vm_compute. repeat split. Qed.

(* C57: the stable order for fewer elements is a prefix of that for more *)
Theorem C57_stable_prefix n m : 0 <= n <= m -> exists wn wm, compressed_order n Stable = Some wn /\ compressed_order m Stable = Some wm /\ wn = firstn (Z.to_nat n) wm.
Proof. apply stable_prefix. Qed.
Print Assumptions C57_stable_prefix.

(* C57: expanding a compressed symmetric matrix gives the matrix back, in every scheme, with any number of further axes *)
Theorem C57_expand_compress (A : Type) (add : A -> A -> A) (zero : A) k rest (m : nd A) s : 1 <= k -> symmetric k rest m ->
  exists c m', sym_compress add m None s 0 1 false = Some c /\ nd_shape c = k * (k + 1) / 2 :: rest /\ sym_expand zero c s 0 false = Some m' /\ nd_eq m m'.
Proof.
  intros K [E S]. set (n := k * (k + 1) / 2). pose proof (tri_even k) as T. fold n in T. assert (HN : 1 <= n) by nia.
  destruct (order_selection n s ltac:(lia)) as [which [EW SE]]. unfold n in SE at 1. rewrite ncomp_full in SE by lia.
  destruct (compress_spec add m k k rest n s which E ltac:(lia) ltac:(lia) EW SE ltac:(lia)) as [c [C1 [C2 C3]]].
  destruct (expand_spec zero c k n rest s which C2 ltac:(lia) EW SE) as [m' [M1 [M2 M3]]].
  exists c, m'. split; [ | split; [ assumption | split; [ assumption | ] ] ].
  - rewrite <- C1. unfold sym_compress. rewrite E. reflexivity.
  - split; [ congruence | ]. rewrite E. intros idx V. inversion V as [ | ? y ? l1 Hy V1 ]; subst. inversion V1 as [ | ? x ? l2 Hx V2 ]; subst.
    destruct (M3 y x l2 (eq_sym (valid_zlen _ _ V2))) as [P _].
    pose proof (full_selection k which ltac:(lia) SE (Z.min y x) (Z.max y x) ltac:(lia) ltac:(lia)) as I. apply In_zget in I. destruct I as [q Eq].
    rewrite (P q Eq). rewrite (C3 q _ _ l2 Eq (eq_sym (valid_zlen _ _ V2))).
    destruct (Z_le_dec y x); [ rewrite Z.max_r, Z.min_l by lia; apply S; assumption || lia | rewrite Z.max_l, Z.min_r by lia; reflexivity ].
Qed.
Print Assumptions C57_expand_compress.

(* C57: compressing an expanded list, asking for as many elements, gives the list back; the matrix in between is symmetric and zero where nothing was given *)
Theorem C57_compress_expand (A : Type) (add : A -> A -> A) (zero : A) n rest (v : nd A) s : 1 <= n -> nd_shape v = n :: rest ->
  exists k m v', sym_expand zero v s 0 false = Some m /\ smallest_size k n /\ symmetric k rest m /\ sym_compress add m (Some n) s 0 1 false = Some v' /\ nd_eq v v'.
Proof.
  intros H E. destruct (order_selection n s ltac:(lia)) as [which [EW SE]].
  destruct (ncomp_spec n ltac:(lia)) as [X | [X _]]; [ | lia ]. set (k := ncomp_of n) in *.
  assert (K : 0 < k). { destruct X as [X1 [X2 X3]]. destruct (Z.eq_dec k 0) as [K0 | K0]; [ rewrite K0 in X2; lia | lia ]. }
  destruct (expand_spec zero v k n rest s which E K EW SE) as [m [M1 [M2 M3]]].
  destruct (compress_spec add m k k rest n s which M2 ltac:(lia) ltac:(lia) EW SE ltac:(lia)) as [v' [C1 [C2 C3]]].
  exists k, m, v'. split; [ assumption | ]. split; [ assumption | ]. split; [ | split; [ assumption | ] ].
  - split; [ assumption | ]. intros i j idx Hi Hj V. pose proof (eq_sym (valid_zlen _ _ V)) as LI. destruct (M3 i j idx LI) as [P1 P2]. destruct (M3 j i idx LI) as [Q1 Q2].
    rewrite (Z.min_comm j i), (Z.max_comm j i) in Q1, Q2.
    destruct (in_dec (fun a b : Z * Z => ltac:(decide equality; apply Z.eq_dec)) (Z.min i j, Z.max i j) which) as [I | I].
    + apply In_zget in I. destruct I as [q Eq]. rewrite (P1 q Eq), (Q1 q Eq). reflexivity.
    + rewrite (P2 I), (Q2 I). reflexivity.
  - split; [ congruence | ]. rewrite E. intros idx V. inversion V as [ | ? q ? l1 Hq V1 ]; subst. destruct SE as [L [N [R D]]].
    destruct (zget_in_range which q ltac:(lia)) as [[i j] Eq]. pose proof (eq_sym (valid_zlen _ _ V1)) as LI. rewrite (C3 q i j l1 Eq LI).
    destruct (M3 j i l1 LI) as [P _]. pose proof (R i j (zget_In _ _ _ Eq)). symmetry. apply P. rewrite Z.min_r, Z.max_l by lia. assumption.
Qed.
Print Assumptions C57_compress_expand.

Definition dump (m : nd Z) (idxs : list (list Z)) : list Z * list Z := (nd_shape m, map (nd_at m) idxs).
Example C57_example : let m := ND [2; 2; 2] (fun idx => match idx with [i; j; l] => 10 * (i + j) + 3 * i * j + l | _ => 0 end) in symmetric 2 [2] m /\
  option_map (fun c => (dump c [[0; 0]; [1; 0]; [2; 0]; [2; 1]], option_map (fun m' => dump m' [[0; 0; 0]; [0; 1; 0]; [1; 0; 0]; [1; 1; 0]; [1; 0; 1]]) (sym_expand 0 c Diag 0 false))) (sym_compress Z.add m None Diag 0 1 false)
  = Some (([3; 2], [0; 23; 10; 11]), Some ([2; 2; 2], [0; 10; 10; 23; 11])).
Proof.
  cbv zeta. split; [ | vm_compute; reflexivity ]. split; [ reflexivity | ]. intros i j idx _ _ V. inversion V as [ | ? l ? r Hl V' ]; subst. inversion V'; subst. cbn [nd_at]. ring.
Qed.

(* two ways out of the property. With combined=True, off-diagonal elements are added up when compressing and not halved when expanding: they come back doubled *)
Theorem C57_combined_counterexample :
  let m := ND [2; 2] (fun idx => match idx with [i; j] => 1 + 10 * (i + j) | _ => 0 end) in
  option_map (fun c => option_map (fun m' => dump m' [[0; 0]; [0; 1]; [1; 0]; [1; 1]]) (sym_expand 0 c Diag 0 true)) (sym_compress Z.add m None Diag 0 1 true)
  = Some (Some ([2; 2], [1; 22; 22; 21])) /\ map (nd_at m) [[0; 0]; [0; 1]; [1; 0]; [1; 1]] = [1; 11; 11; 21].
Proof. vm_compute. split; reflexivity. Qed.
Print Assumptions C57_combined_counterexample.
(* with axes=[1,2] the wrong axes are indexed: for a stack of two symmetric 3 x 3 matrices the index is out of range *)
Theorem C57_axes_counterexample : let m := ND [2; 3; 3] (fun idx => match idx with [l; i; j] => l + i * j | _ => 0 end) in
  sym_compress Z.add m None Diag 1 2 false = None /\
  option_map (fun c => nd_at c [1; 0]) (sym_compress Z.add m (Some 3) Diag 1 2 false) = Some 1.
Proof. vm_compute. split; reflexivity. Qed.
Print Assumptions C57_axes_counterexample.
