(* C22: index lookups; C64: unmask; C65: listsplit. *)
From Verif Require Import Base RangeSpec RangeModel FindSpec FindModel FindLemmas.

(* every returned index holds the value it was asked for; with a default, a missing value gives the default *)
Theorem C22_find_sound : forall array order vals default res, is_argsort order array ->
  find array order vals default = Some res ->
  Forall2 (fun v r => holds_at array v r \/ (~ In v array /\ default = Some r)) vals res.
Proof. intros array order vals default res Ha. exact (proj1 (find_spec array order vals default Ha) res). Qed.
Print Assumptions C22_find_sound.

(* it returns exactly when it should: always for a non-empty array with default, otherwise iff all values are present *)
Theorem C22_find_total : forall array order vals, is_argsort order array -> array <> [] ->
  (forall d, exists res, find array order vals (Some d) = Some res) /\
  ((forall v, In v vals -> In v array) -> exists res, find array order vals None = Some res) /\
  ((exists v, In v vals /\ ~ In v array) -> find array order vals None = None).
Proof.
  intros array order vals Ha Hne. repeat split.
  - intros d. apply (find_spec array order vals (Some d) Ha); [exact Hne|left; discriminate].
  - intros H. apply (find_spec array order vals None Ha); auto.
  - intros H. now apply (find_spec array order vals None Ha).
Qed.
Print Assumptions C22_find_total.

Example C22_find_ex : is_argsort [2; 0; 3; 1]%nat [5; 9; 2; 7] /\
  find [5; 9; 2; 7] [2; 0; 3; 1]%nat [7; 2; 5] None = Some [3; 2; 0] /\
  find [5; 9; 2; 7] [2; 0; 3; 1]%nat [7; 6; 99] (Some (-1)) = Some [3; -1; -1] /\
  find [5; 9; 2; 7] [2; 0; 3; 1]%nat [7; 6; 5] None = None.
Proof.
  repeat split; [|repeat constructor; cbn; lia].
  apply NoDup_Permutation; [repeat constructor; cbn; intuition lia|apply seq_NoDup|cbn; intuition lia].
Qed.

(* the default is of no help for an empty array: the call raises *)
Theorem C22_find_default_refuted : exists vals d, find [] [] vals (Some d) = None.
Proof. exists [1], (-1). reflexivity. Qed.
Print Assumptions C22_find_default_refuted.

Theorem C22_find_any : forall array order vals, is_argsort order array -> array <> [] -> vals <> [] ->
  exists res, find_any array order vals = Some res /\
    Forall2 (holds_at array) (filter (fun v => existsb (Z.eqb v) array) vals) res.
Proof. exact find_any_spec. Qed.
Print Assumptions C22_find_any.

(* and find_any raises for an empty query *)
Theorem C22_find_any_empty_refuted : forall array order, find_any array order [] = None.
Proof. reflexivity. Qed.
Print Assumptions C22_find_any_empty_refuted.

Theorem C22_contains_partial : forall array vals svals, Permutation svals vals -> StronglySorted Z.le svals -> vals <> [] ->
  contains array svals = Some (map (fun x => existsb (Z.eqb x) vals) array).
Proof. exact contains_spec. Qed.
Print Assumptions C22_contains_partial.

Example C22_contains_ex : contains [1; 2; 3; 9; 0] [2; 3; 3; 5] = Some [false; true; true; false; false].
Proof. reflexivity. Qed.

Theorem C22_contains_empty_refuted : forall x array, contains (x :: array) [] = None.
Proof. reflexivity. Qed.
Print Assumptions C22_contains_empty_refuted.

(* sorted=True: the index may be -1 (array of one element), which python still resolves *)
Theorem C22_nearest_ind_sorted : forall arr vals, StronglySorted Qle arr -> arr <> [] ->
  exists res, nearest_ind arr vals = Some res /\
    Forall2 (fun v i => -1 <= i < zlen arr /\ exists x, pyget arr i = Some x /\ is_nearest arr v x) vals res.
Proof. exact nearest_all_spec. Qed.
Print Assumptions C22_nearest_ind_sorted.

Theorem C22_nearest_ind : forall arr order vals, is_argsort_q order arr -> arr <> [] ->
  exists res, nearest_ind_unsorted arr order vals = Some res /\
    Forall2 (fun v i => exists x, zget arr i = Some x /\ is_nearest arr v x) vals res.
Proof. exact nearest_unsorted_spec. Qed.
Print Assumptions C22_nearest_ind.

Example C22_nearest_ex : nearest_ind_unsorted [5; 9; 2; 7]%Q [2; 0; 3; 1]%nat [0; 6; 13 # 2; 100]%Q = Some [2; 0; 3; 1].
Proof. reflexivity. Qed.

Theorem C22_common_inds : forall arrs orders, Forall2 is_argsort orders arrs -> arrs <> [] ->
  exists vals res, common_vals arrs = Some vals /\ common_inds arrs orders = Some res /\
    (forall v, In v vals <-> Forall (In v) arrs) /\
    ((2 <= length arrs)%nat -> StronglySorted Z.lt vals) /\
    Forall2 (fun a r => Forall2 (holds_at a) vals r) arrs res.
Proof. exact common_inds_spec. Qed.
Print Assumptions C22_common_inds.

Example C22_common_ex : common_inds [[1; 2; 3; 4; 5]; [8; 4; 6; 2]] [[0; 1; 2; 3; 4]; [3; 1; 2; 0]]%nat = Some [[1; 3]; [3; 1]].
Proof. reflexivity. Qed.

(* whatever np.empty contains *)
Theorem C22_inverse_order : forall (A : Type) (d : A) garbage order (a : list A),
  Permutation order (seq 0 (length a)) -> length garbage = length a ->
  let inv := inverse_order garbage order in
  Permutation inv (seq 0 (length a)) /\
  gather d (gather d a order) inv = a /\ gather d (gather d a inv) order = a.
Proof. exact @inverse_order_spec. Qed.
Print Assumptions C22_inverse_order.

Example C22_inverse_ex : inverse_order [7; 7; 7; 7]%nat [2; 0; 3; 1]%nat = [1; 3; 0; 2]%nat.
Proof. reflexivity. Qed.

Theorem C22_complement_inds_partial : forall inds n, inds <> [] -> Forall (fun i => 0 <= i < Z.of_nat n) inds ->
  exists r, complement_inds (Some inds) n = Some r /\ StronglySorted Z.lt r /\
    forall k, In k r <-> 0 <= k < Z.of_nat n /\ ~ In k inds.
Proof. intros [|i inds] n Hne HF; [congruence|]. exact (complement_list_spec (i :: inds) n HF). Qed.
Print Assumptions C22_complement_inds_partial.

Example C22_complement_ex : complement_inds (Some [0; 2; 4]) 7 = Some [1; 3; 5; 6] /\ complement_inds None 7 = Some [].
Proof. split; reflexivity. Qed.

Theorem C22_complement_inds_empty_refuted : forall n, complement_inds (Some []) n = None.
Proof. reflexivity. Qed.
Print Assumptions C22_complement_inds_empty_refuted.

(* result[mask] = arr afterwards, and fill elsewhere *)
Theorem C64_unmask : forall (A : Type) (fill : A) mask arr, length arr = length (filter (fun b => b) mask) ->
  exists r, unmask arr mask fill = Some r /\ length r = length mask /\ select mask r = arr /\
    forall k, nth_error mask k = Some false -> nth_error r k = Some fill.
Proof. exact @unmask_spec. Qed.
Print Assumptions C64_unmask.

(* undoing x[mask] restores x where it was selected *)
Theorem C64_unmask_select : forall (A : Type) (fill : A) mask l, length l = length mask ->
  exists r, unmask (select mask l) mask fill = Some r /\ length r = length mask /\
    forall k b, nth_error mask k = Some b -> nth_error r k = if b then nth_error l k else Some fill.
Proof. exact @unmask_select. Qed.
Print Assumptions C64_unmask_select.

Example C64_ex : unmask [5; 6] [false; true; true; false] 0 = Some [0; 5; 6; 0].
Proof. reflexivity. Qed.

(* the pieces rejoin to the sequence and contain no separator; no other list of pieces does *)
Theorem C65_listsplit : forall seq_ elem,
  join elem (listsplit seq_ elem) = seq_ /\ Forall (fun p => ~ In elem p) (listsplit seq_ elem) /\
  (forall ps, ps <> [] -> Forall (fun p => ~ In elem p) ps -> join elem ps = seq_ -> ps = listsplit seq_ elem).
Proof.
  intros s elem. rewrite listsplit_split. split; [apply split_at_join|]. split; [apply split_at_clean|].
  intros ps Hp HF E. apply (join_unique elem); auto; [apply split_at_nonnil|apply split_at_clean|]. rewrite E. symmetry. apply split_at_join.
Qed.
Print Assumptions C65_listsplit.

Example C65_ex : listsplit [1; 4; 2; 4; 4; 7] 4 = [[1]; [2]; []; [7]].
Proof. reflexivity. Qed.
