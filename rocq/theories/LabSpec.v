(* What grouping and labelling equal values means. *)
From Coq Require Import QArith Qabs Sorting.Sorted.
From Verif Require Import Base.
Open Scope nat_scope.

(* two rows of numbers are equal / their squared euclidean distance *)
Definition row_eq (r s : list Q) : Prop := Forall2 Qeq r s.
Definition dist2 (r s : list Q) : Q := qsum (map (fun p => (fst p - snd p) * (fst p - snd p))%Q (combine r s)).
Definition first_col (r : list Q) : Q := nth 0 r 0%Q.

(* a list of groups of indices in which every index below n occurs exactly once *)
Definition groups_partition (groups : list (list nat)) (n : nat) : Prop :=
  Permutation (concat groups) (seq 0 n) /\ ~ In [] groups.
Definition together (groups : list (list nat)) (i j : nat) : Prop := exists g, In g groups /\ In i g /\ In j g.

(* labels used are exactly 0 .. L-1 *)
Definition contiguous_labels (labels : list Z) : Prop :=
  exists L : Z, forall l : Z, In l labels <-> (0 <= l < L)%Z.
(* every label is the right one: equal exactly for related entries *)
Definition labels_of (rel : nat -> nat -> Prop) (n : nat) (labels : list Z) : Prop :=
  length labels = n /\ forall i j, i < n -> j < n -> (nth i labels (-1)%Z = nth j labels (-1)%Z <-> rel i j).

(* a stable argsort: indices by value, equal values by position *)
Definition is_stable_argsort (order : list nat) (vals : list Z) : Prop :=
  Permutation order (seq 0 (length vals)) /\
  StronglySorted (fun i j => (nth i vals 0 < nth j vals 0)%Z \/ nth i vals 0%Z = nth j vals 0%Z /\ i < j) order.
