(* Specification vocabulary for C22, C64, C65. *)
From Coq Require Import Qabs.
From Verif Require Import Base RangeSpec.

(* r is a position of array that holds v *)
Definition holds_at (array : list Z) (v r : Z) : Prop := zget array r = Some v.

(* what np.argsort promises for rational keys *)
Definition is_argsort_q (inds : list nat) (keys : list Q) : Prop :=
  Permutation inds (seq 0 (length keys)) /\
  StronglySorted Qle (map (fun i => nth i keys 0%Q) inds).

Definition qdist (a b : Q) : Q := Qabs.Qabs (a - b).

(* x is an element of arr that is at least as close to v as every other *)
Definition is_nearest (arr : list Q) (v x : Q) : Prop :=
  In x arr /\ forall y, In y arr -> (qdist x v <= qdist y v)%Q.

(* the entries of l where mask is true, in order: numpy l[mask] *)
Fixpoint select {A} (mask : list bool) (l : list A) : list A :=
  match mask, l with
  | b :: mask, x :: l => if b then x :: select mask l else select mask l
  | _, _ => []
  end.

(* pieces joined by a separator *)
Fixpoint join {A} (sep : A) (pieces : list (list A)) : list A :=
  match pieces with
  | [] => []
  | [p] => p
  | p :: rest => p ++ sep :: join sep rest
  end.
