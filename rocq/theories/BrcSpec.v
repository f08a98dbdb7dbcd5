(* Broadcasting *)
From Coq Require Import List Arith ZArith.
Import ListNotations.

Record array (T : Type) := Arr { shape : list nat; value : list nat -> T }.
Arguments Arr {T}. Arguments shape {T}. Arguments value {T}.
(* where new axes go in a shape of len axes: after the first at, or counted from the end for negative at *)
Definition place (at_ : Z) (len : nat) : nat := Z.to_nat (if (at_ <? 0)%Z then (Z.of_nat len + 1 + at_)%Z else at_).
(* at is the number of an axis of the shape, or one more *)
Definition placed (at_ : Z) (len : nat) : Prop := (- Z.of_nat len - 1 <= at_ <= Z.of_nat len)%Z.
(* the length a shape has along axis i of the ndim common ones: 1 along those that it does not have *)
Definition length_at (at_ : Z) (ndim : nat) (s : list nat) (i : nat) : nat :=
  let k := place at_ (length s) in
  if i <? k then nth i s 0 else if i <? k + (ndim - length s) then 1 else nth (i - (ndim - length s)) s 0.
Definition most (shapes : list (list nat)) : nat := fold_right (fun s m => Nat.max (length s) m) 0 shapes.
(* o is what the shapes have in common: along every axis the only length other than 1 *)
Definition common (at_ : Z) (shapes : list (list nat)) (o : list nat) : Prop :=
  length o = most shapes /\ forall i, i < most shapes ->
    (forall s, In s shapes -> length_at at_ (most shapes) s i = 1 \/ length_at at_ (most shapes) s i = nth i o 0) /\
    (nth i o 0 = 1 \/ exists s, In s shapes /\ length_at at_ (most shapes) s i = nth i o 0).
(* the element of an array of shape s that is seen at index idx of the common shape: new axes are skipped, and axes of length 1 are at 0 *)
Definition seen (at_ : Z) (s idx : list nat) : list nat :=
  let k := place at_ (length s) in
  map (fun j => if nth j s 0 =? 1 then 0 else nth (if j <? k then j else j + (length idx - length s)) idx 0) (seq 0 (length s)).
