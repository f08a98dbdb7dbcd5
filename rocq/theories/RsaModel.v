(* Model of utils.resize_array, utils.sum_by_id, utils.transpose_inds, utils.without_inds and utils.only_inds *)
From Coq Require Import List Arith ZArith Reals Bool.
From Verif Require Import BrcSpec.
Import ListNotations.
Open Scope nat_scope.

Fixpoint update {T : Type} (k : nat) (x : T) (l : list T) : list T := match l, k with [], _ => [] | _ :: l', 0 => x :: l' | y :: l', S k' => y :: update k' x l' end.
(* oshape[axis] = size: one size goes to every axis *)
Fixpoint assign (axes sizes o : list nat) : list nat := match axes, sizes with a :: axes', s :: sizes' => assign axes' sizes' (update a s o) | _, _ => o end.
Fixpoint within (idx s : list nat) : bool := match idx, s with [], [] => true | i :: idx', n :: s' => (i <? n) && within idx' s' | _, _ => false end.
(* utils.py:1471-1484. None: an exception, among others for no axes (an empty index array has the wrong type) *)
Definition resize_array {T : Type} (arr : array T) (size : list nat) (axis : option (list Z)) (val : T) : option (array T) :=
  let ndim := length (shape arr) in
  let axis := match axis with None => map Z.of_nat (seq 0 (length size)) | Some l => l end in
  if (ndim =? 0) || (length axis =? 0) then None else
  let axis := map (fun a => Z.to_nat (a mod Z.of_nat ndim)) axis in
  let sizes := if length size =? 1 then Some (repeat (hd 0 size) (length axis)) else if length size =? length axis then Some size else None in
  match sizes with
  | None => None
  | Some sizes =>
      let oshape := assign axis sizes (shape arr) in
      let both := map (fun p => Nat.min (fst p) (snd p)) (combine (shape arr) oshape) in
      Some (Arr oshape (fun idx => if within idx both then value arr idx else val))
  end.

Definition zmax (m : Z) (l : list Z) : Z := fold_left Z.max l m.
(* fb[id] += fa[i] *)
Fixpoint accumulate (ids : list Z) (a fb : list R) : option (list R) :=
  match ids with
  | [] => Some fb
  | id :: ids' =>
      match a with
      | [] => None
      | x :: a' =>
          let n := Z.of_nat (length fb) in
          if ((- n <=? id) && (id <? n))%Z then let k := Z.to_nat (if (id <? 0)%Z then id + n else id)%Z in accumulate ids' a' (update k (nth k fb 0 + x)%R fb) else None
      end
  end.
(* utils.py:1359-1366, along the axis; the other axes are treated alike. None: an exception *)
Definition sum_by_id (a : list R) (ids : list Z) : option (list R) :=
  match ids with
  | [] => None
  | i :: rest => let n := (zmax i rest + 1)%Z in if (n <? 0)%Z then None else accumulate ids a (repeat 0%R (Z.to_nat n))
  end.

(* utils.py:1918-1923 *)
Definition transpose_inds (ind nrow ncol : Z) : Z := let row := (ind / ncol)%Z in let col := (ind mod ncol)%Z in (col * nrow + row)%Z.

Section Items.
Context {T : Type}.
(* enumerate *)
Fixpoint drop_inds (i : nat) (a : list T) (inds : list Z) : list T :=
  match a with [] => [] | v :: a' => if existsb (Z.eqb (Z.of_nat i)) inds then drop_inds (S i) a' inds else v :: drop_inds (S i) a' inds end.
(* utils.py:3439-3446 *)
Definition without_inds (a : list T) (inds : option (list Z)) : list T :=
  match inds with None => a | Some inds => drop_inds 0 a (map (fun n => if (n <? 0)%Z then (n + Z.of_nat (length a))%Z else n) inds) end.
(* a[i]; None: IndexError *)
Definition getitem (a : list T) (i : Z) : option T := let n := Z.of_nat (length a) in if (i <? 0)%Z then (if (i + n <? 0)%Z then None else nth_error a (Z.to_nat (i + n))) else nth_error a (Z.to_nat i).
Fixpoint getitems (a : list T) (inds : list Z) : option (list T) :=
  match inds with [] => Some [] | i :: inds' => match getitem a i, getitems a inds' with Some v, Some r => Some (v :: r) | _, _ => None end end.
(* utils.py:3448-3453 *)
Definition only_inds (a : list T) (inds : option (list Z)) : option (list T) := match inds with None => Some [] | Some inds => getitems a inds end.
End Items.
