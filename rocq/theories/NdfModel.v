(* Model of utils.preflat, postflat and to_Nd: the shapes of their results. The elements keep their order in memory (reshape) *)
From Coq Require Import List ZArith Bool.
From Verif Require Import NdfSpec.
Import ListNotations.
Open Scope Z_scope.

(* python's l[:i] and l[i:] *)
Definition clip (n i : Z) : Z := Z.max 0 (Z.min n (if i <? 0 then i + n else i)).
Definition upto (l : list Z) (i : Z) : list Z := firstn (Z.to_nat (clip (Z.of_nat (length l)) i)) l.
Definition from (l : list Z) (i : Z) : list Z := skipn (Z.to_nat (clip (Z.of_nat (length l)) i)) l.
(* numpy's reshape of an array of tot elements to pre + (-1,) + post. None: ValueError *)
Definition reshape_m1 (tot : Z) (pre post : list Z) : option (list Z) :=
  let known := size pre * size post in
  if (known =? 0) || negb (tot mod known =? 0) then None else Some (pre ++ tot / known :: post).
(* reshape to a shape without -1 *)
Definition reshape (tot : Z) (out : list Z) : option (list Z) := if size out =? tot then Some out else None.
(* utils.py:1122-1127 *)
Definition preflat (shape : list Z) (n : Z) : option (list Z) :=
  let ndim := Z.of_nat (length shape) in
  let n := if n <? 0 then ndim - n else n in
  reshape_m1 (size shape) [] (from shape n).
(* utils.py:1129-1134 *)
Definition postflat (shape : list Z) (n : Z) : option (list Z) :=
  let ndim := Z.of_nat (length shape) in
  let n := if n <? 0 then ndim - n else n in
  reshape_m1 (size shape) (upto shape (ndim - n)) [].
(* utils.py:1111-1120, without return_inverse. (1,)*k of a negative k is empty, but k is not negative here *)
Definition to_Nd (shape : list Z) (n axis : Z) : option (list Z) :=
  let ndim := Z.of_nat (length shape) in
  if ndim <=? n then
    let axis := if axis <? 0 then ndim + 1 + axis else axis in
    reshape (size shape) (upto shape axis ++ repeat 1 (Z.to_nat (n - ndim)) ++ from shape axis)
  else
    let axis := if axis <? 0 then n + axis else axis in
    reshape_m1 (size shape) (upto shape axis) (from shape (axis + 1 + ndim - n)).
