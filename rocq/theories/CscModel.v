(* Model of pointsrcs.build_src_cells, cellify and uncellify. The sources have one position each: the middle axes of srcpos are independent of each other in the code.
   Reshaping back and the option unwind are not modelled. *)
From Coq Require Import List Arith ZArith Reals Bool.
From Verif Require Import BldModel RnsModel.
Import ListNotations.
Open Scope R_scope.
Open Scope nat_scope.

(* pointsrcs.py:399 np.ceil((cbox[1]-cbox[0])/cres), one axis *)
Definition cshape (c0 c1 cres : R) : nat := Z.to_nat (ceilR ((c1 - c0) / cres)%R).
(* pointsrcs.py:424-427 *)
Definition woffs (w : R) : list R := if Req_EM_T w 0 then [0%R] else [(- w)%R; 0%R; w].
(* pointsrcs.py:433-437, one axis *)
Definition i1 (c0 c1 cres : R) (n : nat) (p : R) : Z := Z.max (truncR ((p - cres - c0) * (INR n / (c1 - c0)))%R) 0.
Definition i2 (c0 c1 cres : R) (n : nat) (p : R) : Z := Z.min (truncR ((p + cres - c0) * (INR n / (c1 - c0)) + 1)%R) (Z.of_nat n).
Definition range (a b : Z) : list nat := seq (Z.to_nat a) (Z.to_nat (b - a)).
(* a box: low corner, high corner and the resolution along an axis *)
Record axis := Axis { lo : R; hi : R; res : R; wrap : R }.
Definition ncells (a : axis) : nat := cshape (lo a) (hi a) (res a).
Definition first (a : axis) (p : R) : Z := i1 (lo a) (hi a) (res a) (ncells a) p.
Definition last (a : axis) (p : R) : Z := i2 (lo a) (hi a) (res a) (ncells a) p.
(* pointsrcs.py:439-441: the cells the loops visit for a source at (py,px) *)
Definition visits (ay ax : axis) (py px : R) : list (nat * nat) :=
  if ((Z.of_nat (ncells ay) <=? first ay py) || (Z.of_nat (ncells ax) <=? first ax px) || (last ay py <? 0) || (last ax px <? 0))%Z then []
  else list_prod (range (first ay py) (last ay py)) (range (first ax px) (last ax px)).
(* pointsrcs.py:428-432: all visits of all sources, with the number of the source *)
Definition source_visits (ay ax : axis) (si : nat) (pos : R * R) : list (nat * (nat * nat)) :=
  flat_map (fun o : R * R => map (fun c => (si, c)) (visits ay ax (fst pos + fst o)%R (snd pos + snd o)%R)) (list_prod (woffs (wrap ay)) (woffs (wrap ax))).
Definition all_visits (ay ax : axis) (srcs : list (R * R)) : list (nat * (nat * nat)) :=
  flat_map (fun si => source_visits ay ax si (nth si srcs (0%R, 0%R))) (seq 0 (length srcs)).
Definition here (y x : nat) (e : nat * (nat * nat)) : bool := (fst (snd e) =? y) && (snd (snd e) =? x).
(* pointsrcs.py:444 with nmax = 0: the counts *)
Definition count_pass (es : list (nat * (nat * nat))) : nat -> nat -> nat :=
  fold_left (fun ncell e => fun y x => if here y x e then ncell y x + 1 else ncell y x) es (fun _ _ => 0).
(* pointsrcs.py:441-444 with nmax > 0. The entries of a cell that are in use are a list; ncell is its length; an entry beyond nmax is an error *)
Definition fill_step (nmax : nat) (st : option (nat -> nat -> list nat)) (e : nat * (nat * nat)) : option (nat -> nat -> list nat) :=
  match st with
  | None => None
  | Some cells => if length (cells (fst (snd e)) (snd (snd e))) <? nmax then Some (fun y x => if here y x e then cells y x ++ [fst e] else cells y x) else None
  end.
Definition fill_pass (nmax : nat) (es : list (nat * (nat * nat))) : option (nat -> nat -> list nat) := fold_left (fill_step nmax) es (Some (fun _ _ => [])).
(* pointsrcs.py:390-410 *)
Definition build_src_cells (ay ax : axis) (srcs : list (R * R)) : option (nat -> nat -> list nat) :=
  let es := all_visits ay ax srcs in
  let ncell := count_pass es in
  let nmax := Nat.max 1 (list_max (map (fun c => ncell (fst c) (snd c)) (list_prod (seq 0 (ncells ay)) (seq 0 (ncells ax))))) in
  fill_pass nmax es.

(* pointsrcs.py:447-456 of a map of shape ny, nx: the values of the cells. The reshape keeps the order of the values, and the axes 1 and 2 of the result are then swapped *)
Definition cellify {A} (ny nx ry rx : nat) (map : nat -> nat -> A) : nat * nat * (nat -> nat -> nat -> nat -> A) :=
  let cy := ny / ry in let cx := nx / rx in
  let flat := fun i => map (i / (cx * rx)) (i mod (cx * rx)) in
  let reshaped := fun a b c d => flat (((a * ry + b) * cx + c) * rx + d) in
  (cy, cx, fun a b c d => reshaped a c b d).
(* pointsrcs.py:458-461 of cells of shape cy, cx, ry, rx *)
Definition uncellify {A} (cy cx ry rx : nat) (cmap : nat -> nat -> nat -> nat -> A) : nat * nat * (nat -> nat -> A) :=
  let moved := fun a b c d => cmap a c b d in
  let flat := fun i => moved (i / (ry * cx * rx)) (i / (cx * rx) mod ry) (i / rx mod cx) (i mod rx) in
  (cy * ry, cx * rx, fun y x => flat (y * (cx * rx) + x)).
