(* numpy axis moves and reshapes, and the helpers of utils.py built on them. Memory layout and views versus copies are not modelled. *)
From Verif Require Import Base NdSpec.
(* numpy.moveaxis normalises axes and refuses repeated ones and ones out of range (numpy/core/numeric.py) *)
Definition norm_axis (n a : Z) : option Z := if (- n <=? a) && (a <? n) then Some (a mod n) else None.
Fixpoint norm_axes (n : Z) (axes : list Z) : option (list Z) :=
  match axes with
  | [] => Some []
  | a :: rest => match norm_axis n a, norm_axes n rest with
                 | Some x, Some l => if existsb (Z.eqb x) l then None else Some (x :: l)
                 | _, _ => None
                 end
  end.
(* list.insert(p, x) for 0 <= p *)
Definition py_insert (p x : Z) (l : list Z) : list Z := firstn (Z.to_nat p) l ++ x :: skipn (Z.to_nat p) l.
(* sorted(zip(destination, source)); destinations are distinct, so only they matter *)
Fixpoint ins_pair (e : Z * Z) (l : list (Z * Z)) : list (Z * Z) :=
  match l with [] => [e] | f :: r => if fst e <=? fst f then e :: l else f :: ins_pair e r end.
Definition sort_pairs (l : list (Z * Z)) : list (Z * Z) := fold_right ins_pair [] l.
(* numpy.moveaxis: the order of the old axes in the new array *)
Definition axis_order (n : Z) (src dst : list Z) : list Z :=
  fold_left (fun order e => py_insert (fst e) (snd e) order) (sort_pairs (combine dst src)) (filter (fun a => negb (existsb (Z.eqb a) src)) (zrange 0 n)).
Fixpoint index_of (x : Z) (l : list Z) : Z := match l with [] => 0 | y :: l => if x =? y then 0 else 1 + index_of x l end.
Definition zat (l : list Z) (k : Z) : Z := match zget l k with Some x => x | None => 0 end.
(* numpy.transpose(a, order): axis k of the result is axis order[k] of a *)
Definition transpose {A} (order : list Z) (a : nd A) : nd A :=
  ND (map (zat (nd_shape a)) order) (fun idx => nd_at a (map (fun ax => zat idx (index_of ax order)) (zrange 0 (zlen (nd_shape a))))).
(* utils.py:376-377 moveaxis, moveaxes *)
Definition moveaxes {A} (a : nd A) (src dst : list Z) : option (nd A) :=
  let n := zlen (nd_shape a) in
  match norm_axes n src, norm_axes n dst with
  | Some s, Some d => if negb (zlen s =? zlen d) then None else Some (transpose (axis_order n s d) a)
  | _, _ => None
  end.
(* C order: flat position -> index and back *)
Fixpoint unravel (shape : list Z) (f : Z) : list Z :=
  match shape with [] => [] | _ :: rest => f / zprod rest :: unravel rest (f mod zprod rest) end.
Definition ravel (shape idx : list Z) : Z := fold_left (fun acc e => acc * fst e + snd e) (combine shape idx) 0.
(* a.reshape(shape) *)
Definition reshape {A} (shape : list Z) (a : nd A) : option (nd A) :=
  if zprod shape =? zprod (nd_shape a) then Some (ND shape (fun idx => nd_at a (unravel (nd_shape a) (ravel shape idx)))) else None.
(* a.reshape(pre+(-1,)+post) *)
Definition reshape_hole {A} (pre post : list Z) (a : nd A) : option (nd A) :=
  let known := zprod pre * zprod post in
  if known =? 0 then None else
  if zprod (nd_shape a) mod known =? 0 then reshape (pre ++ [zprod (nd_shape a) / known] ++ post) a else None.
(* utils.py:458-469 partial_flatten *)
Definition partial_flatten {A} (a : nd A) (axes : list Z) (pos : Z) : option (nd A) :=
  let k := zlen axes in
  match moveaxes a axes (zrange 0 k) with
  | Some a1 => match reshape_hole (firstn (Z.to_nat k) (nd_shape a1)) [] a1 with
               | Some a2 => moveaxes a2 [-1] [pos]
               | None => None
               end
  | None => None
  end.
(* utils.py:471-479 partial_expand. np.array([]) is a float array, which np.delete refuses *)
Definition partial_expand {A} (a : nd A) (shape axes : list Z) (pos : Z) : option (nd A) :=
  let k := zlen axes in
  match moveaxes a [pos] [-1] with
  | Some a1 =>
    let n := zlen shape in
    if (n =? 0) || (k =? 0) then None else
    let ax := map (fun x => x mod n) axes in
    let rest := map (zat shape) (filter (fun p => negb (existsb (Z.eqb p) ax)) (zrange 0 n)) in
    match reshape (firstn (Z.to_nat k) (nd_shape a1) ++ rest) a1 with
    | Some a2 => moveaxes a2 (zrange 0 k) ax
    | None => None
    end
  | None => None
  end.
(* shape[n:] and shape[:n] for any integer n *)
Definition py_from (l : list Z) (n : Z) : list Z := let n := if n <? 0 then Z.max 0 (n + zlen l) else n in skipn (Z.to_nat n) l.
Definition py_upto (l : list Z) (n : Z) : list Z := let n := if n <? 0 then Z.max 0 (n + zlen l) else n in firstn (Z.to_nat n) l.
(* utils.py:1122-1127 preflat *)
Definition preflat {A} (a : nd A) (n : Z) : option (nd A) :=
  let n := if n <? 0 then zlen (nd_shape a) - n else n in reshape_hole [] (py_from (nd_shape a) n) a.
(* utils.py:1129-1134 postflat *)
Definition postflat {A} (a : nd A) (n : Z) : option (nd A) :=
  let n := if n <? 0 then zlen (nd_shape a) - n else n in reshape_hole (py_upto (nd_shape a) (zlen (nd_shape a) - n)) [] a.
