(* Model of pixell/powspec.py: sym_compress, sym_expand, compressed_order. An index out of range gives None. *)
From Verif Require Import Base NdSpec NdModel AlmModel.
Local Open Scope Z_scope.

(* numpy.rollaxis(a, axis, start) for 0 <= axis, start *)
Definition rollaxis {A} (a : nd A) (axis start : Z) : nd A :=
  let n := zlen (nd_shape a) in
  let start := if axis <? start then start - 1 else start in
  if axis =? start then a else transpose (py_insert start axis (filter (fun ax => negb (ax =? axis)) (zrange 0 n))) a.

Inductive scheme := Stable | Row | Diag.

(* ---- powspec.py:53-113 compressed_order ---- *)
(* :90 ceil((sqrt(1+8n)-1)/2); sqrt_up rounds the root up, which does not move the result. The floating point root is taken as exact *)
Definition ncomp_of (n : Z) : Z := (Z.sqrt_up (1 + 8 * n) - 1 + 1) / 2.
(* :92-98 *)
Fixpoint stable_loop (fuel : nat) (n c : Z) (which : list (Z * Z)) : option (list (Z * Z)) :=
  if zlen which <? n then
    match fuel with
    | O => None
    | S fuel => let which := which ++ [(c, c)] in
                stable_loop fuel n (c + 1) (which ++ map (fun i => (i, c)) (zrange 0 (Z.min c (n - zlen which))))
    end
  else Some which.
(* :99-106 *)
Definition row_loop (n ncomp : Z) : list (Z * Z) :=
  snd (fold_left (fun '(m, which) '(i, j) =>
         if negb (i =? j) then if n <=? m then (m, which) else (m + 1, which ++ [(i, j)]) else (m, which ++ [(i, j)]))
       (flat_map (fun i => map (fun j => (i, j)) (zrange i ncomp)) (zrange 0 ncomp)) (ncomp, [])).
(* :107-110 *)
Definition diag_loop (ncomp : Z) : list (Z * Z) := flat_map (fun d => map (fun i => (i, i + d)) (zrange 0 (ncomp - d))) (zrange 0 ncomp).
Definition compressed_order (n : Z) (s : scheme) : option (list (Z * Z)) :=
  let ncomp := ncomp_of n in
  option_map (firstn (Z.to_nat n))
    match s with Stable => stable_loop (Z.to_nat n) n 0 [] | Row => Some (row_loop n ncomp) | Diag => Some (diag_loop ncomp) end.

(* ---- powspec.py:5-20 sym_compress. n, if given, is the number of elements to keep; add is the sum used by combined ---- *)
Definition in_bounds (shape : list Z) (w : Z * Z) : bool :=
  match shape with a :: b :: _ => (0 <=? fst w) && (fst w <? a) && (0 <=? snd w) && (snd w <? b) | _ => false end.
Definition sym_compress {A} (add : A -> A -> A) (mat : nd A) (n : option Z) (s : scheme) (ax0 ax1 : Z) (combined : bool) : option (nd A) :=
  let n := match n with Some n => n | None => zat (nd_shape mat) ax0 * (zat (nd_shape mat) ax0 + 1) / 2 end in
  match compressed_order n s with
  | None => None
  | Some which =>
    let m := rollaxis (rollaxis mat ax1 0) ax0 0 in
    if negb (forallb (in_bounds (nd_shape m)) which && (if combined then forallb (fun w => in_bounds (nd_shape m) (snd w, fst w)) which else true)) then None else
    let res := ND (zlen which :: skipn 2 (nd_shape m)) (fun idx =>
      let k := zat idx 0 in let rest := skipn 1 idx in
      let w := match zget which k with Some w => w | None => (0, 0) end in
      let v := nd_at m (fst w :: snd w :: rest) in
      if combined && negb (fst w =? snd w) then add v (nd_at m (snd w :: fst w :: rest)) else v) in
    Some (rollaxis res 0 ax0)
  end.

(* ---- powspec.py:22-36 sym_expand, ncomp taken from the order. The value halved for combined (:32) is computed and not used ---- *)
Definition sym_expand {A} (zero : A) (mat : nd A) (s : scheme) (axis : Z) (combined : bool) : option (nd A) :=
  match compressed_order (zat (nd_shape mat) axis) s with
  | None | Some [] => None
  | Some which =>
    let ncomp := fold_right Z.max 0 (map fst which ++ map snd which) + 1 in
    let m := rollaxis mat axis 0 in
    match ofold (fun (f : Z -> Z -> list Z -> A) '(i, w) =>
        if negb ((0 <=? fst w) && (fst w <? ncomp) && (0 <=? snd w) && (snd w <? ncomp)) then None else
        let put a b f := fun y x rest => if (y =? a) && (x =? b) then nd_at m (i :: rest) else f y x rest in
        let f := put (fst w) (snd w) f in
        Some (if negb (fst w =? snd w) then put (snd w) (fst w) f else f))
      (combine (zrange 0 (zlen which)) which) (fun _ _ _ => zero) with
    | None => None
    | Some f => let res := ND (ncomp :: ncomp :: skipn 1 (nd_shape m)) (fun idx => f (zat idx 0) (zat idx 1) (skipn 2 idx)) in
                Some (rollaxis (rollaxis res 1 axis) 0 axis)
    end
  end.
