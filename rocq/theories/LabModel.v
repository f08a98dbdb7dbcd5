(* Models of the grouping and labelling functions of utils.py. *)
From Coq Require Import QArith Qabs Sorting.Sorted.
From Verif Require Import Base LabSpec SplitModel FindModel BlockSpec.
Open Scope nat_scope.

(* utils.py:1985-1998, the inner loop of find_equal_groups over positions js in the sorted order.
   done is a set of positions; numeric rows only *)
Fixpoint feg_inner (rows : list (list Q)) (tol : Q) (inds : list nat) (xi : nat) (js : list nat) (done : nat -> bool) (acc : list nat) : (nat -> bool) * list nat :=
  match js with
  | [] => (done, acc)
  | j :: js' =>
    if done j then feg_inner rows tol inds xi js' done acc else
    let xj := nth j inds 0 in
    let ri := nth xi rows [] in
    let rj := nth xj rows [] in
    if qltb tol (first_col rj - first_col ri) then (done, acc)
    else if Qle_bool (dist2 rj ri) (tol * tol) then feg_inner rows tol inds xi js' (fun k => if k =? j then true else done k) (acc ++ [xj])
    else feg_inner rows tol inds xi js' done acc
  end.
(* utils.py:1980-1998, the outer loop *)
Fixpoint feg_outer (rows : list (list Q)) (tol : Q) (inds : list nat) (is : list nat) (done : nat -> bool) (res : list (list nat)) : list (list nat) :=
  match is with
  | [] => res
  | i :: is' =>
    if done i then feg_outer rows tol inds is' done res else
    let xi := nth i inds 0 in
    let '(done', g) := feg_inner rows tol inds xi (seq (i + 1) (length rows - (i + 1))) (fun k => if k =? i then true else done k) [xi] in
    feg_outer rows tol inds is' done' (res ++ [g])
  end.
(* utils.py:1971-1999 find_equal_groups; inds is np.argsort(a[:,0]) *)
Definition find_equal_groups (rows : list (list Q)) (tol : Q) (inds : list nat) : list (list nat) :=
  feg_outer rows tol inds (seq 0 (length rows)) (fun _ => false) [].

(* utils.py:2001-2013 find_equal_groups_fast; order is the stable argsort *)
Fixpoint index_of (v : Z) (l : list Z) : nat :=
  match l with [] => 0 | x :: l => if (x =? v)%Z then 0 else S (index_of v l) end.
Definition find_equal_groups_fast (vals : list Z) (order : list nat) : list Z * list nat * list Z :=
  let sorted := map (fun i => nth i vals 0%Z) order in
  let uvals := np_unique sorted in
  let edges := map (fun u => Z.of_nat (index_of u sorted)) uvals in
  (uvals, order, edges ++ [zlen vals]).

(* np.isclose *)
Definition isclose (rtol atol v w : Q) : bool := Qle_bool (Qabs (v - w)) (atol + rtol * Qabs w).
Definition row_close (rtol atol : Q) (r s : list Q) : bool := forallb (fun p => isclose rtol atol (fst p) (snd p)) (combine r s).
(* utils.py:1908-1916, the loop of label_unique; m i k is match[k] for v = fa[i] *)
Fixpoint label_loop (m : nat -> nat -> bool) (n : nat) (is : list nat) (ids : list Z) (id : Z) : list Z :=
  match is with
  | [] => ids
  | i :: is' =>
    if (0 <=? nth i ids (-1))%Z then label_loop m n is' ids id
    else label_loop m n is' (map (fun k => if m i k then id else nth k ids (-1)%Z) (seq 0 n)) (id + 1)%Z
  end.
(* utils.py:1892-1916 label_unique on the flattened rows *)
Definition label_unique (rtol atol : Q) (rows : list (list Q)) : list Z :=
  let n := length rows in
  label_loop (fun i k => row_close rtol atol (nth i rows []) (nth k rows [])) n (seq 0 n) (repeat (-1)%Z n) 0.

(* np.unique(vals, return_inverse=True)[1] *)
Definition unique_inverse (vals : list Z) : list Z := map (fun v => Z.of_nat (index_of v (np_unique vals))) vals.
(* utils.py:2026-2031, the loop of label_multi *)
Fixpoint label_multi_loop (valss : list (list Z)) (oinds : list Z) (nprev : Z) : list Z :=
  match valss with
  | [] => oinds
  | vals :: rest =>
    let inds := unique_inverse vals in
    label_multi_loop rest (map (fun p => fst p * nprev + snd p)%Z (combine oinds inds)) (zlen (np_unique vals))
  end.
(* utils.py:2015-2035 label_multi of columns of length n; integer values *)
Definition label_multi (n : nat) (valss : list (list Z)) : list Z :=
  unique_inverse (label_multi_loop valss (repeat 0%Z n) 1).
