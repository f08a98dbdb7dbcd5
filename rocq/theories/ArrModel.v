(* Two-dimensional numpy arrays and maps, used by the models of enmap functions. An array is its shape
   and the value at each position; positions outside the shape carry no meaning and no theorem looks at them. *)
From Verif Require Import Base SliceSpec.

Record farr (A : Type) := FA { f_ny : Z; f_nx : Z; f_at : Z -> Z -> A }.
Arguments FA {A}. Arguments f_ny {A}. Arguments f_nx {A}. Arguments f_at {A}.
(* enmap.py 44-60: ndmap = array + wcs; leading dimensions are folded into the element type *)
Record fmap (A : Type) := FM { fm_arr : farr A; fm_wcs : wcs }.
Arguments FM {A}. Arguments fm_arr {A}. Arguments fm_wcs {A}.

(* position of k in the selection s of an axis of length n, if it is selected *)
Definition sl_find (s : pyslice) (n k : Z) : option Z :=
  let j := (k - py_start s n) / py_step s in
  if (py_start s n + py_step s * j =? k) && (0 <=? j) && (j <? py_len s n) then Some j else None.
Definition sl_at (s : pyslice) (n j : Z) : Z := py_start s n + py_step s * j.

(* numpy: a[sy,sx] *)
Definition get2 {A} (a : farr A) (sy sx : pyslice) : farr A :=
  FA (py_len sy (f_ny a)) (py_len sx (f_nx a)) (fun y x => f_at a (sl_at sy (f_ny a) y) (sl_at sx (f_nx a) x)).
(* numpy: a[sy,sx] = v. A shape mismatch is an error (numpy would stretch an axis of v of length 1 instead). *)
Definition set2 {A} (a : farr A) (sy sx : pyslice) (v : farr A) : option (farr A) :=
  if (py_len sy (f_ny a) =? f_ny v) && (py_len sx (f_nx a) =? f_nx v) then
    Some (FA (f_ny a) (f_nx a) (fun y x => match sl_find sy (f_ny a) y, sl_find sx (f_nx a) x with
                                          | Some i, Some j => f_at v i j
                                          | _, _ => f_at a y x end))
  else None.
(* numpy: elementwise binary operation on arrays of the same shape *)
Definition zip2 {A} (op : A -> A -> A) (a b : farr A) : option (farr A) :=
  if (f_ny a =? f_ny b) && (f_nx a =? f_nx b) then Some (FA (f_ny a) (f_nx a) (fun y x => op (f_at a y x) (f_at b y x))) else None.
(* numpy: np.full((ny,nx), v); negative dimensions are an error *)
Definition full2 {A} (ny nx : Z) (v : A) : option (farr A) :=
  if (0 <=? ny) && (0 <=? nx) then Some (FA ny nx (fun _ _ => v)) else None.

(* python slice a:b with step 1 *)
Definition sl (a b : Z) : pyslice := PS (Some a) (Some b) None.

(* same shape and same values *)
Definition arr_eq {A} (a b : farr A) : Prop :=
  f_ny a = f_ny b /\ f_nx a = f_nx b /\ forall y x, 0 <= y < f_ny a -> 0 <= x < f_nx a -> f_at a y x = f_at b y x.
