(* Model of two routines of fortran/array_ops.F90 as called from pixell/array_ops.py. *)
From Coq Require Import ZArith QArith List Lia.
From Verif Require Import Base RangeModel AlmModel.
Import ListNotations.
Local Open Scope Z_scope.

(* array_ops.F90:111-131 roll_rows. Python passes imap[I].T and omap[I].T (array_ops.py:24), so fortran's (ix,y)
   is python's [y,ix-1]; memory is one flat row-major list. One assignment of the double loop is a write; the loop over y
   is parallel, so [order] is the order in which the assignments are carried out. The fortran does no bounds check: a write beyond
   a row lands in another row, and one beyond the array is an error here. *)
Definition roll_target (nx off ix : Z) : Z :=
  let ox := ix + off in if ox <? 1 then ox + nx else if nx <? ox then ox - nx else ox.
Definition roll_write {A} (nx : Z) (imap : list A) (offsets : list Z) (omap : list A) (p : Z * Z) : option (list A) :=
  let '(y, ix) := p in
  match zget offsets y, zget imap (y * nx + (ix - 1)) with
  | Some off, Some v => set_at omap (y * nx + (roll_target nx off ix - 1)) v
  | _, _ => None
  end.
Definition roll_loop (ny nx : Z) : list (Z * Z) := flat_map (fun y => map (fun ix => (y, ix)) (zrange 1 (nx + 1))) (zrange 0 ny).
Definition roll_rows {A} (nx : Z) (order : list (Z * Z)) (imap : list A) (offsets : list Z) (omap : list A) : option (list A) :=
  ofold (roll_write nx imap offsets) order omap.

(* array_ops.F90:83-97: the bin of a value; None is nan. ip is reset to 1 for every pixel, so the shortcut only looks at the first level.
   The search loop leaves i at nv+1 when no level is above v. *)
Definition Qltb (a b : Q) : bool := negb (Qle_bool b a).
Fixpoint search (v : Q) (vals : list Q) (i : Z) : Z :=
  match vals with [] => i | w :: vals => if Qltb v w then i else search v vals (i + 1) end.
Definition bin_of (vals : list Q) (v : option Q) : Z :=
  match v with
  | None => 1
  | Some v => let right := match vals with [] => true | w :: _ => Qltb v w end in if right then 1 else search v vals 1
  end.
(* array_ops.F90:59-109 find_contours. array_ops.py:16 passes imap.T, so fortran's first index is python's x. imap is a list of rows;
   work and omap are given as functions of the python row and column *)
Definition pixel2 {A} (m : list (list A)) (y x : Z) : option A := match zget m y with Some r => zget r x | None => None end.
Definition find_contours (ny nx : Z) (imap : list (list (option Q))) (vals : list Q) : list (list Z) :=
  let work y x := match pixel2 imap y x with Some v => bin_of vals v | None => 0 end in
  map (fun y => map (fun x =>
    if (x <? nx - 1) && (y <? ny - 1) then
      if negb (work y x =? work y (x + 1)) then Z.min (work y x) (work y (x + 1))
      else if negb (work y x =? work (y + 1) x) then Z.min (work y x) (work (y + 1) x)
      else 0
    else 0) (zrange 0 nx)) (zrange 0 ny).
