(* Model of utils.block_mean_filter and utils.slice_downgrade along one axis *)
From Coq Require Import Reals List Arith ZArith Bool.
From Verif Require Import BmfSpec SliceSpec.
Import ListNotations.
Open Scope nat_scope.

(* l.reshape(n,w) *)
Fixpoint rows (w n : nat) (l : list R) : list (list R) := match n with O => [] | S n' => firstn w l :: rows w n' (skipn w l) end.
(* utils.py:2175-2191 for whole widths; None: division by zero, or reshape raises *)
Definition block_mean_filter (a : list R) (width : nat) : option (list R) :=
  if length a <? width then Some (map (fun _ => lmean a) a)
  else if width =? 0 then None else
    let nblock := (length a + width - 1) / width in
    let apad := a ++ rev (removelast a) in
    let work := firstn (width * nblock) apad in
    if negb (length work =? nblock * width) then None else
    let work := flat_map (fun r => map (fun _ => lmean r) r) (rows width nblock work) in
    Some (firstn (length a) work).
(* utils.py:2886-2901 *)
Definition slice_downgrade (d : list R) (s : pyslice) : list R :=
  let step := match ps_step s with None => 1%Z | Some k => if (k =? 0)%Z then 1%Z else k end in
  let a := py_getslice d (PS (ps_start s) (ps_stop s) (Some (if (step <? 0)%Z then (-1)%Z else 1%Z))) in
  let step := Z.abs_nat step in
  let a2 := firstn (length a / step * step) a in
  let a2 := map lmean (rows step (length a2 / step) a2) in
  if length a2 * step =? length a then a2 else a2 ++ [lmean (skipn (length a2 * step) a)].
