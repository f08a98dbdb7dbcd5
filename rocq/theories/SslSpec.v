(* What numpy's selections mean *)
From Coq Require Import List Arith ZArith.
Import ListNotations.

Inductive index := Ellipsis | Newaxis | Integer (i : Z) | Slice (start stop step : option Z) | Indices (l : list Z) | Mask (dims : nat).
Definition full : index := Slice None None None.
Definition total (l : list nat) : nat := list_sum l.
(* the number of axes of the array that an entry stands for *)
Definition axes (e : index) : nat := match e with Ellipsis | Newaxis => 0 | Mask d => d | _ => 1 end.
Definition consumed (sel : list index) : nat := total (map axes sel).
(* an ellipsis stands for as many full slices as are missing *)
Fixpoint meaning_from (missing : nat) (sel : list index) : list index :=
  match sel with [] => [] | Ellipsis :: sel' => repeat full missing ++ sel' | e :: sel' => e :: meaning_from missing sel' end.
Definition meaning (n : nat) (sel : list index) : list index := meaning_from (n - consumed sel) sel.
Definition ellipses (sel : list index) : nat := length (filter (fun e => match e with Ellipsis => true | _ => false end) sel).
(* entries that stand for one axis each, and pick something *)
Definition single (e : index) : Prop := match e with Indices l => l <> [] | Mask d => d = 1 | _ => True end.
