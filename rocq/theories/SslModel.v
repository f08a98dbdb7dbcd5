(* Model of utils.split_slice *)
From Coq Require Import List Arith ZArith Bool.
From Verif Require Import SslSpec.
Import ListNotations.

(* utils.py:96 iseq(v, Ellipsis): np.all(v == Ellipsis), which is true for an array without elements *)
Definition iseq (e : index) : bool := match e with Ellipsis => true | Indices [] => true | _ => false end.
(* utils.py:92-99 listsplit(sel, Ellipsis) *)
Fixpoint listsplit (sel : list index) : list (list index) :=
  match sel with
  | [] => [[]]
  | e :: sel' => if iseq e then [] :: listsplit sel' else match listsplit sel' with p :: ps => (e :: p) :: ps | [] => [[e]] end
  end.
Fixpoint cumsum (acc : nat) (l : list nat) : list nat := match l with [] => [] | x :: l' => (acc + x) :: cumsum (acc + x) l' end.
(* utils.py:283-289 cumsplit: searchsorted with side="right" *)
Definition cumsplit (sizes capacities : list nat) : list nat :=
  map (fun c => length (filter (fun x => x <=? c) (cumsum 0 sizes))) (cumsum 0 capacities).
Definition notNone (e : index) : nat := match e with Newaxis => 0 | _ => 1 end.
Definition cut (sel : list index) (a b : nat) : list index := firstn (b - a) (skipn a sel).
Fixpoint pieces (sel : list index) (subs : list nat) : list (list index) :=
  match subs with a :: ((b :: _) as subs') => cut sel a b :: pieces sel subs' | _ => [] end.
(* utils.py:2866-2876; None: IndexError, or UnboundLocalError without ndims *)
Definition split_slice_simple (sel : list index) (ndims : list nat) : option (list (list index)) :=
  let subs := 0 :: cumsplit (map notNone sel) ndims in
  match ndims with
  | [] => None
  | _ => if last subs 0 <? length sel then None else Some (pieces sel subs)
  end.
(* utils.py:2848-2864 split_slice of a tuple *)
Definition split_slice (sel : list index) (ndims : list nat) : option (list (list index)) :=
  let parts := listsplit sel in
  let sel :=
    if 1 <? length parts
    then let left := concat (removelast parts) in
         let right := last parts [] in
         let nfree := total ndims - total (map notNone (left ++ right)) in
         left ++ repeat full nfree ++ right
    else sel in
  split_slice_simple sel ndims.
