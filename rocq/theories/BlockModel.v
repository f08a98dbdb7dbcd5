From Verif Require Import Base.

(* python l[a:b] with step 1, any integer bounds *)
Definition psl {A} (l : list A) (a b : Z) : list A :=
  let n := zlen l in
  let f i := if i <? 0 then Z.max 0 (i + n) else Z.min i n in
  firstn (Z.to_nat (f b - f a)) (skipn (Z.to_nat (f a)) l).

(* mid.reshape(n,b): n rows of b elements *)
Fixpoint chunks {A} (b n : nat) (l : list A) : list (list A) :=
  match n with O => [] | S n => firstn b l :: chunks b n (skipn b l) end.

(* np.repeat *)
Definition np_repeat {A} (l : list A) (m : Z) : list A := flat_map (fun x => repeat x (Z.to_nat m)) l.

Definition notnil {A} (l : list A) : bool := match l with [] => false | _ => true end.

(* utils.py:2193-2214 block_reduce along an axis; A is whatever one position along that
   axis holds. np.concatenate of no parts and division by zero raise. *)
Definition block_reduce {A} (op : list A -> A) (a : list A) (bsize off : Z) (inclusive : bool) : option (list A) :=
  if bsize =? 1 then Some a else
  if bsize =? 0 then None else
  let nwhole := (zlen a - off) / bsize in
  let pre := psl a 0 off in
  let mid := psl a off (off + nwhole * bsize) in
  let tail := psl a (off + nwhole * bsize) (zlen a) in
  if notnil mid && negb (zlen mid =? nwhole * bsize) then None else
  let parts := (if notnil pre && inclusive then [[op pre]] else []) ++
               (if notnil mid then [map op (chunks (Z.to_nat bsize) (Z.to_nat nwhole) mid)] else []) ++
               (if notnil tail && inclusive then [[op tail]] else []) in
  match parts with [] => None | _ => Some (concat parts) end.

(* utils.py:2216-2242 block_expand, op="nearest"; zero is the fill of np.zeros *)
Definition block_expand {A} (zero : A) (a : list A) (bsize osize off : Z) (inclusive : bool) : option (list A) :=
  if bsize =? 0 then None else
  let nwhole := (osize - off) / bsize in
  let nrest := osize - off - nwhole * bsize in
  if inclusive then
    let o := if 0 <? off then 1 else 0 in
    let pre := psl a 0 o in
    let mid := psl a o (o + nwhole) in
    let tail := psl a (o + nwhole) (zlen a) in
    let parts := (if notnil pre then [np_repeat pre off] else []) ++
                 (if notnil mid then [np_repeat mid bsize] else []) ++
                 (if notnil tail then [np_repeat tail nrest] else []) in
    match parts with [] => None | _ => Some (concat parts) end
  else
    if (off <? 0) || (nrest <? 0) then None else
    Some (repeat zero (Z.to_nat off) ++ np_repeat a bsize ++ repeat zero (Z.to_nat nrest)).

(* np.mean of a non-empty list *)
Definition qmean (l : list Q) : Q := (qsum l / inject_Z (zlen l))%Q.
