From Coq Require Import Qabs.
From Verif Require Import Base RangeSpec RangeModel FindSpec SplitModel.

(* np.searchsorted(sorted, v), side="left": how many entries are smaller than v. For a sorted array
   this is the position numpy's binary search returns. *)
Definition ss_left (sorted : list Z) (v : Z) : Z := zlen (filter (fun x => x <? v) sorted).
Definition ss_left_q (sorted : list Q) (v : Q) : Z := zlen (filter (fun x => qltb x v) sorted).

(* a[i] for every i in inds, python meaning of negative indices; fails as a whole *)
Fixpoint pygather {A} (l : list A) (inds : list Z) : option (list A) :=
  match inds with
  | [] => Some []
  | i :: inds => match pyget l i, pygather l inds with Some x, Some r => Some (x :: r) | _, _ => None end
  end.

(* utils.py:107-118 find; order is np.argsort(array). *)
Definition find_cands (array : list Z) (order : list nat) (vals : list Z) : list Z :=
  let sorted := gather 0 array order in
  map (fun v => Z.min (ss_left sorted v) (zlen array - 1)) vals.
Definition find (array : list Z) (order : list nat) (vals : list Z) (default : option Z) : option (list Z) :=
  if zlen vals =? 0 then Some [] else
  match pygather (map Z.of_nat order) (find_cands array order vals) with
  | None => None
  | Some res =>
      match pygather array res with
      | None => None
      | Some got =>
          let bad := map (fun p => negb (fst p =? snd p)) (combine got vals) in
          if existsb (fun b => b) bad then
            match default with
            | None => None                                          (* raise ValueError *)
            | Some d => Some (map (fun p : Z * bool => if snd p then d else fst p) (combine res bad))
            end
          else Some res
      end
  end.

(* utils.py:120-123 find_any. For an empty vals find returns a python list, and [] >= 0 raises. *)
Definition find_any (array : list Z) (order : list nat) (vals : list Z) : option (list Z) :=
  if zlen vals =? 0 then None else
  match find array order vals (Some (-1)) with
  | None => None
  | Some res => Some (filter (fun r => 0 <=? r) res)
  end.

(* utils.py:125-143 nearest_ind. np.clip(x,lo,hi) = minimum(hi, maximum(x,lo)). *)
Definition nearest_one (arr : list Q) (v : Q) : option Z :=
  let i := Z.min (zlen arr - 1) (Z.max (ss_left_q arr v) 1) in
  match pyget arr (i - 1), pyget arr i with
  | Some a, Some b => Some (if Qle_bool (Qabs (a - v)) (Qabs (b - v)) then i - 1 else i)
  | _, _ => None
  end.
Fixpoint nearest_all (arr : list Q) (vals : list Q) : option (list Z) :=
  match vals with
  | [] => Some []
  | v :: vals => match nearest_one arr v, nearest_all arr vals with Some i, Some r => Some (i :: r) | _, _ => None end
  end.
Definition nearest_ind (arr : list Q) (vals : list Q) : option (list Z) :=                    (* sorted=True *)
  nearest_all arr vals.
Definition nearest_ind_unsorted (arr : list Q) (order : list nat) (vals : list Q) : option (list Z) :=
  match nearest_all (gather 0%Q arr order) vals with
  | None => None
  | Some inds => pygather (map Z.of_nat order) inds
  end.

(* utils.py:145-155 contains; svals is np.sort(vals) *)
Definition contains (array : list Z) (svals : list Z) : option (list bool) :=
  let inds := map (fun x => let i := ss_left svals x in if zlen svals <=? i then 0 else i) array in
  match pygather svals inds with
  | None => None
  | Some got => Some (map (fun p => fst p =? snd p) (combine got array))
  end.

(* np.intersect1d: the sorted distinct common elements (insertion into a sorted list) *)
Fixpoint ins_uniq (x : Z) (l : list Z) : list Z :=
  match l with
  | [] => [x]
  | y :: l' => if x <? y then x :: l else if x =? y then l else y :: ins_uniq x l'
  end.
Definition np_unique (l : list Z) : list Z := fold_right ins_uniq [] l.
Definition intersect1d (a b : list Z) : list Z := filter (fun x => existsb (Z.eqb x) b) (np_unique a).
(* utils.py:163-170 common_vals; arrs[0] of an empty list raises *)
Definition common_vals (arrs : list (list Z)) : option (list Z) :=
  match arrs with [] => None | a :: rest => Some (fold_left intersect1d rest a) end.
(* utils.py:172-177 common_inds; orders are the argsorts of the arrays *)
Fixpoint find_each (arrs : list (list Z)) (orders : list (list nat)) (vals : list Z) : option (list (list Z)) :=
  match arrs, orders with
  | a :: arrs, o :: orders =>
      match find a o vals None, find_each arrs orders vals with Some r, Some rs => Some (r :: rs) | _, _ => None end
  | [], [] => Some []
  | _, _ => None
  end.
Definition common_inds (arrs : list (list Z)) (orders : list (list nat)) : option (list (list Z)) :=
  match common_vals arrs with None => None | Some vals => find_each arrs orders vals end.

(* utils.py:186-200 inverse_order, for an order of valid non-negative indices; garbage is what
   np.empty happens to contain *)
Fixpoint scatter {A} (l : list A) (idx : list nat) (vals : list A) : list A :=
  match idx, vals with
  | i :: idx, v :: vals => scatter (upd l i v) idx vals
  | _, _ => l
  end.
Definition inverse_order (garbage : list nat) (order : list nat) : list nat :=
  scatter garbage order (seq 0 (length order)).

(* utils.py:202-208 complement_inds with inds a python list: np.array([]) has dtype float and
   cannot be used as an index. *)
Fixpoint mask_clear (mask : list bool) (inds : list Z) : option (list bool) :=
  match inds with
  | [] => Some mask
  | i :: inds =>
      let i := if i <? 0 then i + zlen mask else i in
      if (0 <=? i) && (i <? zlen mask) then mask_clear (upd mask (Z.to_nat i) false) inds else None
  end.
Definition complement_inds (inds : option (list Z)) (n : nat) : option (list Z) :=
  let mask := repeat true n in
  match inds with
  | None => option_map (where_from 0) (mask_clear mask (zrange 0 (Z.of_nat n)))   (* np.arange is integer *)
  | Some [] => None
  | Some inds => option_map (where_from 0) (mask_clear mask inds)
  end.

(* utils.py:210-218 unmask along the last axis, one row. Boolean assignment needs as many values as
   the mask has true entries, or a single value. *)
Fixpoint put_masked {A} (fill : A) (mask : list bool) (arr : list A) : list A :=
  match mask with
  | [] => []
  | true :: mask => match arr with
                    | x :: arr => x :: put_masked fill mask arr
                    | [] => fill :: put_masked fill mask []
                    end
  | false :: mask => fill :: put_masked fill mask arr
  end.
Definition unmask {A} (arr : list A) (mask : list bool) (fill : A) : option (list A) :=
  let k := length (filter (fun b => b) mask) in
  if Nat.eqb (length arr) k then Some (put_masked fill mask arr)
  else match arr with
       | [x] => Some (put_masked fill mask (repeat x k))
       | _ => None
       end.

(* utils.py:92-99 listsplit, for elements with a decidable equality (np.all(e1==e2)) *)
Definition listsplit (seq_ : list Z) (elem : Z) : list (list Z) :=
  let inds := where_from 0 (map (Z.eqb elem) seq_) in
  let ranges := combine (0 :: map (fun i => i + 1) inds) (inds ++ [zlen seq_]) in
  map (fun r => firstn (Z.to_nat (snd r - fst r)) (skipn (Z.to_nat (fst r)) seq_)) ranges.
