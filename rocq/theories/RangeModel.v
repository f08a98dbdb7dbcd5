From Verif Require Import Base RangeSpec.

(* np.where(cond)[0]: positions of the true entries, counted from k *)
Fixpoint where_from (k : Z) (l : list bool) : list Z :=
  match l with [] => [] | b :: l => (if b then [k] else []) ++ where_from (k + 1) l end.

(* a[1:]-a[:-1] *)
Fixpoint diffs (l : list Z) : list Z :=
  match l with x :: (y :: _) as t => (y - x) :: diffs t | _ => [] end.

(* utils.py:291-300 mask2range. np.array([start,stop]).T is the list of pairs; it exists only if
   start and stop have the same length, so a mismatch is an error (None). *)
Definition mask2range (mask : list bool) : option (list rng) :=
  let m := map (fun b : bool => if b then 1 else 0) ([false] ++ mask ++ [false]) in
  let dmask := diffs m in
  let start := where_from 0 (map (fun d => 0 <? d) dmask) in
  let stop := where_from 0 (map (fun d => d <? 0) dmask) in
  if Nat.eqb (length start) (length stop) then Some (combine start stop) else None.

(* utils.py:531-534 dedup, on an integer array. The boolean index is one entry long for an empty
   array, which numpy rejects. *)
Fixpoint dedup_tail (prev : Z) (l : list Z) : list Z :=
  match l with [] => [] | x :: l => (if x =? prev then [] else [x]) ++ dedup_tail x l end.
Definition dedup (l : list Z) : option (list Z) :=
  match l with [] => None | x :: l => Some (x :: dedup_tail x l) end.

(* numpy a[inds] *)
Definition gather {A} (d : A) (l : list A) (inds : list nat) : list A := map (fun i => nth i l d) inds.

(* b[bi] with python's meaning of negative indices *)
Definition pyget {A} (l : list A) (i : Z) : option A := zget l (if i <? 0 then i + zlen l else i).

(* local variables of range_sub: c, rmap, abmap *)
Record rstate := RState { rs_c : list rng; rs_rmap : list Z; rs_abmap : list Z }.
Definition emit (st : rstate) (r : rng) (aidx : Z) : rstate :=
  RState (rs_c st ++ [r]) (rs_rmap st ++ [aidx]) (rs_abmap st ++ [zlen (rs_c st)]).
Definition note_b (st : rstate) (rb : Z) : rstate :=
  RState (rs_c st) (rs_rmap st) (rs_abmap st ++ [- rb - 1]).

Section Sub.
  Context (b : list rng) (rbinds : list Z).   (* b sorted, and where each entry was originally *)

  (* utils.py:941-943: while bi < len(b) and b[bi,1] <= a[ai,0] *)
  Fixpoint sub_skip (fuel : nat) (astart : Z) (bi : Z) (st : rstate) : option (Z * rstate) :=
    if bi <? zlen b then
      match fuel, pyget b bi, pyget rbinds bi with
      | S fuel, Some r, Some rb =>
          if snd r <=? astart then sub_skip fuel astart (bi + 1) (note_b st rb) else Some (bi, st)
      | _, _, _ => None
      end
    else Some (bi, st).

  (* utils.py:946-954: while bi < len(b) and b[bi,0] <= a[ai,1] *)
  Fixpoint sub_cut (fuel : nat) (aend aidx : Z) (pstart bi : Z) (st : rstate) : option (Z * Z * rstate) :=
    if bi <? zlen b then
      match fuel, pyget b bi, pyget rbinds bi with
      | S fuel, Some r, Some rb =>
          if fst r <=? aend then
            let r1 := (pstart, Z.min aend (fst r)) in
            let st := if 0 <? snd r1 - fst r1 then emit st r1 aidx else st in
            sub_cut fuel aend aidx (snd r) (bi + 1) (note_b st rb)
          else Some (pstart, bi, st)
      | _, _, _ => None
      end
    else Some (pstart, bi, st).

  (* utils.py:939-969, one turn of the outer loop per element of the sorted a *)
  Fixpoint sub_loop (a : list (rng * Z)) (bi : Z) (st : rstate) : option rstate :=
    match a with
    | [] => Some st
    | (r, aidx) :: a =>
        let fuel := Z.to_nat (zlen b + 1 - bi) in
        match sub_skip fuel (fst r) bi st with
        | None => None
        | Some (bi, st) =>
            match sub_cut (Z.to_nat (zlen b + 1 - bi)) (snd r) aidx (fst r) bi st with
            | None => None
            | Some (pstart, bi, st) =>
                if pstart <? snd r then sub_loop a bi (emit st (pstart, snd r) aidx)
                else sub_loop a (bi - 1) st
            end
        end
    end.
End Sub.

(* utils.py:894-974 range_sub. ainds, binds are the results of the two np.argsort calls. *)
Definition range_sub (a b : list rng) (ainds binds : list nat) : option (list rng * list Z * list Z) :=
  let sa := gather (0, 0) a ainds in
  let sb := gather (0, 0) b binds in
  match sub_loop sb (map Z.of_nat binds) (combine sa (map Z.of_nat ainds)) 0 (RState [] [] []) with
  | None => None
  | Some st => match dedup (rs_abmap st) with
               | None => None
               | Some ab => Some (rs_c st, rs_rmap st, ab)
               end
  end.

(* utils.py:1019-1022 range_cut: np.dstack([c,c])[0] is the list of pairs (c_i,c_i). binds is the
   argsort made inside range_sub. *)
Definition range_cut (a : list rng) (c : list Z) (ainds binds : list nat) : option (list rng) :=
  option_map (fun r => fst (fst r)) (range_sub a (map (fun x => (x, x)) c) ainds binds).

(* rmap[i] = v *)
Fixpoint upd {A} (l : list A) (i : nat) (v : A) : list A :=
  match l, i with
  | [], _ => []
  | _ :: l, O => v :: l
  | x :: l, S i => x :: upd l i v
  end.

(* utils.py:993-999: the inner loop over j of range_union; js = inds[i+1:] *)
Fixpoint union_inner (a : list rng) (js : list nat) (nb : Z) (rmap : list Z) (e : Z) : list Z * Z :=
  match js with
  | [] => (rmap, e)
  | j :: js =>
      if 0 <=? nth j rmap (-1) then union_inner a js nb rmap e
      else if e <? fst (nth j a (0, 0)) then (rmap, e)
      else union_inner a js nb (upd rmap j nb) (Z.max e (snd (nth j a (0, 0))))
  end.

(* utils.py:988-1000: the outer loop over i *)
Fixpoint union_outer (a : list rng) (is : list nat) (rmap : list Z) (b : list rng) : list Z * list rng :=
  match is with
  | [] => (rmap, b)
  | i :: is =>
      if 0 <=? nth i rmap (-1) then union_outer a is rmap b
      else
        let rmap := upd rmap i (zlen b) in
        let '(start, e) := nth i a (0, 0) in
        let '(rmap, e) := union_inner a is (zlen b) rmap e in
        union_outer a is rmap (b ++ [(start, e)])
  end.

(* utils.py:979-1004 range_union(a, mapping=True) *)
Definition range_union (a : list rng) (inds : list nat) : list rng * list Z :=
  let '(rmap, b) := union_outer a inds (repeat (-1) (length a)) [] in (b, rmap).

(* utils.py:1006-1017 range_normalize *)
Definition range_normalize (a : list rng) : list rng :=
  filter (fun r => negb (snd r <? fst r)) (filter (fun r => negb (snd r =? fst r)) a).
