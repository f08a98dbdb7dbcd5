(* Model of the binning functions of utils.py. *)
From Verif Require Import Base BlockModel RangeModel BinSpec.

(* utils.py:2497, 2523: np.vstack((edges[:-1],edges[1:])).T; also utils.py:2476-2480 edges2bins *)
Fixpoint edges2bins (e : list Z) : list (Z * Z) :=
  match e with
  | a :: ((b :: _) as r) => (a, b) :: edges2bins r
  | _ => []
  end.

(* utils.py:2482-2483 bins2edges. bins[1,-1:] is the end of bin number 1, and an IndexError without one *)
Definition bins2edges (bins : list (Z * Z)) : option (list Z) :=
  match zget bins 1 with
  | Some b => Some (map fst bins ++ [snd b])
  | None => None
  end.

(* nint(n**0.5), exactly: the integer nearest to the square root of n *)
Definition nint_sqrt (n : Z) : Z := let s := Z.sqrt n in if n - s * s <=? s then s else s + 1.
(* ceil(n/b) *)
Definition zceil (n b : Z) : Z := - ((- n) / b).

(* utils.py:2485-2497 linbin(n, nbin) and linbin(n, nbin, bsize=b). nmin is ignored by the code. *)
Definition linbin (n : Z) (nbin : option Z) : list (Z * Z) :=
  let nb := match nbin with Some k => k | None => nint_sqrt n end in
  edges2bins (map (fun k => k * n / nb) (zrange 0 (nb + 1))).
Definition linbin_bsize (n : Z) (nbin : option Z) (bsize : Z) : list (Z * Z) :=
  let nb := match nbin with Some k => k | None => zceil n bsize end in
  edges2bins (map (fun k => k * bsize) (zrange 0 (nb + 1))).

(* utils.py:2509-2512: the for loop over j; i is updated by the body but the range is not *)
Fixpoint exp_scan (nmin : Z) (tmp : list Z) (js : list Z) (i : Z) (fixed : list Z) : Z * list Z :=
  match js with
  | [] => (i, fixed)
  | j :: js => if nmin <=? znth tmp j - znth tmp i
               then exp_scan nmin tmp js j (fixed ++ [znth tmp j])
               else exp_scan nmin tmp js i fixed
  end.
(* utils.py:2508-2512: the while loop; None: not finished after that many iterations *)
Fixpoint exp_loop (fuel : nat) (nbin nmin : Z) (tmp : list Z) (i : Z) (fixed : list Z) : option (list Z) :=
  if i <? nbin then
    match fuel with
    | O => None
    | S fuel => let '(i', fixed') := exp_scan nmin tmp (zrange (i + 1) (nbin + 1)) i fixed in
                exp_loop fuel nbin nmin tmp i' fixed'
    end
  else Some fixed.

(* utils.py:2514-2520: split bins larger than nmax; last is tmp[-1], vs the remaining edges *)
Fixpoint exp_split (nmax last : Z) (vs : list Z) : list Z :=
  match vs with
  | [] => []
  | v :: vs => let dv := v - last in
               let nsplit := (dv + nmax - 1) / nmax in
               let new := map (fun i => last + dv * (i + 1) / nsplit) (zrange 0 nsplit) in
               new ++ exp_split nmax (List.last new last) vs
  end.

(* tmp[-1] = v *)
Definition set_last (l : list Z) (v : Z) : list Z := removelast l ++ [v].

(* utils.py:2499-2523 expbin; tmp is the integer array computed on line 2505 from exp and log, which
   is not modelled: it is a parameter. fuel bounds the while loop. *)
Definition expbin (fuel : nat) (tmp : list Z) (n nbin nmin nmax : Z) : option (list (Z * Z)) :=
  match exp_loop fuel nbin nmin tmp 0 [znth tmp 0] with
  | None => None
  | Some fixed =>
      let fixed := if nmax =? 0 then fixed
                   else match fixed with [] => [] | f0 :: r => f0 :: exp_split nmax f0 r end in
      Some (edges2bins (set_last fixed n))
  end.

(* utils.py:2525-2533 bin_data along the last axis, any op *)
Definition bin_data {A} (op : list A -> A) (bins : list (Z * Z)) (d : list A) : list A :=
  map (fun b => op (psl d (fst b) (snd b))) bins.

(* res[a:b] = v for 0 <= a <= b <= len *)
Definition fill {A} (l : list A) (a b : Z) (v : A) : list A :=
  firstn (Z.to_nat a) l ++ repeat v (Z.to_nat (b - a)) ++ skipn (Z.to_nat b) l.
(* utils.py:2535-2539 bin_expand; None: no bins (IndexError) *)
Fixpoint bin_fill {A} (bins : list (Z * Z)) (bd : list A) (res : list A) : list A :=
  match bins, bd with
  | (a, b) :: bins, v :: bd => bin_fill bins bd (fill res a b v)
  | _, _ => res
  end.
Definition bin_expand {A} (zero : A) (bins : list (Z * Z)) (bd : list A) : option (list A) :=
  match rev bins with
  | [] => None
  | b :: _ => Some (bin_fill bins bd (repeat zero (Z.to_nat (snd b))))
  end.
