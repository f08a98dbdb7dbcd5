(* Model of utils.crossmatch. Real numbers instead of floats; the tree and argsort are parameters. *)
From Coq Require Import Reals List Bool Arith.
From Verif Require Import RotSpec RotModel XmaSpec.
Import ListNotations.
Open Scope R_scope.


(* utils.py:3189-3191 ang2chord *)
Definition ang2chord (ang : R) : R := 2 * sin (ang / 2).

(* utils.py:3233-3234 coords="auto" *)
Definition normalize (c : coords) (nd : nat) : coords :=
  match c with Auto => if Nat.eqb nd 2 then Radec else Cartesian | _ => c end.
(* utils.py:3235-3245 trans, for one position; ang2rect unpacks two angles and raises if there are not two *)
Definition trans (c : coords) (p : list R) : option (list R) :=
  match c, p with
  | Radec, [phi; theta] => let '((x, y), z) := ang2rect false (phi, theta) in Some [x; y; z]
  | Phitheta, [phi; theta] => let '((x, y), z) := ang2rect true (phi, theta) in Some [x; y; z]
  | Cartesian, _ => Some p
  | _, _ => None
  end.
(* utils.py:3246-3247 for all positions *)
Fixpoint trans_all (c : coords) (l : list (list R)) : option (list (list R)) :=
  match l with
  | [] => Some []
  | p :: r => match trans c p, trans_all c r with Some q, Some s => Some (q :: s) | _, _ => None end
  end.
(* utils.py:3235-3245 reff *)
Definition reff (c : coords) (rmax : R) : R := match c with Cartesian => rmax | _ => ang2chord rmax end.
(* utils.py:3253 pairs *)
Fixpoint enumerate_from (k : nat) (groups : list (list nat)) : list (nat * nat) :=
  match groups with [] => [] | g :: r => map (fun i2 => (k, i2)) g ++ enumerate_from (S k) r end.
(* utils.py:3264 d2 of one pair *)
Fixpoint dist2 (p q : list R) : R := match p, q with a :: p', b :: q' => (a - b) ^ 2 + dist2 p' q' | _, _ => 0 end.
(* done[i] = True *)
Definition set_true (done : list bool) (i : nat) : list bool := firstn i done ++ match skipn i done with [] => [] | _ :: r => true :: r end.
(* utils.py:3270-3277 *)
Fixpoint keep (done1 done2 : list bool) (pairs : list (nat * nat)) : list (nat * nat) :=
  match pairs with
  | [] => []
  | (i1, i2) :: r => if nth i1 done1 false || nth i2 done2 false then keep done1 done2 r
                     else (i1, i2) :: keep (set_true done1 i1) (set_true done2 i2) r
  end.

Section Crossmatch.
  Variable ball : list (list R) -> list (list R) -> R -> list (list nat).
  Variable argsort : list R -> list nat.

  (* utils.py:3197-3277 *)
  Definition crossmatch (pos1 pos2 : positions) (rmax : R) (mode : xmode) (c : coords) : option (list (nat * nat)) :=
    if negb (Nat.eqb (ndim pos1) (ndim pos2)) then None else
    let c := normalize c (ndim pos1) in
    match trans_all c (rows pos1), trans_all c (rows pos2) with
    | Some p1, Some p2 =>
        let pairs := enumerate_from 0 (ball p1 p2 (reff c rmax)) in
        let filtered pairs := keep (repeat false (length (rows pos1))) (repeat false (length (rows pos2))) pairs in
        match mode with
        | All => Some pairs
        | First => Some (filtered pairs)
        | Closest =>
            let d2 := map (fun ij => dist2 (nth (fst ij) p1 []) (nth (snd ij) p2 [])) pairs in
            Some (filtered (map (fun i => nth i pairs (0, 0)%nat) (argsort d2)))
        end
    | _, _ => None
    end.
End Crossmatch.
