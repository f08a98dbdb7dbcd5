(* Model of utils.build_legendre, utils.parse_ints and curvedsky.pad_geometry *)
From Coq Require Import List Arith ZArith QArith Reals.
From Verif Require Import CrgSpec.
Import ListNotations.
Open Scope R_scope.

Fixpoint npmin (m : R) (l : list R) : R := match l with [] => m | a :: l' => npmin (Rmin m a) l' end.
Fixpoint npmax (m : R) (l : list R) : R := match l with [] => m | a :: l' => npmax (Rmax m a) l' end.
(* an array of length nmax as a function; what is outside is not used *)
Definition put (a : nat -> R) (i : nat) (v : R) : nat -> R := fun k => if Nat.eqb k i then v else a k.
Definition leg_step (x : R) (res : nat -> R) (i : nat) : nat -> R :=
  put res (i + 1) (((2 * INR i + 1) * x * res i - INR i * res (i - 1)%nat) / (INR i + 1)).
(* utils.py:2751-2757 at one (scaled) x *)
Definition leg_column (x : R) (nmax : nat) : nat -> R :=
  let res := fun _ : nat => 0 in
  let res := if Nat.ltb 0 nmax then put res 0 1 else res in
  let res := if Nat.ltb 1 nmax then put res 1 x else res in
  fold_left (leg_step x) (seq 1 (nmax - 1 - 1)) res.
(* utils.py:2747-2757: for each x the values of all degrees. None: an empty array, or a division by zero *)
Definition build_legendre (x : list R) (nmax : nat) : option (list (nat -> R)) :=
  match x with
  | [] => None
  | a :: l =>
      let vmin := npmin a l in let vmax := npmax a l in
      if Req_EM_T vmax vmin then None else Some (map (fun v => leg_column ((v - vmin) * (2 / (vmax - vmin)) - 1) nmax) x)
  end.

Open Scope Z_scope.
(* np.arange of whole numbers: the number of values is the rounded up quotient. None: ZeroDivisionError *)
Definition arange (start stop step : Z) : option (list Z) :=
  if step =? 0 then None else Some (map (fun k => start + Z.of_nat k * step) (seq 0 (Z.to_nat (- ((start - stop) / step))))).
(* utils.py:2273-2286 with a word given by the numbers between its colons. There is always at least one *)
Definition parse_word (toks : list Z) : option (list Z) :=
  match toks with
  | [] => None
  | [v] => Some [v]
  | start :: stop :: rest => arange start stop (match rest with step :: _ => step | [] => 1 end)
  end.
Fixpoint parse_words (words : list (list Z)) : option (list Z) :=
  match words with
  | [] => Some []
  | w :: words => match parse_word w, parse_words words with Some a, Some b => Some (a ++ b) | _, _ => None end
  end.
(* with dtype=None, the default, None is called as a function: TypeError *)
Definition parse_numbers (words : list (list Z)) (dtype : bool) : option (list Z) := if dtype then parse_words words else None.

(* curvedsky.py:1215-1222 along one axis, given how much is put in front and behind *)
Definition pad_geometry (a : axis) (p0 p1 : Z) : axis := {| npix := p0 + npix a + p1; crpix := (crpix a + inject_Z p0)%Q; crval := crval a; cdelt := cdelt a |}.
