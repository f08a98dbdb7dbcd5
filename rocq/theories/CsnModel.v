(* Model of utils.build_cossin, utils.zip2 and utils.ndigit *)
From Coq Require Import List Arith Reals ZArith.
From Verif Require Import BldModel.
Import ListNotations.
Open Scope R_scope.

(* an array of length nmax as a function; what is outside is not used *)
Definition put (a : nat -> R) (i : nat) (v : R) : nat -> R := fun k => if Nat.eqb k i then v else a k.
(* utils.py:2758-2768 for one x; nmax is the length of the result *)
Definition cossin_step (a : nat -> R) (i : nat) : nat -> R :=
  let a := if Nat.eqb (i mod 2) 0 then put a i (a (i - 2)%nat * a 1%nat + a (i - 1)%nat * a 0%nat) else a in
  if Nat.eqb (i mod 2) 1 then put a i (a (i - 2)%nat * a 1%nat - a (i - 3)%nat * a 0%nat) else a.
Definition build_cossin (x : R) (nmax : nat) : nat -> R :=
  let a := fun _ : nat => 0 in
  let a := if Nat.ltb 0 nmax then put a 0 (sin x) else a in
  let a := if Nat.ltb 1 nmax then put a 1 (cos x) else a in
  let a := if Nat.ltb 2 nmax then put a 2 (2 * a 0%nat * a 1%nat) else a in
  let a := if Nat.ltb 3 nmax then put a 3 (a 1%nat ^ 2 - a 0%nat ^ 2) else a in
  fold_left cossin_step (seq 3 (nmax - 3)) a.

(* utils.py:3578-3592. An iterator is the list of what it has yet to give. The inner loop: the row, the iterators afterwards, and whether one had ended *)
Fixpoint next_row {A} (args : list (list A)) : list A * list (list A) * bool :=
  match args with
  | [] => ([], [], false)
  | arg :: args' =>
      let '(res, rest, done) := next_row args' in
      match arg with [] => (res, [] :: rest, true) | a :: arg' => (a :: res, arg' :: rest, done) end
  end.
(* the outer loop, at most fuel times; None: it has not ended. The rows, and the iterators afterwards *)
Fixpoint zip2 {A} (fuel : nat) (args : list (list A)) : option (list (list A) * list (list A)) :=
  match fuel with
  | O => None
  | S fuel =>
      let '(res, rest, done) := next_row args in
      if done then Some ([], rest) else match zip2 fuel rest with Some (l, final) => Some (res :: l, final) | None => None end
  end.

(* utils.py:2736-2738; log10 of 0 is minus infinity, so that the maximum is 1 *)
Definition log10 (x : R) : R := ln x / ln 10.
Definition ndigit (n : nat) : Z := (floorR (if Nat.eqb n 0 then 1 else Rmax 1 (log10 (INR n))) + 1)%Z.
