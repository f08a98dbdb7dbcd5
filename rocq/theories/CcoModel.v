(* Model of utils.cov2corr and utils.corr2cov *)
From Coq Require Import Reals List Bool.
From Verif Require Import CndSpec.
Import ListNotations.
Open Scope R_scope.

(* utils.py:1226-1232; None: inf or nan *)
Definition cov2corr (n : nat) (C : mat) : option (mat * (nat -> R)) :=
  let std i := sqrt (C i i) in
  let istd i := 1 / std i in
  if forallb (fun i => if Rlt_dec 0 (C i i) then true else false) (seq 0 n)
  then Some ((fun i j => C i j * istd i * istd j), std) else None.
(* utils.py:1233-1237 *)
Definition corr2cov (corr : mat) (std : nat -> R) : mat := fun i j => corr i j * std i * std j.
