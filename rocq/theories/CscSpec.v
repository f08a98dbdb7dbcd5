(* Sources and the cells of a grid *)
From Coq Require Import List Arith ZArith Reals.
Open Scope R_scope.

(* the points of cell k of n equal ones from c0 to c1 *)
Definition in_cell (c0 c1 : R) (n k : nat) (t : R) : Prop := c0 + INR k * ((c1 - c0) / INR n) <= t < c0 + (INR k + 1) * ((c1 - c0) / INR n).
(* some point of the cell is within cres of p *)
Definition meets (c0 c1 : R) (n : nat) (cres p : R) (k : nat) : Prop := exists t, p - cres <= t <= p + cres /\ in_cell c0 c1 n k t.
