(* Blocks of samples and their means *)
From Coq Require Import Reals List Arith.
Import ListNotations.
Open Scope R_scope.

Definition lmean (l : list R) : R := fold_right Rplus 0 l / INR (length l).
(* block number k of w samples; the last one may be shorter *)
Definition block (w k : nat) (l : list R) : list R := firstn w (skipn (k * w) l).
(* the number of blocks, counting a shorter last one *)
Definition blocks (w n : nat) : nat := (n + (w - 1)) / w.
