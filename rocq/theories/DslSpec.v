(* Slopes and ranges of lists of numbers *)
From Coq Require Import List Reals.
Import ListNotations.
Open Scope R_scope.

Fixpoint total (l : list R) : R := match l with [] => 0 | x :: l => x + total l end.
Definition mean (l : list R) : R := total l / INR (length l).
Definition first_of (w : nat) (l : list R) : list R := firstn w l.
Definition last_of (w : nat) (l : list R) : list R := rev (firstn w (rev l)).
Definition smallest (l : list R) (m : R) : Prop := In m l /\ forall x, In x l -> m <= x.
Definition greatest (l : list R) (m : R) : Prop := In m l /\ forall x, In x l -> x <= m.
