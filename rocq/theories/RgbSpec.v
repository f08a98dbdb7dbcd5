(* Beams with the low part replaced *)
From Coq Require Import List Arith Reals.
Open Scope R_scope.

Definition largest (beam : list R) (m : R) : Prop := In m beam /\ forall b, In b beam -> b <= m.
(* c is the first place where the beam is not above v *)
Definition first_low (beam : list R) (v : R) (c : nat) : Prop := (c < length beam)%nat /\ nth c beam 0 <= v /\ forall k, (k < c)%nat -> v < nth k beam 0.
