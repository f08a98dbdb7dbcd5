(* Legendre polynomials and progressions of whole numbers *)
From Coq Require Import List ZArith Reals.
Open Scope R_scope.

(* p is the value at t of the Legendre polynomial of degree n *)
Inductive legendre (t : R) : nat -> R -> Prop :=
| Leg0 : legendre t 0 1
| Leg1 : legendre t 1 t
| LegS n p q r : legendre t n p -> legendre t (S n) q -> (INR n + 2) * r = (2 * INR n + 3) * t * q - (INR n + 1) * p -> legendre t (S (S n)) r.
Definition least (l : list R) (m : R) : Prop := In m l /\ forall x, In x l -> m <= x.
Definition most (l : list R) (m : R) : Prop := In m l /\ forall x, In x l -> x <= m.

Open Scope Z_scope.
(* v is start, start+step, start+2*step, ... before stop *)
Definition in_range (start stop step v : Z) : Prop := exists k, 0 <= k /\ v = start + k * step /\ (0 < step -> v < stop) /\ (step < 0 -> stop < v).
