(* Lines of points, bounds and spectra *)
From Coq Require Import List ZArith.
Import ListNotations.

(* a and b follow each other in l *)
Definition adjacent {A} (l : list A) (a b : A) : Prop := exists p q, l = p ++ a :: b :: q.
Inductive subsequence {A} : list A -> list A -> Prop :=
| Sub_nil : subsequence [] []
| Sub_keep x k l : subsequence k l -> subsequence (x :: k) (x :: l)
| Sub_drop x k l : subsequence k l -> subsequence k (x :: l).
(* the interval lo..hi holds the interval a..b *)
Definition holds (lo hi a b : Z) : Prop := (lo <= a /\ b <= hi)%Z.
