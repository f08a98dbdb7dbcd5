(* Shapes of arrays, and where an element lies *)
From Coq Require Import List ZArith.
Import ListNotations.
Open Scope Z_scope.

Fixpoint size (shape : list Z) : Z := match shape with [] => 1 | n :: l => n * size l end.
(* place, in the order of memory, of the element at an index *)
Fixpoint place (shape idx : list Z) : Z := match shape, idx with _ :: l, i :: idx => i * size l + place l idx | _, _ => 0 end.
(* the axes of mid are merged into one, and all elements stay where they are *)
Definition merged (pre mid post out : list Z) : Prop :=
  out = pre ++ size mid :: post /\
  forall ip im iq, length ip = length pre -> length im = length mid -> place out (ip ++ place mid im :: iq) = place (pre ++ mid ++ post) (ip ++ im ++ iq).
