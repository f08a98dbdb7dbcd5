(* Reading sections of a map file. *)
From Verif Require Import Base SliceSpec ArrModel.

(* The fully loaded map: every stored element converted to the machine's byte order (conv), and the components whose sign
   convention differs negated before that. Axis y counts components, axis x pixels. *)
Definition load {E} (conv neg : E -> E) (flipped : Z -> bool) (file : farr E) : farr E :=
  FA (f_ny file) (f_nx file) (fun c p => conv (if flipped c then neg (f_at file c p) else f_at file c p)).
(* position (c,p) is in the section (sc, sp) of an array with nc components and np pixels *)
Definition in_section (nc np : Z) (sec : pyslice * pyslice) (c p : Z) : Prop :=
  sl_find (fst sec) nc c <> None /\ sl_find (snd sec) np p <> None.
Definition disjoint_sections (nc np : Z) (s t : pyslice * pyslice) : Prop :=
  forall c p, ~ (in_section nc np s c p /\ in_section nc np t c p).
