(* What a tiling of a map is. *)
From Verif Require Import Base.

(* a tile of a map: its corner, its size and its pixels in row-major order *)
Record tile (A : Type) := Tile { t_y : Z; t_x : Z; t_h : Z; t_w : Z; t_px : list A }.
Arguments Tile {A}. Arguments t_y {A}. Arguments t_x {A}. Arguments t_h {A}. Arguments t_w {A}. Arguments t_px {A}.
Definition in_box (y x y1 x1 h w : Z) : Prop := y1 <= y < y1 + h /\ x1 <= x < x1 + w.

(* a sparse map, as the list of its active tiles and their pixels, in storage order *)
Definition sparse (A : Type) : Type := list (Z * list A).
Definition lookup_tile {A} (s : sparse A) (gi : Z) : option (list A) :=
  match find (fun e => fst e =? gi) s with Some (_, px) => Some px | None => None end.
