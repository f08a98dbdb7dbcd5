(* Which axes of a 2-dimensional array a list of numbers is meant for, and means over blocks of elements. *)
From Coq Require Import Reals.
From Verif Require Import Base ArrModel DctSpec.
Open Scope Z_scope.

Definition is_y (ax : Z) : Prop := ax = 0 \/ ax = -2.
Definition is_x (ax : Z) : Prop := ax = 1 \/ ax = -1.
(* picks dy dx axes l y x: the numbers l, one per axis of axes, give y for the first axis and x for the second; an axis not listed gets
   dy or dx. No axes: the last axes of the array, in their order. *)
Inductive picks {A} (dy dx : A) : option (list Z) -> list A -> A -> A -> Prop :=
| picks_last v : picks dy dx None [v] dy v
| picks_all u v : picks dy dx None [u; v] u v
| picks_y a v : is_y a -> picks dy dx (Some [a]) [v] v dx
| picks_x a v : is_x a -> picks dy dx (Some [a]) [v] dy v
| picks_yx a b u v : is_y a -> is_x b -> picks dy dx (Some [a; b]) [u; v] u v
| picks_xy a b u v : is_x a -> is_y b -> picks dy dx (Some [a; b]) [u; v] v u.
(* the caller asks for shape (my, mx): the same, and one length may stand for both axes *)
Inductive asks (ny nx : Z) : option (list Z) -> list Z -> Z -> Z -> Prop :=
| asks_each axes n my mx : picks ny nx axes n my mx -> asks ny nx axes n my mx
| asks_yx a b m : is_y a -> is_x b -> asks ny nx (Some [a; b]) [m] m m
| asks_xy a b m : is_x a -> is_y b -> asks ny nx (Some [a; b]) [m] m m.
(* only the second axis is listed *)
Definition only_x (axes : option (list Z)) (n : list Z) : Prop := match axes, n with None, [_] => True | Some [a], _ => is_x a | _, _ => False end.
(* the lengths asked for, in the order given, are those of the last axes of the array *)
Definition looks_done (ny nx : Z) (axes : option (list Z)) (n : list Z) : Prop :=
  match axes, n with Some [_; _], [m] => ny = m /\ nx = m | _, [m] => nx = m | _, [u; v] => ny = u /\ nx = v | _, _ => False end.

Open Scope R_scope.
(* the mean of f over 0 <= i < sy, 0 <= j < sx *)
Definition mean2 (sy sx : Z) (f : Z -> Z -> R) : R := rsum sy (fun i => rsum sx (fun j => f i j)) / (IZR sy * IZR sx).
Definition total (a : farr R) : R := rsum (f_ny a) (fun y => rsum (f_nx a) (fun x => f_at a y x)).

(* the factor u/s: u times more samples, or s times fewer *)
Definition frac (us : Z * Z) : Q := (inject_Z (fst us) / inject_Z (snd us))%Q.
Definition simple (us : Z * Z) : Prop := (0 < fst us /\ 0 < snd us /\ (fst us = 1 \/ snd us = 1))%Z.
(* m is q rounded to a whole number; f is not 1 within 0.00001 *)
Definition near (m : Z) (q : Q) : Prop := (q - (1 # 2) < inject_Z m <= q + (1 # 2))%Q.
Definition differs (f : Q) : Prop := (f - 1 < - ((1 # 100000000) + (1 # 100000)) \/ (1 # 100000000) + (1 # 100000) < f - 1)%Q.
