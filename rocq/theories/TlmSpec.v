(* Tiles of one large map, centred spectra and extreme pixels *)
From Coq Require Import List Arith ZArith QArith.
Import ListNotations.
Open Scope nat_scope.

(* a map with its shape, its pixels and the place of its corner in a common pixelization *)
Record img (A : Type) := Img { ny : nat; nx : nat; px : nat -> nat -> A; org : nat * nat }.
Arguments Img {A}. Arguments ny {A}. Arguments nx {A}. Arguments px {A}. Arguments org {A}.
Definition tile_of {A} (G : nat -> nat -> A) (m : img A) : Prop := forall y x, y < ny m -> x < nx m -> px m y x = G (fst (org m) + y) (snd (org m) + x).
Definition height {A} (row : list (img A)) : nat := match row with [] => 0 | m :: _ => ny m end.
Definition width {A} (row : list (img A)) : nat := fold_right (fun m n => nx m + n) 0 row.
(* a row of tiles next to each other, all between the same lines, starting at (y,x) *)
Fixpoint row_of {A} (G : nat -> nat -> A) (h y x : nat) (row : list (img A)) : Prop :=
  match row with [] => True | m :: row' => tile_of G m /\ org m = (y, x) /\ ny m = h /\ row_of G h y (x + nx m) row' end.
(* rows on top of each other, of the same total width; the cuts of different rows need not agree *)
Fixpoint rows_of {A} (G : nat -> nat -> A) (w y x : nat) (rows : list (list (img A))) : Prop :=
  match rows with [] => True | row :: rows' => row <> [] /\ row_of G (height row) y x row /\ width row = w /\ rows_of G w (y + height row) x rows' end.
(* the frequency of index i of n, in steps: negative ones come last *)
Definition freq (n i : nat) : Z := if 2 * i <? n then Z.of_nat i else (Z.of_nat i - Z.of_nat n)%Z.
