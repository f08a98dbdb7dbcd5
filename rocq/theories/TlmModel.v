(* Model of enmap.tile_maps, enmap.fftshift, enmap.ifftshift, enmap.argmax and enmap.argmin *)
From Coq Require Import List Arith ZArith QArith Bool.
From Verif Require Import TlmSpec.
Import ListNotations.
Open Scope nat_scope.

(* np.concatenate of maps along the last axis: an error for none or for different heights. The place is that of the first, see samewcs below *)
Definition beside {A} (a b : img A) : option (img A) :=
  if ny a =? ny b then Some (Img (ny a) (nx a + nx b) (fun y x => if x <? nx a then px a y x else px b y (x - nx a)) (org a)) else None.
Definition above {A} (a b : img A) : option (img A) :=
  if nx a =? nx b then Some (Img (ny a + ny b) (nx a) (fun y x => if y <? ny a then px a y x else px b (y - ny a) x) (org a)) else None.
Fixpoint concat {A} (join : img A -> img A -> option (img A)) (l : list (img A)) : option (img A) :=
  match l with [] => None | [a] => Some a | a :: l' => match concat join l' with Some b => join a b | None => None end end.
Fixpoint sequence {A} (l : list (option A)) : option (list A) :=
  match l with [] => Some [] | None :: _ => None | Some a :: l' => match sequence l' with Some r => Some (a :: r) | None => None end end.
(* enmap.py:2530-2542 *)
Definition tile_maps {A} (maps : list (list (img A))) : option (img A) :=
  match sequence (map (concat beside) maps) with
  | None => None
  | Some rows =>
      match concat above rows, maps with
      | Some m, (first :: _) :: _ => Some (Img (ny m) (nx m) (px m) (org first))
      | _, _ => None
      end
  end.

(* np.roll by s of an axis of length n *)
Definition roll {A} (n : nat) (s : Z) (f : nat -> A) : nat -> A := fun i => f (Z.to_nat ((Z.of_nat i - s) mod Z.of_nat n)).
(* enmap.py:3096-3099 and 3101-3104: the map returned, and the map of the caller afterwards. np.fft.fftshift rolls both axes by half their length *)
Definition shift2 {A} (ny nx : nat) (sy sx : Z) (m : nat -> nat -> A) : nat -> nat -> A := roll ny sy (fun y => roll nx sx (m y)).
Definition fftshift {A} (ny nx : nat) (inplace : bool) (m : nat -> nat -> A) : (nat -> nat -> A) * (nat -> nat -> A) :=
  let r := shift2 ny nx (Z.of_nat (ny / 2)) (Z.of_nat (nx / 2)) m in (r, if inplace then r else m).
Definition ifftshift {A} (ny nx : nat) (inplace : bool) (m : nat -> nat -> A) : (nat -> nat -> A) * (nat -> nat -> A) :=
  let r := shift2 ny nx (- Z.of_nat (ny / 2)) (- Z.of_nat (nx / 2)) m in (r, if inplace then r else m).

(* np.argmax and np.argmin of values of which None is nan: the first nan, or else the first extreme value *)
Fixpoint first_nan (l : list (option Q)) : option nat := match l with [] => None | None :: _ => Some 0 | Some _ :: l' => option_map S (first_nan l') end.
Fixpoint best (better : Q -> Q -> bool) (i : nat) (bi : nat) (bv : Q) (l : list (option Q)) : nat :=
  match l with [] => bi | Some v :: l' => if better v bv then best better (S i) i v l' else best better (S i) bi bv l' | None :: l' => best better (S i) bi bv l' end.
Definition npfunc (better : Q -> Q -> bool) (l : list (option Q)) : option nat :=
  match first_nan l with Some i => Some i | None => match l with Some v :: l' => Some (best better 1 0 v l') | _ => None end end.
Definition gt (a b : Q) : bool := negb (Qle_bool a b).
Definition lt (a b : Q) : bool := negb (Qle_bool b a).
(* enmap.py:807-812 with unit pix, for each component of a map as the list of its values in row-major order; nx is the length of a row *)
Definition arghelper (nx : nat) (better : Q -> Q -> bool) (comps : list (list (option Q))) : option (list (nat * nat)) :=
  sequence (map (fun c => option_map (fun r => (r / nx, r mod nx)) (npfunc better c)) comps).
Definition argmax (nx : nat) := arghelper nx gt.
Definition argmin (nx : nat) := arghelper nx lt.
