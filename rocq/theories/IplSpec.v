(* What interpolation is expected to do, without reference to the code. *)
From Coq Require Import Reals.
From Verif Require Import Base.
Open Scope R_scope.

Fixpoint rsuml (l : list R) : R := match l with [] => 0 | x :: l => x + rsuml l end.
Fixpoint rprodl (l : list R) : R := match l with [] => 1 | x :: l => x * rprodl l end.
Fixpoint zprod (l : list Z) : Z := match l with [] => 1%Z | x :: l => (x * zprod l)%Z end.

(* the inner product of two arrays with N elements *)
Definition dot (N : Z) (x y : Z -> R) : R := rsuml (map (fun e => x e * y e) (zrange 0 N)).

(* position of a pixel in C order *)
Fixpoint ravel (shape pix : list Z) (e : Z) : Z :=
  match shape, pix with n :: shape, i :: pix => ravel shape pix (e * n + i)%Z | _, _ => e end.

(* the pixels of an array *)
Fixpoint inside (shape pix : list Z) : Prop :=
  match shape, pix with [], [] => True | n :: shape, i :: pix => (0 <= i < n)%Z /\ inside shape pix | _, _ => False end.

(* all index tuples with entries below n, last entry fastest *)
Fixpoint tuples (n : Z) (d : nat) : list (list Z) :=
  match d with O => [[]] | S d => flat_map (fun k => map (cons k) (tuples n d)) (zrange 0 n) end.

(* The extension of an array beyond its edge that a boundary condition names:
   index i of an axis with n samples stands for sample j, or for no sample. *)
Inductive edge := EZero | ENearest | ECyclic | EMirror.
Definition stands_for (b : edge) (n i j : Z) : Prop :=
  match b with
  | EZero => i = j
  | ENearest => (i < 0 /\ j = 0 \/ 0 <= i < n /\ j = i \/ n <= i /\ j = n - 1)%Z
  | ECyclic => exists k, (i = j + k * n)%Z
  | EMirror => exists k, (i = j + k * (2 * n - 2) \/ i = - j + k * (2 * n - 2))%Z
  end.

(* a position with coordinate i replaced *)
Fixpoint upd (i : nat) (q : R) (pos : list R) : list R :=
  match pos with [] => [] | p :: pos => match i with O => q :: pos | S i => p :: upd i q pos end end.

(* a linear function of the pixel indices *)
Fixpoint lin_at (beta : list R) (pos : list R) : R := match beta, pos with c :: beta, p :: pos => c * p + lin_at beta pos | _, _ => 0 end.

(* pixel J stands for the cell at off + is *)
Fixpoint stand (b : edge) (shape off is J : list Z) : Prop :=
  match shape, off, is, J with
  | n :: shape, o :: off, k :: is, j :: J => stands_for b n (k + o) j /\ stand b shape off is J
  | [], [], [], [] => True
  | _, _, _, _ => False
  end.
