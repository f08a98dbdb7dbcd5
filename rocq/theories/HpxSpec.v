(* Rings of pixels, and cutting a piece out of an axis *)
From Coq Require Import List ZArith QArith Reals.
Import ListNotations.

(* a ring: its angle, number of pixels, first longitude, and where its pixels start in the map *)
Record ring := { r_theta : R; r_nphi : Z; r_phi0 : R; r_offset : Z }.
(* rings as four arrays *)
Record rings := { theta : list R; nphi : list Z; phi0 : list R; offsets : list Z }.
Definition of_list (l : list ring) : rings := {| theta := map r_theta l; nphi := map r_nphi l; phi0 := map r_phi0 l; offsets := map r_offset l |}.
Definition within (lo hi : option R) (x : R) : Prop := (forall t, lo = Some t -> (t <= x)%R) /\ (forall t, hi = Some t -> (x <= t)%R).
(* what is left of l are the members with P, in order *)
Inductive selected {A} (P : A -> Prop) : list A -> list A -> Prop :=
| Sel_nil : selected P [] []
| Sel_take x l k : P x -> selected P l k -> selected P (x :: l) (x :: k)
| Sel_drop x l k : ~ P x -> selected P l k -> selected P (x :: l) k.
(* x lies half way between two whole numbers *)
Definition half_way (x : Q) : Prop := exists k : Z, (x == inject_Z k + (1 # 2))%Q.
