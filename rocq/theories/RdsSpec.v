(* Vocabulary for C107: a large two-dimensional array spread over several tasks, each of which holds some strided
   slices of it and wants some others. *)
From Verif Require Export Base SboxSpec.
From Verif Require Import ArrModel.

(* a slice of the large array: one [start,end,step] per axis *)
Notation box2 := (sbox * sbox)%type.
Definition box2_ok (b : box2) : Prop := box_ok (fst b) /\ box_ok (snd b).
(* element (y,x) of the slice is element (gy,gx) of the large array *)
Definition at_box (b : box2) (y x gy gx : Z) : Prop :=
  zget (indices (fst b)) y = Some gy /\ zget (indices (snd b)) x = Some gx.
Definition in_box (b : box2) (gy gx : Z) : Prop := In gy (indices (fst b)) /\ In gx (indices (snd b)).
Definition meets (a b : box2) : Prop := exists gy gx, in_box a gy gx /\ in_box b gy gx.

Definition has_shape {A} (b : box2) (a : farr A) : Prop :=
  f_ny a = zlen (indices (fst b)) /\ f_nx a = zlen (indices (snd b)).
(* a is the slice b of the large array garr *)
Definition slice_of {A} (garr : Z -> Z -> A) (b : box2) (a : farr A) : Prop :=
  has_shape b a /\ forall y x gy gx, at_box b y x gy gx -> f_at a y x = garr gy gx.

(* what one task holds, and what it wants *)
Record task (A : Type) := TK { t_iarrs : list (farr A); t_iboxes : list box2; t_oboxes : list box2 }.
Arguments TK {A}. Arguments t_iarrs {A}. Arguments t_iboxes {A}. Arguments t_oboxes {A}.
Definition task_ok {A} (garr : Z -> Z -> A) (t : task A) : Prop :=
  t_iboxes t <> [] /\ Forall box2_ok (t_iboxes t) /\ Forall box2_ok (t_oboxes t) /\
  Forall2 (slice_of garr) (t_iboxes t) (t_iarrs t).
(* some task holds this element *)
Definition held {A} (tasks : list (task A)) (gy gx : Z) : Prop :=
  exists t b, In t tasks /\ In b (t_iboxes t) /\ in_box b gy gx.

(* o is the slice b of the large array, with zero in the places nobody holds *)
Definition filled {A} (zero : A) (garr : Z -> Z -> A) (tasks : list (task A)) (b : box2) (o : farr A) : Prop :=
  has_shape b o /\ forall y x gy gx, at_box b y x gy gx ->
    (held tasks gy gx -> f_at o y x = garr gy gx) /\ (~ held tasks gy gx -> f_at o y x = zero).

(* there are no two boxes ia, ia' in the list is and ob, ob' in the list os, each pair in this order, such that
   ia overlaps ob' and ia' overlaps ob *)
Definition no_crossing (is os : list box2) : Prop :=
  forall a a' b b' ia ia' ob ob', (a < a')%nat -> (b < b')%nat ->
    nth_error is a = Some ia -> nth_error is a' = Some ia' -> nth_error os b = Some ob -> nth_error os b' = Some ob' ->
    ~ (meets ia ob' /\ meets ia' ob).
