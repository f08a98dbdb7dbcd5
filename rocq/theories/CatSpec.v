(* What gathering and regrouping arrays means. *)
From Verif Require Import Base.

Fixpoint zprod (l : list Z) : Z := match l with [] => 1 | x :: l => x * zprod l end.

(* an array as its length along the gather axis, its remaining shape, and its entries *)
Record arr (A : Type) := Arr { ar_lead : Z; ar_inner : list Z; ar_data : list A }.
Arguments Arr {A}. Arguments ar_lead {A}. Arguments ar_inner {A}. Arguments ar_data {A}.
Definition ar_size {A} (a : arr A) : Z := ar_lead a * zprod (ar_inner a).
Definition arr_ok {A} (a : arr A) : Prop := 0 <= ar_lead a /\ Forall (fun n => 0 <= n) (ar_inner a) /\ zlen (ar_data a) = ar_size a.
(* the arrays of all ranks stacked along the gather axis *)
Definition stacked {A} (inner : list Z) (arrs : list (arr A)) : arr A :=
  Arr (zsum (map ar_lead arrs)) inner (concat (map ar_data arrs)).

(* a map: its pixel shape and, for each pre-component, its pixels in row-major order *)
Record pmap (A : Type) := PM { pm_ny : Z; pm_nx : Z; pm_data : list (list A) }.
Arguments PM {A}. Arguments pm_ny {A}. Arguments pm_nx {A}. Arguments pm_data {A}.
Definition pmap_ok {A} (npre : Z) (m : pmap A) : Prop :=
  0 <= pm_ny m /\ 0 <= pm_nx m /\ zlen (pm_data m) = npre /\ Forall (fun c => zlen c = pm_ny m * pm_nx m) (pm_data m).
