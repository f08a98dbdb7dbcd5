(* What a linear solver needs to know about its vectors. *)
From Coq Require Import Reals.
From Verif Require Import Base.
Open Scope R_scope.

Record vspace := VS { vec : Type; vzero : vec; vadd : vec -> vec -> vec; vsub : vec -> vec -> vec; vscale : R -> vec -> vec }.

(* A is linear and subtraction behaves *)
Record linear_system (U : vspace) (A : vec U -> vec U) : Prop := {
  ls_lin : forall x a p, A (vadd U x (vscale U a p)) = vadd U (A x) (vscale U a (A p));
  ls_lin' : forall x a p, A (vadd U (vscale U a p) x) = vadd U (vscale U a (A p)) (A x);
  ls_sub : forall b y z, vsub U b (vadd U y z) = vsub U (vsub U b y) z;
  ls_zero : forall b, vsub U b (A (vzero U)) = b }.

(* the dot product is bilinear and symmetric *)
Record dot_laws (U : vspace) (dot : vec U -> vec U -> R) : Prop := {
  dl_sym : forall u v, dot u v = dot v u;
  dl_add : forall u v w, dot (vadd U u v) w = dot u w + dot v w;
  dl_sub : forall u v w, dot (vsub U u v) w = dot u w - dot v w;
  dl_scale : forall a u w, dot (vscale U a u) w = a * dot u w }.
Definition selfadjoint {V : Type} (dot : V -> V -> R) (A : V -> V) : Prop := forall u v, dot (A u) v = dot u (A v).
