(* Unique elements of symmetric matrices. *)
From Verif Require Import Base NdSpec.
Local Open Scope Z_scope.
(* which lists n different elements (i,j), i <= j < k, of a symmetric k x k matrix, the whole diagonal among them *)
Definition selection (k n : Z) (which : list (Z * Z)) : Prop :=
  zlen which = n /\ NoDup which /\ (forall i j, In (i, j) which -> 0 <= i <= j /\ j < k) /\ forall c, 0 <= c < k -> In (c, c) which.
(* the smallest matrix with n unique elements *)
Definition smallest_size (k n : Z) : Prop := 0 <= k /\ 2 * n <= k * (k + 1) /\ (k - 1) * k < 2 * n.
(* symmetric in its first two axes, both of length k *)
Definition symmetric {A} (k : Z) (rest : list Z) (m : nd A) : Prop :=
  nd_shape m = k :: k :: rest /\ forall i j idx, 0 <= i < k -> 0 <= j < k -> valid_idx rest idx -> nd_at m (i :: j :: idx) = nd_at m (j :: i :: idx).
