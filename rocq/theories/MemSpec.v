(* What a user of the memory pool may expect of the buffers it hands out: small and independent of the code. *)
From Coq Require Import ZArith List. Import ListNotations. Open Scope Z_scope.
(* a buffer is an address and a length in bytes *)
Definition buf := (Z * Z)%type.
Definition disjoint (a b : buf) : Prop := fst a + snd a <= fst b \/ fst b + snd b <= fst a.
Definition inside (a b : buf) : Prop := fst b <= fst a /\ fst a + snd a <= fst b + snd b.
Definition aligned (k : Z) (a : buf) : Prop := fst a mod k = 0.
