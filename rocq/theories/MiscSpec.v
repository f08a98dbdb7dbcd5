(* Specification vocabulary for C27, C29 and C33. *)
From Verif Require Import Base.

(* p is a product of some of the factors, each used any number of times (1 is the empty product) *)
Inductive product_of (F : list Z) : Z -> Prop :=
| prod_one : product_of F 1
| prod_mul : forall p f, product_of F p -> In f F -> product_of F (p * f).
(* at least one factor *)
Definition proper_product (F : list Z) (p : Z) : Prop := exists q f, product_of F q /\ In f F /\ p = q * f.
