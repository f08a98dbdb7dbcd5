(* Model of utils.build_conditional for one matrix *)
From Coq Require Import Reals List Bool.
From Verif Require Import CndSpec.
Import ListNotations.
Open Scope R_scope.

Section Cnd.
Variable linv : nat -> mat -> option mat. (* np.linalg.inv; None: LinAlgError *)

Fixpoint all_zero (l : list R) : bool := match l with [] => true | x :: l' => if Req_EM_T x 0 then all_zero l' else false end.
(* utils.py:2642-2646 inv: matrices with a diagonal of zeros give zeros *)
Definition inv (n : nat) (A : mat) : option mat :=
  if all_zero (map (fun i => A i i) (seq 0 n)) then Some (fun _ _ => 0) else linv n A.
(* C[rows][:,cols] *)
Definition sub (C : mat) (rows cols : list nat) : mat := fun i j => C (nth i rows O) (nth j cols O).
Definition matmul (m : nat) (A B : mat) : mat := fun i j => lsum (seq 0 m) (fun k => A i k * B k j).
(* utils.py:2610-2654 for ps[n,n]. known[inds] raises for an index that is too large *)
Definition build_conditional (n : nat) (ps : mat) (inds : list nat) : option (mat * mat) :=
  if negb (forallb (fun i => Nat.ltb i n) inds) then None else
  let known := map (fun i => existsb (Nat.eqb i) inds) (seq 0 n) in
  let ks := filter (fun i => nth i known false) (seq 0 n) in
  let us := filter (fun i => negb (nth i known false)) (seq 0 n) in
  match inv n ps with
  | None => None
  | Some Ci =>
      let Ciuk := sub Ci us ks in
      let Ciuu := sub Ci us us in
      match inv (length us) Ciuu with
      | None => None
      | Some Ciuui => Some ((fun i j => - matmul (length us) Ciuui Ciuk i j), Ciuui)
      end
  end.
End Cnd.
