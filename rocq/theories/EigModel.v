(* Model of utils.eigpow *)
From Coq Require Import Reals List Bool.
From Verif Require Import CndSpec EigSpec BldModel.
Import ListNotations.
Open Scope R_scope.

Section Eig.
Variable eigh : nat -> mat -> (nat -> R) * mat. (* np.linalg.eigh *)

(* utils.py:2541 is_int_valued *)
Definition is_int_valued (e : R) : bool := if Req_EM_T e (IZR (floorR e)) then true else false.
(* x**e; None: inf or nan *)
Definition npow (x e : R) : option R :=
  if Rlt_dec 0 x then Some (Rpower x e)
  else if Rlt_dec x 0 then (if is_int_valued e then Some (powerRZ x (floorR e)) else None)
  else if Rlt_dec 0 e then Some 0 else if Rlt_dec e 0 then None else Some 1.
Definition rmax (l : list R) : R := match l with [] => 0 | x :: l' => fold_left Rmax l' x end.
Definition ltb (x y : R) : bool := if Rlt_dec x y then true else false.
(* utils.py:2595-2607 the new eigenvalues, for a list of eigenvalues and the largest that is compared with *)
Definition new_value (e rlim alim top x : R) : option R :=
  let mask := (negb (is_int_valued e) && ltb x 0) || (ltb e 0 && (ltb (Rabs x) (top * rlim) || ltb (Rabs x) alim)) in
  if mask then Some 0 else npow x e.
Definition new_values (n : nat) (e rlim alim top : R) (E : nat -> R) : option (nat -> R) :=
  if forallb (fun k => match new_value e rlim alim top (E k) with Some _ => true | None => false end) (seq 0 n)
  then Some (fun k => match new_value e rlim alim top (E k) with Some y => y | None => 0 end) else None.
Definition rebuilt (n : nat) (V : mat) (E : nat -> R) : mat := fun i j => lsum (seq 0 n) (fun k => V i k * (E k * V j k)).
(* utils.py:2563-2608 for A[n,n], with rlim and alim given *)
Definition eigpow (n : nat) (A : mat) (e rlim alim : R) : option mat :=
  let '(E, V) := eigh n A in
  let top := rmax (map (fun k => Rabs (E k)) (seq 0 n)) in
  match new_values n e rlim alim top E with None => None | Some E' => Some (rebuilt n V E') end.
(* the same for A[a,b,n,n], matrices numbered (s,t): the largest is taken along axis 1 of the absolute eigenvalues, which is the one for t *)
Definition eigpow4 (b n : nat) (A : nat -> nat -> mat) (e rlim alim : R) (s t : nat) : option mat :=
  let '(E, V) := eigh n (A s t) in
  let top k := rmax (map (fun t' => Rabs (fst (eigh n (A s t')) k)) (seq 0 b)) in
  if forallb (fun k => match new_value e rlim alim (top k) (E k) with Some _ => true | None => false end) (seq 0 n)
  then Some (rebuilt n V (fun k => match new_value e rlim alim (top k) (E k) with Some y => y | None => 0 end)) else None.
(* and for A[a,n,n]: along axis 1 are the eigenvalues of one matrix *)
Definition eigpow3 (n : nat) (A : nat -> mat) (e rlim alim : R) (s : nat) : option mat :=
  let '(E, V) := eigh n (A s) in
  let top := rmax (map (fun k => Rabs (fst (eigh n (A s)) k)) (seq 0 n)) in
  match new_values n e rlim alim top E with None => None | Some E' => Some (rebuilt n V E') end.
End Eig.
