(* Models of utils.distpow and utils.dicedist. Numbers are exact. *)
From Coq Require Import ZArith List Reals Arith.
From Verif Require Import Base.
Import ListNotations.
Local Open Scope R_scope.

(* np.convolve in the mode full; None: empty arrays raise *)
Fixpoint upto (n : nat) (f : nat -> R) : R := match n with O => 0 | S n' => upto n' f + f n' end.
Definition convolve (a b : list R) : option (list R) :=
  match a, b with
  | [], _ | _, [] => None
  | _, _ => Some (map (fun k => upto (S k) (fun i => nth i a 0 * nth (k - i) b 0)) (seq 0 (length a + length b - 1)))
  end.
(* utils.py:3617-3622: the while loop; the fuel is N, which halves every time *)
Fixpoint dloop (fuel : nat) (N : Z) (res dist : list R) : option (list R) :=
  if (0 <? N)%Z then
    match fuel with
    | O => None
    | S f =>
      match (if Z.odd N then convolve res dist else Some res), convolve dist dist with
      | Some res', Some dist' => dloop f (N / 2)%Z res' dist'
      | _, _ => None
      end
    end
  else Some res.
(* utils.py:3614-3623 *)
Definition distpow (dist : list R) (N : Z) : option (list R) := dloop (Z.to_nat N) N [1] dist.
(* utils.py:3608-3612; D = 0 raises ZeroDivisionError, negative D ValueError *)
Definition dicedist (N D : Z) : option (list R) :=
  if (D <=? 0)%Z then None else distpow (0 :: repeat (1 / IZR D) (Z.to_nat D)) N.
