(* Model of utils.eigsort for real symmetric matrices *)
From Coq Require Import Reals List.
From Verif Require Import CndSpec EigSpec.
Import ListNotations.
Open Scope R_scope.

Section Eis.
Variable eigh : nat -> mat -> (nat -> R) * mat. (* np.linalg.eigh *)
Variable argsort : nat -> (nat -> R) -> list nat. (* np.argsort of n numbers *)

(* [:nmax], for nmax that is None or not negative *)
Definition upto {T : Type} (nmax : option nat) (l : list T) : list T := match nmax with None => l | Some k => firstn k l end.
(* utils.py:1245-1246 *)
Definition order (n : nat) (E : nat -> R) (nmax : option nat) : list nat := upto nmax (rev (argsort n E)).
(* utils.py:1239-1248 with merged=False: the values and vectors in their order *)
Definition eigsort (n : nat) (A : mat) (nmax : option nat) : list (R * (nat -> R)) :=
  let '(E, V) := eigh n A in map (fun k => (E k, fun i => V i k)) (order n E nmax).
Fixpoint roots (l : list (R * (nat -> R))) : option (list (nat -> R)) :=
  match l with
  | [] => Some []
  | (e, v) :: l' => if Rlt_dec e 0 then None else match roots l' with None => None | Some r => Some ((fun i => v i * sqrt e) :: r) end
  end.
(* with merged=True: the columns of Q; None: nan *)
Definition eigsort_merged (n : nat) (A : mat) (nmax : option nat) : option (list (nat -> R)) :=
  let '(E, V) := eigh n A in roots (map (fun k => (E k, fun i => V i k)) (order n E nmax)).
End Eis.
