(* Model of utils.deslope (one row, the mean as average), utils.rescale and utils.grid, over the reals *)
From Coq Require Import List Arith Reals.
Import ListNotations.
Open Scope R_scope.

(* np.mean *)
Definition avg (l : list R) : R := fold_right Rplus 0 l / INR (length l).
(* di[-w:] of w at least 1 *)
Definition tailw (w : nat) (l : list R) : list R := skipn (length l - w) l.
(* di -= np.arange(di.size)*slope + off, from element k on *)
Fixpoint subline (k : nat) (slope off : R) (l : list R) : list R := match l with [] => [] | x :: l' => x - (INR k * slope + off) :: subline (S k) slope off l' end.
(* utils.py:310-319. None: nan (an empty average, or a division by zero) *)
Definition deslope (w : nat) (di : list R) : option (list R) :=
  if (Nat.eqb w 0 || Nat.leb (length di) 1)%bool then None
  else Some (subline 0 ((avg (tailw w di) - avg (firstn w di)) / (INR (length di) - 1)) (avg (firstn w di)) di).

Fixpoint npmin (m : R) (l : list R) : R := match l with [] => m | a :: l' => npmin (Rmin m a) l' end.
Fixpoint npmax (m : R) (l : list R) : R := match l with [] => m | a :: l' => npmax (Rmax m a) l' end.
(* utils.py:1925-1928. None: an empty array (exception) or a division by zero (nan) *)
Definition rescale (a : list R) (lo hi : R) : option (list R) :=
  match a with
  | [] => None
  | x :: l =>
      let mi := npmin x l in let ma := npmax x l in
      if Req_EM_T ma mi then None else Some (map (fun v => (v - mi) / (ma - mi) * (hi - lo) + lo) a)
  end.
(* utils.py:718-735: the coordinate along one axis (from lo to hi, n samples) at index i. None: nan or inf *)
Definition grid (lo hi : R) (n : nat) (endpoint : bool) (i : nat) : option R :=
  let off := if endpoint then -1 else 0 in
  if Req_EM_T (INR n + off) 0 then None else Some (INR i * (hi - lo) / (INR n + off) + lo).
