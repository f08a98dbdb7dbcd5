(* Model of utils.infer_bin_edges. Numbers are real; scipy's spsolve gives a solution of the equations it is given. *)
From Coq Require Import Reals List.
Import ListNotations.
Open Scope R_scope.

Definition total (l : list R) : R := fold_right Rplus 0 l.
(* a sparse matrix given by (value, row, column); scipy adds up what has the same row and column *)
Definition dense (t : list (R * nat * nat)) (i j : nat) : R :=
  total (map (fun e => match e with (v, r, c) => if (Nat.eqb r i && Nat.eqb c j)%bool then v else 0 end) t).
(* utils.py:3716-3724 the matrix P *)
Definition edge_system (n ref : nat) : list (R * nat * nat) :=
  map (fun k => (1/2, k, k)) (seq 0 n) ++ map (fun k => (1/2, k, S k)) (seq 0 n) ++ [(-1, n, ref); (1, n, S ref)].
(* utils.py:3725 the right hand side; None: IndexError *)
Definition edge_rhs (centers : list R) (ref : nat) : option (list R) :=
  match nth_error centers (S ref), nth_error centers ref with
  | Some b, Some a => Some (centers ++ [b - a])
  | _, _ => None
  end.
(* utils.py:3726-3727 P.T.dot(P) x = P.T.dot(rhs): what the edges returned satisfy *)
Definition infer_bin_edges (centers : list R) (ref : nat) (edges : list R) : Prop :=
  exists rhs, edge_rhs centers ref = Some rhs /\
  let m := S (length centers) in
  let P := dense (edge_system (length centers) ref) in
  length edges = m /\
  forall i, (i < m)%nat ->
    total (map (fun j => total (map (fun k => P k i * P k j) (seq 0 m)) * nth j edges 0) (seq 0 m)) =
    total (map (fun k => P k i * nth k rhs 0) (seq 0 m)).
