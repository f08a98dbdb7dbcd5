(* Model of pointsrcs.crossmatch. The search tree of scipy is not modelled: query_ball_tree may give the sources within the radius in any order, so the result is stated for every such answer *)
From Coq Require Import List Arith Reals.
From Verif Require Import RotSpec RotModel.
Import ListNotations.
Open Scope R_scope.

(* scipy's cKDTree.query_ball_tree for one point: the indices of all points within radius r, each once, in some order *)
Definition ball (vecs : list vec) (v : vec) (r : R) (group : list nat) : Prop :=
  NoDup group /\ forall j, In j group <-> exists w, nth_error vecs j = Some w /\ len3 (sub3 v w) <= r.
(* np.argmin of the distances of the group: the first least one. A pair of the index and the distance *)
Fixpoint argmin (best : nat * R) (l : list (nat * R)) : nat * R :=
  match l with [] => best | e :: l' => argmin (if Rlt_dec (snd e) (snd best) then e else best) l' end.
(* pointsrcs.py:478-485, the body of the loop for one group *)
Definition match_one (vecs2 : list vec) (tol : R) (v : vec) (group : list nat) : option nat :=
  match map (fun j => (j, vec_angdist v (nth j vecs2 ((0, 0), 0)))) group with
  | [] => None
  | e :: l => let best := argmin e l in if Rlt_dec tol (snd best) then None else Some (fst best)
  end.
(* the loop *)
Fixpoint match_all (vecs2 : list vec) (tol : R) (gi : nat) (vecs1 : list vec) (groups : list (list nat)) : list (nat * nat) :=
  match vecs1, groups with
  | v :: vecs1', g :: groups' => match match_one vecs2 tol v g with Some j => [(gi, j)] | None => [] end ++ match_all vecs2 tol (S gi) vecs1' groups'
  | _, _ => []
  end.
(* pointsrcs.py:465-488: m is a possible result *)
Definition crossmatch (srcs1 srcs2 : list (R * R)) (tol safety : R) (m : list (nat * nat)) : Prop :=
  let vec1 := map (ang2rect false) srcs1 in let vec2 := map (ang2rect false) srcs2 in
  exists groups, Forall2 (fun v g => ball vec2 v (tol * safety) g) vec1 groups /\ m = match_all vec2 tol 0 vec1 groups.
(* pointsrcs.py:486 np.array(matches) *)
Definition result_shape (m : list (nat * nat)) : list nat := match m with [] => [0%nat] | _ => [length m; 2%nat] end.
