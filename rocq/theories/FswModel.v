(* Model of utils.find_sweeps on exact numbers *)
From Coq Require Import List Arith QArith Qabs Bool.
Import ListNotations.
Open Scope nat_scope.

Definition Qltb (a b : Q) : bool := negb (Qle_bool b a).
(* utils.py:2047-2050 minmax of a non-empty array *)
Fixpoint lmin (m : Q) (l : list Q) : Q := match l with [] => m | x :: l' => lmin (if Qltb x m then x else m) l' end.
Fixpoint lmax (m : Q) (l : list Q) : Q := match l with [] => m | x :: l' => lmax (if Qltb m x then x else m) l' end.
(* utils.py:877-879, scipy.ndimage.label of a one-dimensional mask and scipy.ndimage.maximum_position, in one pass: the position of the largest value of each
   run of true. Among equal values scipy's choice depends on an unstable sort: tie p i says whether i replaces p. *)
Fixpoint scan (tie : nat -> nat -> bool) (i : nat) (cur : option (nat * Q)) (l : list (bool * Q)) : list nat :=
  match l with
  | [] => match cur with Some (p, _) => [p] | None => [] end
  | (true, v) :: l' =>
      scan tie (S i) (Some (match cur with
                            | Some (p, m) => if Qltb m v || (Qeq_bool m v && tie p i) then (i, v) else (p, m)
                            | None => (i, v) end)) l'
  | (false, _) :: l' => match cur with Some (p, _) => p :: scan tie (S i) None l' | None => scan tie (S i) None l' end
  end.
(* np.unique *)
Fixpoint insert (x : nat) (l : list nat) : list nat := match l with [] => [x] | y :: l' => if x <? y then x :: l else if x =? y then l else y :: insert x l' end.
Definition unique (l : list nat) : list nat := fold_right insert [] l.
(* utils.py:859-882. None: an exception, from the minimum of nothing or from indexing the empty list of turns with [:,0] *)
Definition find_sweeps (tie : nat -> nat -> bool) (tol : Q) (az : list Q) : option (list (nat * nat)) :=
  match az with
  | [] => None
  | a :: rest =>
      let amin := lmin a rest in let amax := lmax a rest in
      let amid := ((amax + amin) / 2)%Q in let aamp := ((amax - amin) / 2)%Q in
      let aabs := map (fun x => Qabs (x - amid)) az in
      let turns := scan tie 0 None (map (fun v => (Qltb (aamp * (1 - tol))%Q v, v)) aabs) in
      match turns with
      | [] => None
      | _ => let turns := unique ([0] ++ turns ++ [length az]) in Some (combine (removelast turns) (tl turns))
      end
  end.
