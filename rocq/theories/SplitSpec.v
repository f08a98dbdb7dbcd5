(* Specification vocabulary for C21. *)
From Verif Require Import Base.

(* total weight of the items listed in g *)
Definition group_weight (w : list Q) (g : list nat) : Q := qsum (map (fun i => nth i w 0%Q) g).

(* n groups; every item number 0..length w-1 occurs in exactly one group, once *)
Definition is_partition (m n : nat) (groups : list (list nat)) : Prop :=
  length groups = n /\ Permutation (concat groups) (seq 0 m).

(* no two groups differ by more than the largest weight *)
Definition is_balanced (w : list Q) (groups : list (list nat)) : Prop :=
  forall W, (0 <= W)%Q -> Forall (fun x => 0 <= x <= W)%Q w ->
  forall g g', In g groups -> In g' groups -> (group_weight w g <= group_weight w g' + W)%Q.

(* the work of a group: start from nothing and add its members in turn *)
Fixpoint work_of {D W} (workfun : W -> D -> option W) (data : list D) (w : W) (g : list nat) : option W :=
  match g with
  | [] => Some w
  | i :: g => match nth_error data i with
              | None => None
              | Some d => match workfun w d with None => None | Some w => work_of workfun data w g end
              end
  end.
