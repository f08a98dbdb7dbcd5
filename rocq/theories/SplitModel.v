From Verif Require Import Base RangeModel.

Definition qltb (a b : Q) : bool := negb (Qle_bool b a).

(* weights[i] for a valid index *)
Definition wt (w : list Q) (i : nat) : Q := nth i w 0%Q.
(* bins[j].append(i) *)
Definition push {A} (l : list (list A)) (j : nat) (x : A) : list (list A) := upd l j (nth j l [] ++ [x]).

(* np.argmin: position of the first smallest element, counted from k; (best,bv) is the candidate *)
Fixpoint argmin_from (k best : nat) (bv : Q) (l : list Q) : nat :=
  match l with
  | [] => best
  | x :: l => if qltb x bv then argmin_from (S k) k x l else argmin_from (S k) best bv l
  end.
Definition argmin (l : list Q) : option nat :=
  match l with [] => None | x :: l => Some (argmin_from 1 0 x l) end.

(* utils.py:881-892 equal_split. inds is np.argsort(weights)[::-1]; np.argmin([]) raises. *)
Fixpoint equal_split_loop (w : list Q) (inds : list nat) (bins : list (list nat)) (bw : list Q) : option (list (list nat)) :=
  match inds with
  | [] => Some bins
  | i :: inds =>
      match argmin bw with
      | None => None
      | Some j => equal_split_loop w inds (push bins j i) (upd bw j (nth j bw 0%Q + wt w i)%Q)
      end
  end.
Definition equal_split (w : list Q) (nbin : nat) (inds : list nat) : option (list (list nat)) :=
  equal_split_loop w inds (repeat [] nbin) (repeat 0%Q nbin).

(* utils.py:1211-1224 greedy_split_simple: the inner loop over j, then the update. sums[0] of an
   empty list raises. *)
Fixpoint small_loop (sums : list Q) (js : list nat) (small : nat) : nat :=
  match js with
  | [] => small
  | j :: js => small_loop sums js (if qltb (nth j sums 0%Q) (nth small sums 0%Q) then j else small)
  end.
Fixpoint simple_loop (data : list Q) (n : nat) (inds : list nat) (res : list (list nat)) (sums : list Q) : option (list (list nat)) :=
  match inds with
  | [] => Some res
  | i :: inds =>
      if Nat.eqb n 0 then None else
      let small := small_loop sums (seq 0 n) 0 in
      simple_loop data n inds (push res small i) (upd sums small (nth small sums 0%Q + wt data i)%Q)
  end.
Definition greedy_split_simple (data : list Q) (n : nat) (inds : list nat) : option (list (list nat)) :=
  simple_loop data n inds (repeat [] n) (repeat 0%Q n).

(* utils.py:1170-1209 greedy_split for arbitrary costfun and workfun, either of which may raise
   (None). The data type D and the work type W are arbitrary; workfun's second argument None is
   python's None. *)
Section Greedy.
  Context {D W : Type} (costfun : list W -> option Q) (workfun : W -> D -> option W) (nowork : W).

  (* lines 1188-1194: standalone cost of every datum; work[1:] keeps its initial value *)
  Fixpoint standalone (n : nat) (data : list D) : option (list Q) :=
    match data with
    | [] => Some []
    | d :: data =>
        match workfun nowork d with
        | None => None
        | Some w => match n with
                    | O => None                                    (* work[0] = ... raises *)
                    | S n' => match costfun (w :: repeat nowork n'), standalone n data with
                              | Some c, Some cs => Some (c :: cs)
                              | _, _ => None
                              end
                    end
        end
    end.

  (* lines 1201-1204: try every group, keep the first cheapest; best = (i,iwork,icost) *)
  Fixpoint try_groups (d : D) (work : list W) (is : list nat) (best : option (nat * W * Q)) : option (option (nat * W * Q)) :=
    match is with
    | [] => Some best
    | i :: is =>
        match workfun (nth i work nowork) d with
        | None => None
        | Some iwork =>
            match costfun (upd work i iwork) with
            | None => None
            | Some icost =>
                let better := match best with None => true | Some (_, _, c) => qltb icost c end in
                try_groups d work is (if better then Some (i, iwork, icost) else best)
            end
        end
    end.

  (* lines 1199-1208 *)
  Fixpoint greedy_loop (data : list D) (order : list nat) (groups : list (list nat)) (work : list W) (cost : Q)
    : option (list (list nat) * Q * list W) :=
    match order with
    | [] => Some (groups, cost, work)
    | di :: order =>
        match nth_error data di with
        | None => None
        | Some d =>
            match try_groups d work (seq 0 (length work)) None with
            | Some (Some (i, iwork, icost)) => greedy_loop data order (push groups i di) (upd work i iwork) icost
            | _ => None
            end
        end
    end.

  (* order: what np.argsort(costs)[::-1] returns *)
  Definition greedy_split (data : list D) (n : nat) (order : list nat) : option (list (list nat) * Q * list W) :=
    match standalone n data with
    | None => None
    | Some _ => match costfun (repeat nowork n) with
                | None => None
                | Some cost => greedy_loop data order (repeat [] n) (repeat nowork n) cost
                end
    end.
End Greedy.

(* python's max of a list of numbers; raises on an empty list *)
Fixpoint qmax_from (m : Q) (l : list Q) : Q :=
  match l with [] => m | x :: l => qmax_from (if qltb m x then x else m) l end.
Definition pymax (l : list Q) : option Q := match l with [] => None | x :: l => Some (qmax_from x l) end.

(* python's max of a list that may contain None: comparing None with anything raises *)
Fixpoint all_numbers (l : list (option Q)) : option (list Q) :=
  match l with
  | [] => Some []
  | None :: _ => None
  | Some x :: l => match all_numbers l with None => None | Some r => Some (x :: r) end
  end.
Definition pymax_opt (l : list (option Q)) : option Q :=
  match l with
  | [None] => None                     (* max([None]) is None, which is no number *)
  | _ => match all_numbers l with None => None | Some l => pymax l end
  end.

(* the default workfun, utils.py:1170: x if w is None else x+w *)
Definition default_work (w : option Q) (x : Q) : option (option Q) :=
  Some (Some (match w with None => x | Some w => (x + w)%Q end)).

(* greedy_split(data, n) with all defaults: nowork = workfun(None,None) = None *)
Definition greedy_split_default (data : list Q) (n : nat) (order : list nat) :=
  greedy_split pymax_opt default_work None data n order.

(* the same with a work value that starts at 0, as the docstring's third example does *)
Definition greedy_split_max (data : list Q) (n : nat) (order : list nat) :=
  greedy_split pymax (fun w x => Some (x + w)%Q) 0%Q data n order.
