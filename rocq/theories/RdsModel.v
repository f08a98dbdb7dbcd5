(* Model of utils.py redistribute, sbox_intersect and the collective operations they use, for two-dimensional boxes
   and no wrapping (wrap=0). Leading dimensions of the arrays are folded into the element type. All tasks are run
   together: the model takes what every task passes in and returns what every task gets back. *)
From Verif Require Import Base SliceSpec SboxSpec SboxModel ArrModel PixModel RdsSpec.

Fixpoint enum_from {B} (k : Z) (l : list B) : list (Z * B) :=
  match l with [] => [] | x :: l => (k, x) :: enum_from (k + 1) l end.
Definition enum {B} (l : list B) : list (Z * B) := enum_from 0 l.
Definition zsum (l : list Z) : Z := fold_right Z.add 0 l.

(* utils.py:1694-1700 sbox_fix on both axes *)
Definition fix2 (b : box2) : box2 := (sbox_fix (fst b), sbox_fix (snd b)).
(* np.prod(sbox_size(box)), utils.py:1675-1682 *)
Definition size2 (b : box2) : Z := sbox_size (fst b) * sbox_size (snd b).
(* utils.py:1565-1594 sbox_intersect for one pair of boxes: the outer product of the intersections along each axis *)
Definition inter2 (a b : box2) : list box2 :=
  list_prod (sbox_intersect_1d (fst (fix2 a)) (fst (fix2 b)) 0) (sbox_intersect_1d (snd (fix2 a)) (snd (fix2 b)) 0).
(* utils.py:1520-1521 safe_div *)
Definition safe_div (l : list box2) (b : box2) : list box2 :=
  match l with
  | [] => [((0, 0, 1), (0, 0, 1))]
  | _ => map (fun a => (sbox_div (fst a) (fst b), sbox_div (snd a) (snd b))) l
  end.

(* a.reshape(-1) and data.reshape((ny,nx)) *)
Definition ravel {A} (a : farr A) : list A :=
  flat_map (fun y => map (f_at a y) (zrange 0 (f_nx a))) (zrange 0 (f_ny a)).
Definition unravel {A} (dflt : A) (ny nx : Z) (l : list A) : option (farr A) :=
  if zlen l =? ny * nx then Some (FA ny nx (fun y x => match zget l (y * nx + x) with Some v => v | None => dflt end))
  else None.

(* utils.py:1516-1519 nimap, nomap and 1525, 1539 allgatherv (1411-1450) of the boxes: all boxes of all tasks in task
   order, each with the number of the task it belongs to *)
Definition gathered {A} (sel : task A -> list box2) (tasks : list (task A)) : list (Z * box2) :=
  flat_map (fun ut => map (fun b => (fst ut, fix2 b)) (sel (snd ut))) (enum tasks).

(* utils.py:1526-1530 and 1540-1544: for every box of every task (i1), for every own box (i2), the parts of the own
   array which overlap *)
Definition pieces (others : list (Z * box2)) (mine : list box2) : list (Z * list (Z * box2)) :=
  map (fun ta => (fst ta, flat_map (fun kb => map (fun c => (fst kb, c)) (safe_div (inter2 (snd ta) (snd kb)) (snd kb))) (enum mine)))
      others.
(* utils.py:1524, 1531-1533 nrecv; 1537, 1545-1548 nsend *)
Definition counts (n : Z) (ps : list (Z * list (Z * box2))) : list Z :=
  map (fun t => zsum (map (fun p => if fst p =? t then zsum (map (fun q => size2 (snd q)) (snd p)) else 0) ps)) (zrange 0 n).

Definition sy (b : box2) : pyslice := sbox2slice (fst b).
Definition sx (b : box2) : pyslice := sbox2slice (snd b).

(* utils.py:1538-1549 sendbuf *)
Fixpoint sendbuf {A} (iarrs : list (farr A)) (ps : list (Z * box2)) : option (list A) :=
  match ps with
  | [] => Some []
  | (k, b) :: ps =>
      match zget iarrs k, sendbuf iarrs ps with
      | Some a, Some r => Some (ravel (get2 a (sy b) (sx b)) ++ r)
      | _, _ => None
      end
  end.

(* what one task hands to Alltoallv: its buffer and the number of elements for each task *)
Definition outgoing {A} (tasks : list (task A)) (t : task A) : option (list A * list Z) :=
  let ps := pieces (gathered t_oboxes tasks) (map fix2 (t_iboxes t)) in
  match t_iboxes t, sendbuf (t_iarrs t) (concat (map snd ps)) with
  | _ :: _, Some buf => Some (buf, counts (zlen tasks) ps)
  | _, _ => None (* utils.py:1500: iboxes[0] of an empty list *)
  end.

(* utils.py:1551-1555 comm.Alltoallv as seen by task me: from each task the part of its buffer meant for me, which
   starts after the parts for earlier tasks (736-753 cumsum). Numbers that disagree are an MPI error. *)
Fixpoint receive {A} (outs : list (list A * list Z)) (me : Z) (nrecv : list Z) : option (list A) :=
  match outs, nrecv with
  | [], [] => Some []
  | (buf, nsend) :: outs, nr :: nrecv =>
      match zget nsend me, receive outs me nrecv with
      | Some ns, Some r =>
          if ns =? nr then
            Some (firstn (Z.to_nat ns) (skipn (Z.to_nat (zsum (firstn (Z.to_nat me) nsend))) buf) ++ r)
          else None
      | _, _ => None
      end
  | _, _ => None
  end.

Definition zset {B} (l : list B) (k : Z) (x : B) : list B := firstn (Z.to_nat k) l ++ x :: skipn (S (Z.to_nat k)) l.

(* utils.py:1557-1565: copy out the result *)
Fixpoint copyout {A} (zero : A) (ps : list (Z * box2)) (buf : list A) (oarrs : list (farr A)) : option (list (farr A)) :=
  match ps with
  | [] => Some oarrs
  | (k, b) :: ps =>
      let n := Z.to_nat (size2 b) in
      match zget oarrs k, unravel zero (sbox_size (fst b)) (sbox_size (snd b)) (firstn n buf) with
      | Some o, Some v =>
          match set2 o (sy b) (sx b) v with
          | Some o => copyout zero ps (skipn n buf) (zset oarrs k o)
          | None => None
          end
      | _, _ => None
      end
  end.

(* one task from Alltoallv on; utils.py:1507-1508 oarrs, 1524-1534 *)
Definition incoming {A} (zero : A) (tasks : list (task A)) (outs : list (list A * list Z)) (me : Z) (t : task A) : option (list (farr A)) :=
  let oboxes := map fix2 (t_oboxes t) in
  let ps := pieces (gathered t_iboxes tasks) oboxes in
  match all_some (map (fun b => full2 (sbox_size (fst b)) (sbox_size (snd b)) zero) oboxes), receive outs me (counts (zlen tasks) ps) with
  | Some oarrs, Some buf => copyout zero (concat (map snd ps)) buf oarrs
  | _, _ => None
  end.

(* utils.py:1491-1563 redistribute, run by all tasks *)
Definition redistribute {A} (zero : A) (tasks : list (task A)) : option (list (list (farr A))) :=
  match all_some (map (outgoing tasks) tasks) with
  | None => None
  | Some outs => all_some (map (fun ut => incoming zero tasks outs (fst ut) (snd ut)) (enum tasks))
  end.
