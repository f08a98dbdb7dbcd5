(* What a user expects of bunch.py, stated without its data structures. *)
From Coq Require Import List Ascii String ZArith QArith Bool Arith Sorted.
Import ListNotations.
Local Open Scope string_scope.
Local Open Scope list_scope.

(* What can be stored under a name: a number, or a reference to another bunch
   (objects are numbered in the order they are made). *)
Inductive value : Type :=
| VNum (x : Z)
| VBunch (i : nat).

(* What a program can do to its bunches. *)
Inductive op : Type :=
| ONew (from : list nat) (kw : list (string * value))  (* Bunch(b1, b2, ..., name=value, ...) *)
| OSetAttr (i : nat) (k : string) (v : value)          (* b.k = v *)
| OSetItem (i : nat) (k : string) (v : value)          (* b["k"] = v *)
| ODelAttr (i : nat) (k : string)                      (* del b.k *)
| ODelItem (i : nat) (k : string)                      (* del b["k"] *)
| OUpdate (i j : nat)                                  (* b.update(c) *)
| OCopy (i : nat).                                     (* b.copy() *)

(* The ideal bunch: a function from names to values and the list of its names in
   the order they were first stored. *)
Record ideal : Type := Ideal { at_name : string -> option value; names : list string }.

Definition empty : ideal := Ideal (fun _ => None) [].
Definition store (b : ideal) (k : string) (v : value) : ideal :=
  Ideal (fun k' => if string_dec k k' then Some v else at_name b k')
        (match at_name b k with Some _ => names b | None => names b ++ [k] end).
Definition erase (b : ideal) (k : string) : ideal :=
  Ideal (fun k' => if string_dec k k' then None else at_name b k')
        (filter (fun k' => if string_dec k k' then false else true) (names b)).
(* everything in c is stored in b, in the order of c *)
Definition store_from (c b : ideal) : ideal :=
  fold_left (fun b k => match at_name c k with Some v => store b k v | None => b end) (names c) b.
Definition store_all (l : list (string * value)) (b : ideal) : ideal :=
  fold_left (fun b kv => store b (fst kv) (snd kv)) l b.

(* all bunches of the program: object i, if it exists *)
Definition world := list ideal.
Definition change (w : world) (i : nat) (f : ideal -> ideal) : world :=
  map (fun ib => if Nat.eqb (fst ib) i then f (snd ib) else snd ib) (combine (seq 0 (List.length w)) w).

Definition ideal_step (w : world) (o : op) : world :=
  match o with
  | ONew from kw =>
      w ++ [store_all kw (fold_left (fun b j => store_from (nth j w empty) b) from empty)]
  | OSetAttr i k v | OSetItem i k v => change w i (fun b => store b k v)
  | ODelAttr i k | ODelItem i k => change w i (fun b => erase b k)
  | OUpdate i j => change w i (store_from (nth j w empty))
  | OCopy i => w ++ [nth i w empty]
  end.
Definition ideal_run (h : list op) : world := fold_left ideal_step h [].

(* an operation that works: its objects exist, and what it deletes is there *)
Definition works (w : world) (o : op) : Prop :=
  match o with
  | ONew from _ => Forall (fun j => (j < List.length w)%nat) from
  | OSetAttr i _ _ | OSetItem i _ _ => (i < List.length w)%nat
  | ODelAttr i k | ODelItem i k =>
      (i < List.length w)%nat /\ at_name (nth i w empty) k <> None
  | OUpdate i j => (i < List.length w)%nat /\ (j < List.length w)%nat
  | OCopy i => (i < List.length w)%nat
  end.
Fixpoint all_work (w : world) (h : list op) : Prop :=
  match h with
  | [] => True
  | o :: h' => works w o /\ all_work (ideal_step w o) h'
  end.

(* the object an operation changes, if any *)
Definition target (o : op) : option nat :=
  match o with
  | OSetAttr i _ _ | OSetItem i _ _ | ODelAttr i _ | ODelItem i _ | OUpdate i _ => Some i
  | ONew _ _ | OCopy _ => None
  end.

(* names that python itself gives a meaning to on every bunch *)
Definition own_names : list string := ["_dict"; "keys"; "items"; "iteritems"; "copy"; "update"].
Definition ordinary (k : string) : Prop := ~ In k own_names /\ prefix "__" k = false.

(* Trees of bunches, as saved in files. *)
Inductive tree : Type :=
| Leaf (v : Z)
| Node (kids : list (string * tree)).

Inductive found : Type := FNum (v : Z) | FBunch.
(* what is at the end of a path of names: b[k1][k2]... *)
Fixpoint follow (t : tree) (path : list string) : option found :=
  match path with
  | [] => Some (match t with Leaf v => FNum v | Node _ => FBunch end)
  | k :: path' =>
      match t with
      | Leaf _ => None
      | Node kids =>
          match find (fun kt => if string_dec (fst kt) k then true else false) kids with
          | Some kt => follow (snd kt) path'
          | None => None
          end
      end
  end.

Fixpoint has_char (c : Ascii.ascii) (s : string) : bool :=
  match s with
  | EmptyString => false
  | String x s' => if Ascii.ascii_dec x c then true else has_char c s'
  end.
Definition slash : Ascii.ascii := "/"%char.
Definition dot : Ascii.ascii := "."%char.

(* names that are not paths *)
Definition plain_name (k : string) : Prop := k <> "" /\ k <> "." /\ has_char slash k = false.
Inductive plain : tree -> Prop :=
| plain_leaf v : plain (Leaf v)
| plain_node kids :
    NoDup (map fst kids) -> Forall plain_name (map fst kids) -> Forall plain (map snd kids) ->
    plain (Node kids).

(* strings with a slash between them *)
Fixpoint join (l : list string) : string :=
  match l with
  | [] => ""
  | [s] => s
  | s :: l' => (s ++ "/" ++ join l')%string
  end.

(* Values of list entries when bunches are concatenated: whole numbers and
   fractions (numpy integers and floats). *)
Inductive num : Type := NInt (z : Z) | NFrac (q : Q).
(* of one type: no conversion is needed to put them in one list *)
Definition same_type (a b : num) : Prop :=
  match a, b with NInt _, NInt _ | NFrac _, NFrac _ => True | _, _ => False end.
