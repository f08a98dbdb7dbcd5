(* Specification vocabulary for C26. *)
From Verif Require Import Base.

(* Index tuples of an array, in row-major order. An axis is [Some n] when it is iterated over and None
   when it is not; a non-iterated axis has the entry None (slice(None)) in every tuple. *)
Fixpoint index_tuples (dims : list (option Z)) : list (list (option Z)) :=
  match dims with
  | [] => [[]]
  | Some n :: r => flat_map (fun k => map (cons (Some k)) (index_tuples r)) (zrange 0 n)
  | None :: r => map (cons None) (index_tuples r)
  end.

(* the axes whose number satisfies sel, counted from i *)
Fixpoint select_axes (sel : nat -> bool) (i : nat) (shape : list Z) : list (option Z) :=
  match shape with
  | [] => []
  | n :: r => (if sel i then Some n else None) :: select_axes sel (S i) r
  end.

(* axis number i is one of the requested axes (all of them by default, negative ones count from the end) *)
Definition has_axis (ndim : nat) (axes : option (list Z)) (i : nat) : bool :=
  match axes with None => true | Some l => existsb (fun a => Z.of_nat i =? a mod Z.of_nat ndim) l end.

(* v is a valid entry of an index tuple for dimension d *)
Definition index_ok (d v : option Z) : Prop :=
  match d, v with Some n, Some k => 0 <= k < n | None, None => True | _, _ => False end.

(* row-major order is lexicographic order *)
Inductive lex_lt : list (option Z) -> list (option Z) -> Prop :=
| lex_here : forall a b x y, a < b -> lex_lt (Some a :: x) (Some b :: y)
| lex_next : forall c x y, lex_lt x y -> lex_lt (c :: x) (c :: y).
