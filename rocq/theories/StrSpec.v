(* Groups in strings: what lies between a start character and the end character that belongs to it. A string is the list of its characters. *)
From Coq Require Import ZArith List Ascii.
Import ListNotations.

Notation str := (list ascii).
(* how many more of the first character than of the second a string has *)
Fixpoint level (o c : ascii) (s : str) : Z :=
  match s with
  | [] => 0
  | x :: s' => ((if Ascii.eqb x o then 1 else if Ascii.eqb x c then -1 else 0) + level o c s')%Z
  end.
(* the k-th pair of characters; if a character starts several pairs the first counts *)
Definition pair_of (start end_ : str) (o c : ascii) : Prop :=
  exists k, nth_error start k = Some o /\ nth_error end_ k = Some c /\ forall j, (j < k)%nat -> nth_error start j <> Some o.
(* a group: it begins with a start character and ends where, for the first time, as many groups of the same kind have been ended as begun *)
Definition is_group (start end_ g : str) : Prop :=
  exists o c g', pair_of start end_ o c /\ g = o :: g' /\ level o c g = 0%Z /\ forall p q, g = p ++ q -> p <> [] -> q <> [] -> (0 < level o c p)%Z.
(* a group that does not end *)
Definition is_unfinished (start end_ g : str) : Prop :=
  exists o c g', pair_of start end_ o c /\ g = o :: g' /\ forall p q, g = p ++ q -> p <> [] -> (0 < level o c p)%Z.
(* the string with everything in groups blotted out *)
Inductive outer (start end_ : str) : str -> list (option ascii) -> Prop :=
| outer_nil : outer start end_ [] []
| outer_char x s m : ~ In x start -> outer start end_ s m -> outer start end_ (x :: s) (Some x :: m)
| outer_group g s m : is_group start end_ g -> outer start end_ s m -> outer start end_ (g ++ s) (repeat None (length g) ++ m)
| outer_unfinished g : is_unfinished start end_ g -> outer start end_ g (repeat None (length g)).
Definition occurs {A} (x s : list A) : Prop := exists p q, s = p ++ x ++ q.
(* the lists one after the other, with sep in between *)
Fixpoint join {A} (sep : list A) (l : list (list A)) : list A :=
  match l with [] => [] | [x] => x | x :: l' => x ++ sep ++ join sep l' end.
(* a token written with the escape character before every delimiter *)
Definition escape (delim esc : ascii) (s : str) : str := flat_map (fun x => if Ascii.eqb x delim then [esc; x] else [x]) s.
