(* Models of the functions of utils.py that split strings. A string is the list of its characters. *)
From Coq Require Import List Ascii Bool Arith.
From Verif Require Import Base StrSpec.
Import ListNotations.

(* str.find of one character *)
Fixpoint find_char (s : str) (c : ascii) : option nat :=
  match s with [] => None | x :: s' => if Ascii.eqb x c then Some O else option_map S (find_char s' c) end.
(* utils.py:1934-1953, the state of the loop; res is kept in reverse, its head is res[-1] *)
Record gstate := { g_res : list str; g_ind : nat; g_n : nat; g_new : bool }.
(* res[-1] += c *)
Definition add_last (res : list str) (s : str) : option (list str) := match res with [] => None | h :: t => Some ((h ++ s) :: t) end.
(* utils.py:1936-1953, one character. None: an index out of range *)
Definition gstep (start end_ : str) (st : gstate) (c : ascii) : option gstate :=
  let res := if g_new st then [] :: g_res st else g_res st in
  let i := find_char start c in
  match
    (if Nat.eqb (g_n st) 0%nat then
      match i with
      | Some k => Some ([] :: res, k, 1%nat, false)
      | None => Some (res, g_ind st, g_n st, false)
      end
    else
      match nth_error start (g_ind st) with
      | None => None
      | Some s => if Ascii.eqb s c then Some (res, g_ind st, S (g_n st), false)
        else match nth_error end_ (g_ind st) with
        | None => None
        | Some e => if Ascii.eqb e c then Some (res, g_ind st, pred (g_n st), Nat.eqb (pred (g_n st)) 0%nat) else Some (res, g_ind st, g_n st, false)
        end
      end)
  with
  | None => None
  | Some (res, ind, n, new) =>
    match add_last res [c] with None => None | Some res => Some {| g_res := res; g_ind := ind; g_n := n; g_new := new |} end
  end.
Fixpoint gloop (start end_ : str) (st : gstate) (a : str) : option gstate :=
  match a with [] => Some st | c :: a' => match gstep start end_ st c with None => None | Some st' => gloop start end_ st' a' end end.
(* utils.py:1930-1954 *)
Definition split_by_group (a start end_ : str) : option (list str) :=
  option_map (fun st => rev (g_res st)) (gloop start end_ {| g_res := []; g_ind := O; g_n := O; g_new := true |} a).

(* s without the prefix p *)
Fixpoint strip (p s : str) : option str :=
  match p, s with [], _ => Some s | x :: p', y :: s' => if Ascii.eqb x y then strip p' s' else None | _ :: _, [] => None end.
(* str.split(sep): at the leftmost occurrences that do not overlap; the fuel is the length. An empty separator raises (None). *)
Fixpoint split_aux (fuel : nat) (sep cur s : str) : list str :=
  match fuel with
  | O => [cur]
  | S f => match strip sep s with
    | Some rest => cur :: split_aux f sep [] rest
    | None => match s with [] => [cur] | c :: s' => split_aux f sep (cur ++ [c]) s' end
    end
  end.
Definition py_split (s sep : str) : option (list str) :=
  match sep with [] => None | _ => Some (split_aux (S (length s)) sep [] s) end.
(* utils.py:1960-1968, the loop over the segments; res is kept in reverse *)
Fixpoint oloop (sep start : str) (res : list str) (segs : list str) : option (list str) :=
  match segs with
  | [] => Some res
  | seg :: segs' =>
    match seg with
    | [] => oloop sep start res segs'
    | c :: _ =>
      match find_char start c with
      | Some _ => match add_last res seg with None => None | Some res' => oloop sep start res' segs' end
      | None => match py_split seg sep with
        | None | Some [] => None
        | Some (t :: toks) => match add_last res t with None => None | Some res' => oloop sep start (rev toks ++ res') segs' end
        end
      end
    end
  end.
(* utils.py:1956-1969 *)
Definition split_outside (a sep start end_ : str) : option (list str) :=
  match split_by_group a start end_ with None => None | Some segs => option_map (@rev str) (oloop sep start [[]] segs) end.

(* utils.py:3531-3544, the loop *)
Fixpoint eloop (delim esc : ascii) (inesc : bool) (ostr : str) (s : str) : list str :=
  match s with
  | [] => match ostr with [] => [] | _ => [ostr] end
  | c :: s' =>
    if inesc then eloop delim esc false (if Ascii.eqb c esc then ostr else ostr ++ [c]) s'
    else if Ascii.eqb c esc then eloop delim esc true ostr s'
    else if Ascii.eqb c delim then ostr :: eloop delim esc false [] s'
    else eloop delim esc false (ostr ++ [c]) s'
  end.
(* utils.py:3522-3544 split_esc, all it yields. None: ValueError. *)
Definition split_esc (string delim esc : str) : option (list str) :=
  match delim, esc with
  | [d], [e] => Some (match string with [] => [[]] | _ => [] end ++ eloop d e false [] string)
  | _, _ => None
  end.
