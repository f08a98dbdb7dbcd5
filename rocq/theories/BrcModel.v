(* Model of utils.broadcast_shape and utils.broadcast_arrays *)
From Coq Require Import List Arith ZArith Bool.
From Verif Require Import BrcSpec.
Import ListNotations.

(* the position that python's l[:k] and l[k:] cut at *)
Definition pycut (k : Z) (len : nat) : nat := Z.to_nat (if (k <? 0)%Z then Z.max 0 (k + Z.of_nat len) else Z.min k (Z.of_nat len)).
(* utils.py:2076-2077 shape_padded *)
Definition padded (at_ : Z) (ndim : nat) (s : list nat) : list nat :=
  let my_at := if (0 <=? at_)%Z then at_ else (Z.of_nat (length s) + 1 + at_)%Z in
  let c := pycut my_at (length s) in
  firstn c s ++ repeat 1 (ndim - length s) ++ skipn c s.
(* utils.py:2078-2082 *)
Fixpoint merge (o p : list nat) : option (list nat) :=
  match o, p with
  | a :: o', b :: p' =>
      let r := if negb (a =? b) && negb (b =? 1) then (if a =? 1 then Some b else None) else Some a in
      match r, merge o' p' with Some c, Some rest => Some (c :: rest) | _, _ => None end
  | _, _ => Some []
  end.
Fixpoint merge_all (at_ : Z) (ndim : nat) (shapes : list (list nat)) (o : list nat) : option (list nat) :=
  match shapes with
  | [] => Some o
  | s :: shapes' => match merge o (padded at_ ndim s) with None => None | Some o' => merge_all at_ ndim shapes' o' end
  end.
(* utils.py:2066-2083; None: ValueError, also for no shapes *)
Definition broadcast_shape (at_ : Z) (shapes : list (list nat)) : option (list nat) :=
  match shapes with
  | [] => None
  | _ => let ndim := fold_right (fun s m => Nat.max (length s) m) 0 shapes in merge_all at_ ndim shapes (repeat 1 ndim)
  end.

Section Arrays.
Context {T : Type}.
(* a[(slice(None),)*k + (None,)*n] for k up to the number of axes *)
Definition newaxes (k n : nat) (a : array T) : array T :=
  Arr (firstn k (shape a) ++ repeat 1 n ++ skipn k (shape a)) (fun idx => value a (firstn k idx ++ skipn (k + n) idx)).
Fixpoint stretch (s o : list nat) : bool :=
  match s, o with [], [] => true | a :: s', b :: o' => ((a =? 1) || (a =? b)) && stretch s' o' | _, _ => false end.
Fixpoint at_one (s idx : list nat) : list nat := match s, idx with a :: s', i :: idx' => (if a =? 1 then 0 else i) :: at_one s' idx' | _, _ => [] end.
(* np.broadcast_to a shape with as many axes; None: ValueError *)
Definition broadcast_to (a : array T) (o : list nat) : option (array T) :=
  if stretch (shape a) o then Some (Arr o (fun idx => value a (at_one (shape a) idx))) else None.
(* an argument: an array with its npre and npost, or None *)
Definition arg := option ((nat * nat) * array T).
Definition wshape (n m : nat) (a : array T) : list nat := firstn (length (shape a) - n - m) (skipn n (shape a)).
Fixpoint wshapes (args : list arg) : list (list nat) :=
  match args with [] => [] | None :: args' => wshapes args' | Some ((n, m), a) :: args' => wshape n m a :: wshapes args' end.
(* utils.py:2106-2110; None: an error *)
Definition broadcast_one (at_ : Z) (oshape : list nat) (n m : nat) (a : array T) : option (array T) :=
  let ndim := length (shape a) in
  let ninsert := length oshape - (ndim - n - m) in
  let my_at := if (0 <=? at_)%Z then (Z.of_nat n + at_)%Z else (Z.of_nat ndim + 1 + at_ - Z.of_nat m)%Z in
  if (Z.of_nat ndim <? my_at)%Z then None else
  broadcast_to (newaxes (Z.to_nat my_at) ninsert a) (firstn n (shape a) ++ oshape ++ skipn (ndim - m) (shape a)).
Fixpoint broadcast_each (at_ : Z) (oshape : list nat) (args : list arg) : option (list (option (array T))) :=
  match args with
  | [] => Some []
  | None :: args' => match broadcast_each at_ oshape args' with None => None | Some r => Some (None :: r) end
  | Some ((n, m), a) :: args' =>
      match broadcast_one at_ oshape n m a, broadcast_each at_ oshape args' with Some b, Some r => Some (Some b :: r) | _, _ => None end
  end.
(* utils.py:2085-2110 *)
Definition broadcast_arrays (at_ : Z) (args : list arg) : option (list (option (array T))) :=
  match broadcast_shape at_ (wshapes args) with None => None | Some oshape => broadcast_each at_ oshape args end.
End Arrays.
