(* Models of enmap.write_hdf, read_hdf and read_hdf_geometry, on a file given as the list of its objects. Without extra; the parts of read_hdf that
   select (read_helper) are not modelled. *)
From Coq Require Import List String Bool.
Import ListNotations.

Section H.
Context {D W V : Type}.          (* arrays, coordinate systems, values of header cards *)
Variable to_header : W -> list (string * V).          (* astropy: wcs.to_header *)
Variable of_header : list (string * V) -> option W.   (* astropy: WCS(header) *)

Inductive object := Group | Array (d : D) | Card (v : V).
Definition path := list string.
Definition file := list (path * object).

Fixpoint prefixb (p q : path) : bool :=
  match p, q with [], _ => true | a :: p', b :: q' => String.eqb a b && prefixb p' q' | _, _ => false end.
Definition is_group (o : object) : bool := match o with Group => true | _ => false end.
(* h5py: address in hfile, del hfile[address], and putting something at a path that has nothing yet. Groups on the way need not exist.
   None: an exception: there is something already, or a dataset on the way *)
Definition has (f : file) (p : path) : bool := existsb (fun e => prefixb p (fst e)) f.
Definition del (f : file) (p : path) : file := filter (fun e => negb (prefixb p (fst e))) f.
Definition put (f : file) (p : path) (o : object) : option file :=
  if has f p || existsb (fun e => negb (is_group (snd e)) && prefixb (fst e) p) f then None else Some (f ++ [(p, o)]).

Fixpoint put_cards (f : file) (p : path) (h : list (string * V)) : option file :=
  match h with
  | [] => Some f
  | (k, v) :: h' => match put f (p ++ ["wcs"%string; k]) (Card v) with None => None | Some f' => put_cards f' p h' end
  end.
(* enmap.py:2835-2870 write_hdf of the map (data, wcs) into the file f; address None opens it in mode "w", which empties it *)
Definition write_hdf (f : file) (address : option path) (m : D * W) : option file :=
  match (match address with
         | None => Some ([], [])
         | Some p => let f := if has f p then del f p else f in match put f p Group with None => None | Some f => Some (f, p) end
         end) with
  | None => None
  | Some (f, p) => match put f (p ++ ["data"%string]) (Array (fst m)) with None => None | Some f => put_cards f p (to_header (snd m)) end
  end.

Fixpoint eqpath (p q : path) : bool := match p, q with [], [] => true | a :: p', b :: q' => String.eqb a b && eqpath p' q' | _, _ => false end.
(* hfile["data"] of the group at p *)
Definition data_of (f : file) (p : path) : option D :=
  match filter (fun e => eqpath (p ++ ["data"%string]) (fst e)) f with (_, Array d) :: _ => Some d | _ => None end.
(* the keys and values in hfile["wcs"] *)
Fixpoint last_key (p q : path) : option string := (* the k with q = p ++ [k] *)
  match p, q with [], [k] => Some k | a :: p', b :: q' => if String.eqb a b then last_key p' q' else None | _, _ => None end.
Definition card_at (p : path) (e : path * object) : list (string * V) :=
  match last_key (p ++ ["wcs"%string]) (fst e), snd e with Some k, Card v => [(k, v)] | _, _ => [] end.
Definition cards_of (f : file) (p : path) : list (string * V) := flat_map (card_at p) f.
(* enmap.py:2872-2903 read_hdf; None: KeyError, or no coordinate system in the header. h5py goes through the keys in alphabetical order: order *)
Variable order : list (string * V) -> list (string * V).
Definition read_hdf (f : file) (address : option path) : option (D * W) :=
  let p := match address with None => [] | Some p => p end in
  match data_of f p with
  | None => None
  | Some d =>
      if has f (p ++ ["wcs"%string])
      then match of_header (order (cards_of f p)) with None => None | Some w => Some (d, w) end
      else None
  end.

(* a history of writes to a file that did not exist; None: one of them raised *)
Fixpoint run (f : file) (ops : list (option path * (D * W))) : option file :=
  match ops with [] => Some f | (a, m) :: ops' => match write_hdf f a m with None => None | Some f' => run f' ops' end end.
End H.
