(* Model of pixell/bunch.py: the Bunch class, its files and concatenate. *)
From Coq Require Import List Ascii String ZArith QArith Qround Bool Arith.
From Verif Require Import BunSpec.
Import ListNotations.
Local Open Scope string_scope.
Local Open Scope list_scope.

(* ---------------------------------------------------------------- *)
(* Python dictionaries: pairs in insertion order.                    *)

(* Simplification: values are numbers or references to bunches, names are
   strings. *)
Definition dict := list (string * value).

(* d[k], python's built-in lookup used in bunch.py:14-28 *)
Fixpoint dget (d : dict) (k : string) : option value :=
  match d with
  | [] => None
  | (k', v) :: d' => if string_dec k' k then Some v else dget d' k
  end.
(* d[k] = v: in place if the name is there, at the end otherwise *)
Fixpoint dset (d : dict) (k : string) (v : value) : dict :=
  match d with
  | [] => [(k, v)]
  | (k', v') :: d' => if string_dec k' k then (k', v) :: d' else (k', v') :: dset d' k v
  end.
(* del d[k] of a name that is there *)
Fixpoint ddel (d : dict) (k : string) : dict :=
  match d with
  | [] => []
  | (k', v') :: d' => if string_dec k' k then d' else (k', v') :: ddel d' k
  end.
(* d.update(e), for e a dictionary or a bunch (python asks it for keys() and items) *)
Definition dupdate (d e : dict) : dict := fold_left (fun d kv => dset d (fst kv) (snd kv)) e d.

(* A bunch: its instance dictionary has one entry, _dict, which can be deleted
   (bunch.py:6-10). *)
Definition obj := option dict.
Definition heap := list obj.

Inductive err : Type := KeyError | AttributeError | NoObject.
Inductive res (A : Type) : Type := Ok (a : A) | Err (e : err).
Arguments Ok {A} a.
Arguments Err {A} e.

(* self._dict (bunch.py:8, and in all methods): the instance dictionary; without
   it __getattr__ looks for "_dict" in self.__dict__ and raises KeyError (17) *)
Definition dict_of (h : heap) (i : nat) : res dict :=
  match nth_error h i with
  | Some (Some d) => Ok d
  | Some None => Err KeyError
  | None => Err NoObject
  end.
Definition set_obj (h : heap) (i : nat) (o : obj) : heap :=
  firstn i h ++ [o] ++ skipn (S i) h.

(* bunch.py:6-10 *)
Fixpoint init (h : heap) (d : dict) (args : list nat) : res dict :=
  match args with
  | [] => Ok d
  | j :: args' =>
      match dict_of h j with
      | Ok e => init h (dupdate d e) args'
      | Err e => Err e
      end
  end.

(* the result of an attribute: a stored value, or something python finds first *)
Inductive attr : Type := AValue (v : value) | ADict | AMethod (name : string).

(* bunch.py:11-18, after python's own lookup of the instance and class (24, 26, 32-47):
   python finds _dict in the instance and the methods in the class before it calls
   __getattr__. All other names that python finds first begin with two
   underscores; here they raise AttributeError. *)
Definition getattr (h : heap) (i : nat) (k : string) : res attr :=
  match nth_error h i with
  | None => Err NoObject
  | Some o =>
      if string_dec k "_dict" then (match o with Some _ => Ok ADict | None => Err KeyError end)
      else if in_dec string_dec k ["keys"; "items"; "iteritems"; "copy"; "update"]
      then Ok (AMethod k)
      else if prefix "__" k then Err AttributeError
      else match dict_of h i with
           | Err e => Err e
           | Ok d => match dget d k with Some v => Ok (AValue v) | None => Err AttributeError end
           end
  end.
(* bunch.py:24-25 *)
Definition getitem (h : heap) (i : nat) (k : string) : res value :=
  match dict_of h i with
  | Err e => Err e
  | Ok d => match dget d k with Some v => Ok v | None => Err KeyError end
  end.
(* bunch.py:36-37 *)
Definition contains (h : heap) (i : nat) (k : string) : res bool :=
  match dict_of h i with
  | Err e => Err e
  | Ok d => Ok (match dget d k with Some _ => true | None => false end)
  end.
(* bunch.py:40-46: iteration, keys(), len and items() *)
Definition keys (h : heap) (i : nat) : res (list string) :=
  match dict_of h i with Err e => Err e | Ok d => Ok (map fst d) end.
Definition len (h : heap) (i : nat) : res nat :=
  match dict_of h i with Err e => Err e | Ok d => Ok (List.length d) end.
Definition items (h : heap) (i : nat) : res (list (string * value)) :=
  match dict_of h i with Err e => Err e | Ok d => Ok d end.

(* bunch.py:19-23: the object has its _dict after __init__; if that was deleted the
   value goes to the instance dictionary, which is not modelled further *)
Definition setattr (h : heap) (i : nat) (k : string) (v : value) : res heap :=
  match dict_of h i with
  | Err e => Err e
  | Ok d => Ok (set_obj h i (Some (dset d k v)))
  end.
(* bunch.py:26-27 *)
Definition setitem (h : heap) (i : nat) (k : string) (v : value) : res heap :=
  match dict_of h i with
  | Err e => Err e
  | Ok d => Ok (set_obj h i (Some (dset d k v)))
  end.
(* bunch.py:28-32: the instance dictionary has no name but _dict *)
Definition delattr (h : heap) (i : nat) (k : string) : res heap :=
  match dict_of h i with
  | Err e => Err e
  | Ok d =>
      match dget d k with
      | Some _ => Ok (set_obj h i (Some (ddel d k)))
      | None => if string_dec k "_dict" then Ok (set_obj h i None) else Err KeyError
      end
  end.
(* bunch.py:33-34 *)
Definition delitem (h : heap) (i : nat) (k : string) : res heap := delattr h i k.

(* bunch.py:6-10, 47-49 *)
Definition step (h : heap) (o : op) : res heap :=
  match o with
  | ONew from kw =>
      match init h [] from with
      | Ok d => Ok (h ++ [Some (dupdate d kw)])
      | Err e => Err e
      end
  | OSetAttr i k v => setattr h i k v
  | OSetItem i k v => setitem h i k v
  | ODelAttr i k => delattr h i k
  | ODelItem i k => delitem h i k
  | OUpdate i j =>
      match dict_of h i, dict_of h j with
      | Ok d, Ok e => Ok (set_obj h i (Some (dupdate d e)))
      | Err e, _ => Err e
      | _, Err e => Err e
      end
  | OCopy i =>
      match dict_of h i with
      | Ok d => Ok (h ++ [Some (dupdate [] d)])
      | Err e => Err e
      end
  end.
(* a program stops at the first exception *)
Fixpoint run (h : heap) (l : list op) : res heap :=
  match l with
  | [] => Ok h
  | o :: l' => match step h o with Ok h' => run h' l' | Err e => Err e end
  end.

(* ---------------------------------------------------------------- *)
(* HDF files.                                                         *)

(* A group of an hdf file: its members; h5py iterates over them in the order of
   their names. *)
Inductive hdf : Type :=
| HData (v : Z)
| HGroup (kids : list (string * hdf)).

Fixpoint hget (kids : list (string * hdf)) (k : string) : option hdf :=
  match kids with
  | [] => None
  | (k', x) :: kids' => if string_dec k' k then Some x else hget kids' k
  end.
Fixpoint hset (kids : list (string * hdf)) (k : string) (x : hdf) : list (string * hdf) :=
  match kids with
  | [] => [(k, x)]
  | (k', x') :: kids' => if string_dec k' k then (k', x) :: kids' else (k', x') :: hset kids' k x
  end.

(* str.split("/"), bunch.py:132; also how hdf reads a path *)
Fixpoint split_slash (s : string) : list string :=
  match s with
  | EmptyString => [""]
  | String c s' =>
      if Ascii.ascii_dec c slash then "" :: split_slash s'
      else match split_slash s' with
           | t :: ts => String c t :: ts
           | [] => [String c ""]
           end
  end.
(* the steps of a path in an hdf file: empty ones and "." stay where they are.
   Simplification: a path in a group that begins with a slash is taken to be relative
   to that group, as it is for the root. *)
Definition steps (s : string) : list string :=
  filter (fun t => negb (String.eqb t "") && negb (String.eqb t ".")) (split_slash s).

(* h5py's create_group(path) and group[path] = data: make the groups on the way,
   and put x at the end; fails if something is there, or in the way *)
Fixpoint hput (g : hdf) (path : list string) (x : hdf) : option hdf :=
  match g, path with
  | _, [] => None
  | HData _, _ => None
  | HGroup kids, [k] =>
      match hget kids k with Some _ => None | None => Some (HGroup (hset kids k x)) end
  | HGroup kids, k :: path' =>
      let sub := match hget kids k with Some s => s | None => HGroup [] end in
      match hput sub path' x with
      | Some s' => Some (HGroup (hset kids k s'))
      | None => None
      end
  end.
(* group[path] *)
Fixpoint hfind (g : hdf) (path : list string) : option hdf :=
  match path with
  | [] => Some g
  | k :: path' =>
      match g with
      | HData _ => None
      | HGroup kids => match hget kids k with Some s => hfind s path' | None => None end
      end
  end.
(* put back a changed group, python's effect of writing through hfile[key] *)
Fixpoint hmod (g : hdf) (path : list string) (s : hdf) : hdf :=
  match path with
  | [] => s
  | k :: path' =>
      match g with
      | HData v => HData v
      | HGroup kids =>
          match hget kids k with
          | Some s0 => HGroup (hset kids k (hmod s0 path' s))
          | None => HGroup kids
          end
      end
  end.

(* bunch.py:87-93: the groups of a bunch that holds bunches are written in place *)
Fixpoint write_rec (t : tree) (g : hdf) : option hdf :=
  match t with
  | Leaf _ => None
  | Node kids =>
      (fix each (kids : list (string * tree)) (g : hdf) : option hdf :=
         match kids with
         | [] => Some g
         | (k, sub) :: kids' =>
             match sub with
             | Leaf v =>
                 match hput g (steps k) (HData v) with
                 | Some g' => each kids' g'
                 | None => None
                 end
             | Node _ =>
                 match hput g (steps k) (HGroup []) with
                 | Some g' =>
                     match hfind g' (steps k) with
                     | Some s =>
                         match write_rec sub s with
                         | Some s' => each kids' (hmod g' (steps k) s')
                         | None => None
                         end
                     | None => None
                     end
                 | None => None
                 end
             end
         end) kids g
  end.

(* h5py's iteration: members by name *)
Fixpoint insert {A} (kx : string * A) (l : list (string * A)) : list (string * A) :=
  match l with
  | [] => [kx]
  | ky :: l' => if String.leb (fst kx) (fst ky) then kx :: l else ky :: insert kx l'
  end.
Definition by_name {A} (l : list (string * A)) : list (string * A) := fold_right insert [] l.

(* setting a name of a new bunch, bunch.py:26-27 *)
Fixpoint tset (kids : list (string * tree)) (k : string) (t : tree) : list (string * tree) :=
  match kids with
  | [] => [(k, t)]
  | (k', t') :: kids' => if string_dec k' k then (k', t) :: kids' else (k', t') :: tset kids' k t
  end.
(* bunch.py:70-78 *)
Fixpoint read_rec (g : hdf) : tree :=
  match g with
  | HData v => Leaf v
  | HGroup kids =>
      let sub := map (fun kx => (fst kx, read_rec (snd kx))) kids in
      Node (fold_left (fun b kt => tset b (fst kt) (snd kt)) (by_name sub) [])
  end.

Inductive mode : Type := MDot | MExists | MNone.

(* the search from the end, bunch.py:135-142: the last position that satisfies P *)
Fixpoint last_such (P : nat -> bool) (n : nat) : option nat :=
  match n with
  | O => None
  | S m => if P m then Some m else last_such P m
  end.
(* bunch.py:111-152; isfile is os.path.isfile, None stands for the ValueErrors *)
Definition split_hdf_path (isfile : string -> bool) (fname : string) (subgroup : option string)
           (m : mode) : option (string * option string) :=
  let toks := split_slash fname in
  let i := match m with
           | MDot => last_such (fun i => has_char dot (nth i toks "")) (List.length toks)
           | MExists => last_such (fun i => isfile (join (firstn (S i) toks))) (List.length toks)
           | MNone => Some (List.length toks)
           end in
  match i with
  | None => None
  | Some i =>
      let gtoks := skipn (S i) toks ++
                   (match subgroup with Some s => if String.eqb s "" then [] else [s] | None => [] end) in
      Some (join (firstn (S i) toks), if (0 <? List.length gtoks)%nat then Some (join gtoks) else None)
  end.

(* the files on disk *)
Definition disk := string -> option hdf.

(* which file and group a name and group argument stand for, bunch.py:65-66 and 82-83 *)
Definition place (isfile : string -> bool) (fname : string) (group : option string) (m : mode)
  : option (string * option string) :=
  match group with
  | None => split_hdf_path isfile fname None m
  | Some g => Some (fname, Some g)
  end.
(* an empty group name counts as none: "if group", bunch.py:68 and 85 *)
Definition truthy (g : option string) : option string :=
  match g with Some s => if String.eqb s "" then None else Some s | None => None end.

Definition is_some {A} (o : option A) : bool := match o with Some _ => true | None => false end.

(* bunch.py:57-60, 79-86: the file is emptied first ("w") *)
Definition write_hdf (ds : disk) (fname : string) (b : tree) (group : option string) (m : mode)
  : option disk :=
  match place (fun s => is_some (ds s)) fname group m with
  | None => None
  | Some (f, g) =>
      let root :=
        match truthy g with
        | None => write_rec b (HGroup [])
        | Some s =>
            match hput (HGroup []) (steps s) (HGroup []) with
            | None => None
            | Some r => match write_rec b (HGroup []) with
                        | Some x => Some (hmod r (steps s) x)
                        | None => None
                        end
            end
        end in
      match root with
      | Some r => Some (fun f' => if string_dec f f' then Some r else ds f')
      | None => None
      end
  end.
(* bunch.py:52-55, 62-69 *)
Definition read_hdf (ds : disk) (fname : string) (group : option string) (m : mode) : option tree :=
  match place (fun s => is_some (ds s)) fname group m with
  | None => None
  | Some (f, g) =>
      match ds f with
      | None => None
      | Some r =>
          match truthy g with
          | None => Some (read_rec r)
          | Some s => match hfind r (steps s) with Some x => Some (read_rec x) | None => None end
          end
      end
  end.

(* ---------------------------------------------------------------- *)
(* concatenate                                                        *)

Definition nbunch := list (string * num).
Fixpoint nget (b : nbunch) (k : string) : option num :=
  match b with
  | [] => None
  | (k', v) :: b' => if string_dec k' k then Some v else nget b' k
  end.
(* numpy's conversion when an array of the type of "first" is filled, bunch.py:168-169:
   fractions lose their fractional part (towards zero) in an integer array *)
Definition cast (first x : num) : num :=
  match first, x with
  | NInt _, NInt z => NInt z
  | NInt _, NFrac q => NInt (Z.quot (Qnum q) (Z.pos (Qden q)))
  | NFrac _, NInt z => NFrac (inject_Z z)
  | NFrac _, NFrac q => NFrac q
  end.
(* the lists of bunch.py:160-162; None is the KeyError of a missing name *)
Fixpoint column (bs : list nbunch) (k : string) : option (list num) :=
  match bs with
  | [] => Some []
  | b :: bs' =>
      match nget b k, column bs' k with
      | Some v, Some l => Some (v :: l)
      | _, _ => None
      end
  end.
Fixpoint columns (bs : list nbunch) (ks : list string) : option (list (string * list num)) :=
  match ks with
  | [] => Some []
  | k :: ks' =>
      match column bs k, columns bs ks' with
      | Some l, Some r =>
          (* bunch.py:165-170 *)
          let l' := match l with [] => [] | first :: _ => map (cast first) l end in
          Some ((k, l') :: r)
      | _, _ => None
      end
  end.
(* bunch.py:154-172; None for no bunches is the IndexError of bunches[0] *)
Definition concatenate (bs : list nbunch) : option (list (string * list num)) :=
  match bs with
  | [] => None
  | b :: _ => columns bs (map fst b)
  end.
