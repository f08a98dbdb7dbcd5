(* Model of utils.nditer. *)
From Verif Require Import Base.

(* sorted() on a list of ints *)
Fixpoint insert (x : nat) (l : list nat) : list nat :=
  match l with [] => [x] | y :: r => if (x <=? y)%nat then x :: l else y :: insert x r end.
Fixpoint sort (l : list nat) : list nat := match l with [] => [] | x :: r => insert x (sort r) end.

(* l[i] = v *)
Fixpoint set_nth {A} (l : list A) (i : nat) (v : A) : list A :=
  match l, i with
  | [], _ => []
  | _ :: r, O => v :: r
  | x :: r, S i => x :: set_nth r i v
  end.

(* utils.py:3426-3427: the axes to iterate over, last one first. None: ax%0 *)
Definition nditer_axes (ndim : nat) (axes : option (list Z)) : option (list nat) :=
  match axes with
  | None => Some (rev (seq 0 ndim))
  | Some l => match l, ndim with
              | [], _ => Some []
              | _, O => None
              | _, _ => Some (rev (sort (map (fun a => Z.to_nat (a mod Z.of_nat ndim)) l)))
              end
  end.

(* utils.py:3432-3437: the for/else over the axes. true: found an axis to step (break) *)
Fixpoint advance (shape : list Z) (axes : list nat) (I : list (option Z)) : bool * list (option Z) :=
  match axes with
  | [] => (false, I)
  | ax :: r =>
      let v := match nth_error I ax with Some (Some k) => k + 1 | _ => 0 end in
      if v <? nth ax shape 0 then (true, set_nth I ax (Some v))
      else advance shape r (set_nth I ax (Some 0))
  end.

(* utils.py:3430-3437: the tuples yielded; None if not finished after fuel yields *)
Fixpoint nditer_loop (fuel : nat) (shape : list Z) (axes : list nat) (I : list (option Z)) : option (list (list (option Z))) :=
  match fuel with
  | O => None
  | S fuel => match advance shape axes I with
              | (true, I') => option_map (cons I) (nditer_loop fuel shape axes I')
              | (false, _) => Some [I]
              end
  end.

(* utils.py:3420-3437 nditer *)
Definition nditer (fuel : nat) (shape : list Z) (axes : option (list Z)) : option (list (list (option Z))) :=
  match nditer_axes (length shape) axes with
  | None => None
  | Some axs => nditer_loop fuel shape axs (fold_left (fun I ax => set_nth I ax (Some 0)) axs (repeat None (length shape)))
  end.
