(* Models of the loops over components by spin. *)
From Verif Require Import Base IterModel.

(* how a generator ends *)
Inductive ending := Done | Raised | OutOfFuel.

(* enmap.py:3180: 1+(spin!=0) *)
Definition scomp (s : Z) : Z := 1 + (if s =? 0 then 0 else 1).

(* enmap.py:3182-3188, also 3206-3213: the groups yielded from state (ci, i1) on *)
Fixpoint spin_loop (fuel : nat) (spin : list Z) (n : Z) (ci : nat) (i1 : Z) : list (Z * Z * Z) * ending :=
  match fuel with
  | O => ([], OutOfFuel)
  | S fuel =>
      match nth_error spin ci with
      | None => ([], Raised)
      | Some s =>
          let i2 := Z.min (i1 + scomp s) n in
          if negb (i2 - i1 =? scomp s) then ([], Raised)
          else if i2 =? n then ([(s, i1, i2)], Done)
          else let '(gs, e) := spin_loop fuel spin n (Nat.modulo (ci + 1) (length spin)) i2 in ((s, i1, i2) :: gs, e)
      end
  end.

(* enmap.py:3178-3188 spin_helper *)
Definition spin_helper (fuel : nat) (spin : list Z) (n : Z) : list (Z * Z * Z) * ending := spin_loop fuel spin n 0 0.

(* for every tuple of the pre-dimensions in turn; an exception ends the whole *)
Fixpoint over_pre {A B} (pres : list A) (gen : list B * ending) : list (A * B) * ending :=
  match pres with
  | [] => ([], Done)
  | p :: r => let here := map (pair p) (fst gen) in
              match snd gen with
              | Done => let '(gs, e) := over_pre r gen in (here ++ gs, e)
              | e => (here, e)
              end
  end.

(* enmap.py:3190-3213 spin_pre_helper for a non-empty pre; the index of an output is (tuple, (spin, i1, i2)).
   For an empty pre the code yields the single pair 0,(None,). *)
Definition spin_pre_helper (fuel : nat) (spin : list Z) (pre : list Z) : list (list (option Z) * (Z * Z * Z)) * ending :=
  match nditer fuel (removelast pre) None with
  | None => ([], OutOfFuel)
  | Some pres => over_pre pres (spin_loop fuel spin (last pre 0) 0 0)
  end.
