(* Model of bench.Bench: times are whole numbers instead of floats *)
From Coq Require Import List ZArith Bool.
From Verif Require Import BchSpec.
Import ListNotations.
Open Scope Z_scope.

(* bench.py:54-58, a Bunch is a partial map *)
Record bench := Bench { b_t : nat -> option Z; b_tot : nat -> option Z; b_n : nat -> option Z }.
Definition empty : bench := Bench (fun _ => None) (fun _ => None) (fun _ => None).
Definition set (m : nat -> option Z) (name : nat) (v : option Z) : nat -> option Z := fun k => if Nat.eqb k name then v else m k.
Definition plus (m : nat -> option Z) (name : nat) (v : Z) : nat -> option Z := set m name (option_map (fun x => x + v) (m name)).
(* bench.py:76-82 *)
Definition add (b : bench) (name : nat) (t : Z) : bench :=
  let b := match b_n b name with None => Bench (b_t b) (set (b_tot b) name (Some 0)) (set (b_n b) name (Some 0)) | Some _ => b end in
  Bench (set (b_t b) name (Some t)) (plus (b_tot b) name t) (plus (b_n b) name 1).
(* the state: the clocks, the statistics, and the lines printed: name, last, total and number *)
Record state := State { clocks : nat -> Z; stats : bench; lines : list (nat * (option Z * option Z * option Z)) }.
Definition read (s : state) (tfun : option nat) : Z := clocks s (match tfun with None => 0%nat | Some c => c end).
(* bench.py:59-67 mark, around a block that has been run *)
Definition mark (name : nat) (tfun : option nat) (block : state -> state * bool) (s : state) : state * bool :=
  let t1 := read s tfun in
  let '(s, r) := block s in
  let t2 := read s tfun in
  (State (clocks s) (add (stats s) name (t2 - t1)) (lines s), r).
(* bench.py:68-75 show, 83-84 print *)
Definition show (name : nat) (tfun : option nat) (block : state -> state * bool) (s : state) : state * bool :=
  let '(s, r) := mark name None block s in
  (State (clocks s) (stats s) (lines s ++ [(name, (b_t (stats s) name, b_tot (stats s) name, b_n (stats s) name))]), r).
(* python: run a program; the flag says that an exception is on its way *)
Fixpoint run (p : prog) (s : state) : state * bool :=
  match p with
  | Pass => (s, false)
  | Work d => (State (fun c => clocks s c + d c) (stats s) (lines s), false)
  | Fail => (s, true)
  | Seq p q => let '(s, r) := run p s in if r then (s, true) else run q s
  | Try p => (fst (run p s), false)
  | Mark name tfun p => mark name tfun (run p) s
  | Show name tfun p => show name tfun (run p) s
  | Add name t => (State (clocks s) (add (stats s) name t) (lines s), false)
  end.
