(* What a timed program does: how long it takes, whether it fails, and which blocks it completes *)
From Coq Require Import List ZArith Bool.
Import ListNotations.
Open Scope Z_scope.

(* names of blocks and clocks are numbers; clock 0 is the default one. Work advances every clock by its own amount *)
Inductive prog :=
| Pass | Work (d : nat -> Z) | Fail | Seq (p q : prog) | Try (p : prog)
| Mark (name : nat) (tfun : option nat) (p : prog) | Show (name : nat) (tfun : option nat) (p : prog) | Add (name : nat) (t : Z).
Definition clock (tfun : option nat) : nat := match tfun with None => 0%nat | Some c => c end.
Fixpoint raises (p : prog) : bool :=
  match p with Pass | Work _ | Try _ | Add _ _ => false | Fail => true | Seq p q => raises p || raises q | Mark _ _ p | Show _ _ p => raises p end.
Fixpoint elapsed (p : prog) (c : nat) : Z :=
  match p with Pass | Fail | Add _ _ => 0 | Work d => d c | Seq p q => elapsed p c + (if raises p then 0 else elapsed q c) | Try p | Mark _ _ p | Show _ _ p => elapsed p c end.
(* the blocks in the order in which they end, with the time each took on its clock; a block that fails counts too *)
Fixpoint blocks (p : prog) : list (nat * Z) :=
  match p with
  | Pass | Fail | Work _ => []
  | Seq p q => blocks p ++ (if raises p then [] else blocks q)
  | Try p => blocks p
  | Mark name tfun p | Show name tfun p => blocks p ++ [(name, elapsed p (clock tfun))]
  | Add name t => [(name, t)]
  end.
Definition times (name : nat) (l : list (nat * Z)) : list Z := map snd (filter (fun e => Nat.eqb (fst e) name) l).
Definition total (l : list Z) : Z := fold_right Z.add 0 l.
