(* Models of small functions of utils.py on whole numbers: prime factors and counters with several bases. *)
From Coq Require Import ZArith List.
From Verif Require Import Base.
Import ListNotations.
Local Open Scope Z_scope.

(* utils.py:3507-3513, the while loop. The fuel is proved to be enough. *)
Fixpoint ploop (fuel : nat) (i n : Z) (factors : list Z) : option (list Z * Z) :=
  match fuel with
  | O => None
  | S f =>
    if i * i <=? n then
      if n mod i =? 0 then ploop f i (n / i) (factors ++ [i]) else ploop f (i + 1) n factors
    else Some (factors, n)
  end.
(* utils.py:3502-3515. None: more steps than twice the number, which does not happen. *)
Definition primes (n : Z) : option (list Z) :=
  match ploop (S (Z.to_nat (2 * n))) 2 n [] with
  | None => None
  | Some (factors, n) => Some (if 1 <? n then factors ++ [n] else factors)
  end.

(* utils.py:2811-2819: the for loop over i from the last digit to the first, on the digits in reverse. A digit that is incremented below its base ends the
   loop (break); otherwise it and the ones after it, which are zero already, are set to zero. None: the loop ended without a break. *)
Fixpoint increment (bases digits : list Z) : option (list Z) :=
  match bases, digits with
  | b :: bases', d :: digits' =>
    if d + 1 <? b then Some ((d + 1) :: digits')
    else match increment bases' digits' with None => None | Some r => Some (0 :: r) end
  | _, _ => None
  end.
(* utils.py:2814-2821, the while loop: what is yielded, one after the other. The fuel is an upper bound on the number of steps. *)
Fixpoint cloop (fuel : nat) (bases digits : list Z) : list (list Z) :=
  match fuel with
  | O => []
  | S f => match increment (rev bases) (rev digits) with None => [] | Some d => rev d :: cloop f bases (rev d) end
  end.
(* utils.py:2804-2820 count_variable_basis; the values at the time they are yielded *)
Definition count_variable_basis (bases : list Z) : list (list Z) :=
  let zero := repeat 0 (length bases) in
  zero :: cloop (Z.to_nat (fold_right Z.mul 1 (map (Z.max 1) bases))) bases zero.
(* utils.py:2813, 2820: the same list object is yielded every time, so that a list of what was yielded holds it many times, with what it has at the end:
   zeros, since the last for loop sets every digit to zero *)
Definition collected (bases : list Z) : list (list Z) := map (fun _ => repeat 0 (length bases)) (count_variable_basis bases).
(* [v[i] for v,i in zip(ilist,I)]; None: IndexError *)
Fixpoint pick {A} (ilist : list (list A)) (I : list Z) : option (list A) :=
  match ilist, I with
  | v :: ilist', i :: I' => match zget v i, pick ilist' I' with Some x, Some r => Some (x :: r) | _, _ => None end
  | _, _ => Some []
  end.
(* utils.py:2822-2826 list_combination_iter, all that is yielded, each None standing for an IndexError *)
Definition list_combination_iter {A} (ilist : list (list A)) : list (option (list A)) :=
  map (pick ilist) (count_variable_basis (map (fun v => zlen v) ilist)).
