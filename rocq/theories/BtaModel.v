(* Model of utils.between_angles, utils.hasoff and wcsutils.is_compatible, on exact rationals *)
From Coq Require Import List ZArith QArith Qabs Qround Qminmax.
From Verif Require Import WindModel BtaSpec.
Import ListNotations.
Open Scope Q_scope.

Definition lt_bool (a b : Q) : bool := negb (Qle_bool b a).
(* utils.py:1136-1138, a single angle. np.mean of the two ends *)
Definition between_angles (a lo hi period : Q) : bool :=
  let a := rewind ((lo + hi) / 2) period a in
  andb (Qle_bool lo a) (lt_bool a hi).
(* utils.py:1140-1144 *)
Definition hasoff (val off tol : Q) : bool := lt_bool (Qabs (qmod (val - off + (1 # 2)) 1 - (1 # 2))) tol.

(* The cards of a header that matter here: the kind of projection (CTYPE and so on, always written) and the elements of the matrix
   that are not those of the identity (to_header of astropy leaves the others out). CRVAL, CRPIX and CDELT are skipped by the code *)
Definition card (n : nat) (x dflt : Q) : list (nat * Q) := if Qeq_bool x dflt then [] else [(n, x)].
Definition to_header (w : wcs) : list (nat * Q) :=
  (0%nat, inject_Z (Z.of_nat (kind w))) :: card 1 (fst (fst (pc w))) 1 ++ card 2 (snd (fst (pc w))) 0 ++ card 3 (fst (snd (pc w))) 0 ++ card 4 (snd (snd (pc w))) 1.
Definition lookup (h : list (nat * Q)) (k : nat) : option Q := option_map snd (find (fun e => Nat.eqb (fst e) k) h).
(* wcsutils.py:152-157: only the keys in both are compared *)
Definition same_headers (h1 h2 : list (nat * Q)) : bool :=
  forallb (fun e => match lookup h2 (fst e) with Some x => Qeq_bool x (snd e) | None => true end) h1.
Definition map2 (f : Q -> Q -> Q) (a b : Q * Q) : Q * Q := (f (fst a) (fst b), f (snd a) (snd b)).
Definition amax (a : Q * Q) : Q := Qmax (Qabs (fst a)) (Qabs (snd a)).
Definition amin (a : Q * Q) : Q := Qmin (Qabs (fst a)) (Qabs (snd a)).
(* wcsutils.py:145-163 *)
Definition is_compatible (w1 w2 : wcs) (tol : Q) : bool :=
  if negb (same_headers (to_header w1) (to_header w2)) then false
  else if lt_bool tol (amax (map2 Qminus (cdelt w1) (cdelt w2)) / amin (cdelt w1)) then false
  else
    let crdelt := map2 Qminus (crval w1) (crval w2) in
    let cpdelt := map2 Qminus (crpix w1) (crpix w2) in
    let sub := fun c p d => qmod (c / d - p + (1 # 2)) 1 - (1 # 2) in
    let subpix := (sub (fst crdelt) (fst cpdelt) (fst (cdelt w1)), sub (snd crdelt) (snd cpdelt) (snd (cdelt w1))) in
    if lt_bool tol (amax subpix) then false else true.
