(* Model of the wavelet filter bases of pixell/wavelets.py, with exact real arithmetic. *)
From Coq Require Import Reals Lra List Lia ZArith Bool.
Import ListNotations.
Local Open Scope R_scope.

(* x**p for x >= 0 and p > 0 (Rpower is exp(p*ln x), which is not 0 at x = 0) *)
Definition pow0 (x p : R) : R := if Req_EM_T x 0 then 0 else Rpower x p.

(* wavelets.py:39-40 Butterworth.kernel *)
Definition butter_kernel (step shape lmin : R) (i : nat) (l : R) : R :=
  1 / (1 + pow0 (l / (lmin * Rpower step (INR i + 1/2))) (shape / ln step)).
(* wavelets.py:455 trim_kernel: np.clip(a*(1+2*tol)-tol,0,1) *)
Definition trim_kernel (a tol : R) : R := Rmin (Rmax (a * (1 + 2 * tol) - tol) 0) 1.
(* wavelets.py:68-69 ButterTrim.kernel, 95-96 DigitalButterTrim.kernel *)
Definition trimmed_kernel (step shape lmin trim : R) (i : nat) (l : R) : R := trim_kernel (butter_kernel step shape lmin i l) trim.

(* wavelets.py:33-35 and 62-64: the profile of which __call__ takes the square root; n is the number of scales *)
Definition profile (kernel : nat -> R -> R) (n i : nat) (l : R) : R :=
  (if Nat.eqb i (n - 1) then 1 else kernel i l) - (if Nat.ltb 0 i then kernel (i - 1)%nat l else 0).
(* wavelets.py:32-36, 61-65 __call__ *)
Definition filter_at (kernel : nat -> R -> R) (n i : nat) (l : R) : R := sqrt (profile kernel n i l).
Definition butterworth (step shape lmin : R) (n i : nat) (l : R) : R := filter_at (butter_kernel step shape lmin) n i l.
Definition buttertrim (step shape lmin trim : R) (n i : nat) (l : R) : R := filter_at (trimmed_kernel step shape lmin trim) n i l.

(* int(x) *)
Definition trunc (x : R) : Z := if Rle_dec 0 x then Int_part x else (- Int_part (- x))%Z.
(* wavelets.py:42, 71, 98: the number of scales; None when lmaxs[-1] = lmax raises because there are none *)
Definition nscale (step lmin lmax : R) : option nat :=
  let n := trunc ((ln lmax - ln lmin) / ln step) in if (n <=? 0)%Z then None else Some (Z.to_nat n).
(* wavelets.py:74: lmaxs[i] of ButterTrim before rounding up, for i < n-1 *)
Definition trim_lmax (step shape lmin trim : R) (i : nat) : R :=
  lmin * Rpower ((1 + 2 * trim) / trim - 1) (ln step / shape) * Rpower step (INR i + 1/2).

(* wavelets.py:145-157 CosineNeedlet.__call__ at one multipole *)
Definition cosine (lpeaks : list R) (i : nat) (l : R) : R :=
  let p k := nth k lpeaks 0 in
  let out := if Nat.ltb 0 i then (if Rle_dec (p (i - 1)%nat) l then if Rlt_dec l (p i) then cos (PI * (p i - l) / (p i - p (i - 1)%nat) / 2) else 0 else 0) else 0 in
  if Nat.ltb i (length lpeaks - 1) then (if Rle_dec (p i) l then if Rlt_dec l (p (i + 1)%nat) then cos (PI * (l - p i) / (p (i + 1)%nat - p i) / 2) else out else out) else out.

(* DigitalButterTrim *)
Section Digital.
(* np.round *)
Variable rnd : R -> Z.
Fixpoint rcumsum (acc : R) (a : list R) : list R := match a with [] => [] | x :: a => (acc + x) :: rcumsum (acc + x) a end.
(* f[1:] != f[:-1] *)
Fixpoint changes (f : list Z) : list Z :=
  match f with x :: ((y :: _) as t) => (if (x =? y)%Z then 0%Z else 1%Z) :: changes t | _ => [] end.
(* wavelets.py:457-461 digitize *)
Definition digitize (a : list R) : list Z := 1%Z :: changes (map rnd (rcumsum 0 a)).
(* wavelets.py:104-105: the rows of kernels, for l = 0..lmax-1 *)
Definition digital_rows (kernel : nat -> R -> R) (n lmax : nat) : list (list Z) :=
  repeat 0%Z lmax :: map (fun i => digitize (map (fun l => kernel i (INR l)) (seq 0 lmax))) (seq 0 (n - 1)) ++ [repeat 1%Z lmax].
Fixpoint insert (x : Z) (l : list Z) : list Z := match l with [] => [x] | y :: t => if (x <=? y)%Z then x :: l else y :: insert x t end.
Definition isort (l : list Z) : list Z := fold_right insert [] l.
(* wavelets.py:106-107: np.sort(kernels,0) and kernels[1:]-kernels[:-1]; the profile of scale i at multipole l *)
Definition digital (kernel : nat -> R -> R) (n lmax i l : nat) : Z :=
  let col := isort (map (fun row => nth l row 0%Z) (digital_rows kernel n lmax)) in
  (nth (i + 1) col 0 - nth i col 0)%Z.
End Digital.
