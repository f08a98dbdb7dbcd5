(* Models of interpol.py map_coordinates/spline_filter and fortran/interpol.F90.
   Numbers are reals: rounding is not modelled. *)
From Coq Require Import Reals.
From Verif Require Import Base AlmModel IplSpec.
Open Scope R_scope.

Definition bind {A B} (o : option A) (f : A -> option B) : option B := match o with Some a => f a | None => None end.
Notation "x <- e ;; k" := (bind e (fun x => k)) (at level 90, right associativity).

Definition rfloor (x : R) : Z := Int_part x.
Definition rceil (x : R) : Z := (- Int_part (- x))%Z.

(* ---------------------------------------------------------------- spline_filter1d *)
(* A Fortran array a(1:n): its contents by index; None: an access outside the bounds *)
Definition arr := Z -> R.
Definition rd (n : Z) (a : arr) (i : Z) : option R := if ((1 <=? i) && (i <=? n))%Z then Some (a i) else None.
Definition wr (n : Z) (a : arr) (i : Z) (v : R) : option arr :=
  if ((1 <=? i) && (i <=? n))%Z then Some (fun j => if (j =? i)%Z then v else a j) else None.

(* interpol.F90:104-114 the select on order: the poles; None: return without doing anything *)
Definition poles (order : Z) : option (list R) :=
  match order with
  | 2%Z => Some [sqrt 8 - 3]
  | 3%Z => Some [sqrt 3 - 2]
  | 4%Z => Some [sqrt (664 - sqrt 438976) + sqrt 304 - 19; sqrt (664 + sqrt 438976) - sqrt 304 - 19]
  | 5%Z => Some [sqrt (67.5 - sqrt 4436.25) + sqrt 26.25 - 6.5; sqrt (67.5 + sqrt 4436.25) - sqrt 26.25 - 6.5]
  | _ => None
  end.
(* interpol.F90:115 *)
Definition weight (ps : list R) : R := rprodl (map (fun p => (1 - p) * (1 - 1 / p)) ps).
(* interpol.F90:130 with tolerance (line 95) *)
Definition horizon (p : R) : Z := rceil (ln (/ 10 ^ 15) / ln (Rabs p)).

(* interpol.F90:145-148, 152-155, 157-160: a(1) = a(1) + pn*a(i); pn = pn*p *)
Definition gather1 (n : Z) (p : R) (st : arr * R) (i : Z) : option (arr * R) :=
  let '(a, pn) := st in
  x <- rd n a 1;; y <- rd n a i;; a <- wr n a 1 (x + pn * y);; Some (a, pn * p).
(* a(1) = a(1)/q *)
Definition div1 (n : Z) (a : arr) (q : R) : option arr := x <- rd n a 1;; wr n a 1 (x / q).

(* interpol.F90:139-163 the causal filter's initial value. n-i for i = 0..min(n,m)-2 is written as an index list. *)
Definition causal_init (b : edge) (n m : Z) (p : R) (a : arr) : option arr :=
  match b with
  | EZero => Some a
  | ENearest => div1 n a (1 - p)
  | ECyclic =>
      st <- ofold (gather1 n p) (map (fun i => n - i)%Z (zrange 0 (Z.min n m - 1))) (a, p);;
      if (m >=? n)%Z then div1 n (fst st) (1 - snd st) else Some (fst st)
  | EMirror =>
      st <- ofold (gather1 n p) (zrange 2 (Z.min m n + 1)) (a, p);;
      if (m >=? n)%Z then st <- ofold (gather1 n p) (rev (zrange 2 n)) st;; div1 n (fst st) (1 - snd st)
      else Some (fst st)
  end.

(* interpol.F90:165-167 *)
Definition forwards (n : Z) (p : R) (a : arr) : option arr :=
  ofold (fun a i => x <- rd n a i;; y <- rd n a (i - 1);; wr n a i (x + p * y)) (zrange 2 (n + 1)) a.

(* interpol.F90:177-180 *)
Definition accum (n : Z) (p : R) (a : arr) (st : R * R) (i : Z) : option (R * R) :=
  let '(v, pn) := st in x <- rd n a i;; Some (v + x * pn, pn * p).

(* interpol.F90:169-185 *)
Definition back_init (b : edge) (n m : Z) (p : R) (a : arr) : option arr :=
  x <- rd n a n;;
  match b with
  | EZero => wr n a n (- p / (1 - p ^ 2) * x)
  | ENearest => y <- rd n a (n - 1);; wr n a n (- p / (1 - p ^ 2) / (1 - p) * (x - p ^ 2 * y))
  | ECyclic =>
      st <- ofold (accum n p a) (zrange 1 (Z.min m n + 1)) (0, 1);;
      let v := if (m >=? n)%Z then fst st / (1 - snd st) else fst st in
      wr n a n (- p * (x + p * v))
  | EMirror => y <- rd n a (n - 1);; wr n a n (- p / (1 - p ^ 2) * (x + p * y))
  end.

(* interpol.F90:187-189 *)
Definition backwards (n : Z) (p : R) (a : arr) : option arr :=
  ofold (fun a i => x <- rd n a i;; y <- rd n a (i + 1);; wr n a i (p * (y - x))) (rev (zrange 1 n)) a.

(* interpol.F90:135-189 the non-transposed branch, for one pole *)
Definition pole_fwd (b : edge) (n m : Z) (p : R) (a : arr) : option arr :=
  a <- causal_init b n m p a;; a <- forwards n p a;; a <- back_init b n m p a;; backwards n p a.

(* interpol.F90:193-197 *)
Definition backwards_T (n : Z) (p : R) (a : arr) : option arr :=
  x <- rd n a 1;; a <- wr n a 1 (- p * x);;
  a <- ofold (fun a i => x <- rd n a i;; y <- rd n a (i - 1);; wr n a i (p * (y - x))) (zrange 2 n) a;;
  x <- rd n a n;; y <- rd n a (n - 1);; wr n a n (x - y).

(* interpol.F90:211-214, 232-235, 241-244, 246-249: a(i) = a(i) + v*pn; pn = pn*p *)
Definition spread (n : Z) (p v : R) (st : arr * R) (i : Z) : option (arr * R) :=
  let '(a, pn) := st in x <- rd n a i;; a <- wr n a i (x + v * pn);; Some (a, pn * p).

(* interpol.F90:199-219 *)
Definition back_init_T (b : edge) (n m : Z) (p : R) (a : arr) : option arr :=
  x <- rd n a n;;
  match b with
  | EZero => wr n a n (- p / (1 - p ^ 2) * x)
  | ENearest =>
      let v := - p / (1 - p ^ 2) / (1 - p) in
      y <- rd n a (n - 1);; a <- wr n a (n - 1) (y - v * p ^ 2 * x);; wr n a n (v * x)
  | ECyclic =>
      let v := - p ^ 2 * x in
      a <- wr n a n (- p * x);;
      let v := if (m >=? n)%Z then v / (1 - p ^ Z.to_nat n) else v in
      st <- ofold (spread n p v) (zrange 1 (Z.min m n + 1)) (a, 1);; Some (fst st)
  | EMirror =>
      let v := - p / (1 - p ^ 2) in
      y <- rd n a (n - 1);; a <- wr n a (n - 1) (y + v * p * x);; wr n a n (v * x)
  end.

(* interpol.F90:221-223 *)
Definition forwards_T (n : Z) (p : R) (a : arr) : option arr :=
  ofold (fun a i => x <- rd n a i;; y <- rd n a (i + 1);; wr n a i (x + p * y)) (rev (zrange 1 n)) a.

(* interpol.F90:225-251. pn*a(1) is written a(1)*pn; a(1) is not changed by these loops. *)
Definition causal_init_T (b : edge) (n m : Z) (p : R) (a : arr) : option arr :=
  match b with
  | EZero => Some a
  | ENearest => div1 n a (1 - p)
  | ECyclic =>
      a <- (if (m >=? n)%Z then div1 n a (1 - p ^ Z.to_nat n) else Some a);;
      v <- rd n a 1;;
      st <- ofold (spread n p v) (map (fun i => n - i)%Z (zrange 0 (Z.min n m - 1))) (a, p);; Some (fst st)
  | EMirror =>
      a <- (if (m >=? n)%Z then div1 n a (1 - p ^ Z.to_nat (2 * n - 2)) else Some a);;
      v <- rd n a 1;;
      st <- ofold (spread n p v) (zrange 2 (Z.min m n + 1)) (a, p);;
      if (m >=? n)%Z then st <- ofold (spread n p v) (rev (zrange 2 n)) st;; Some (fst st) else Some (fst st)
  end.

(* interpol.F90:190-252 the transposed branch, for one pole *)
Definition pole_trans (b : edge) (n m : Z) (p : R) (a : arr) : option arr :=
  a <- backwards_T n p a;; a <- back_init_T b n m p a;; a <- forwards_T n p a;; causal_init_T b n m p a.

(* interpol.F90:116-120, 128-129: the poles are taken backwards when transposing *)
Definition pole_loop (b : edge) (n : Z) (trans : bool) (ps : list R) (a : arr) : option arr :=
  if trans then ofold (fun a p => pole_trans b n (horizon p) p a) (rev ps) a
  else ofold (fun a p => pole_fwd b n (horizon p) p a) ps a.

(* interpol.F90:126, 254: the elements lo, lo+noff, ..., of the flat array, n of them *)
Definition take_line (n noff : Z) (data : arr) (lo : Z) : arr := fun k =>
  if ((1 <=? k) && (k <=? n))%Z then data (lo + (k - 1) * noff)%Z else 0.
Definition put_line (n noff : Z) (data : arr) (lo : Z) (a : arr) : arr := fun e =>
  let r := (e - lo)%Z in
  if ((0 <=? r) && (r mod noff =? 0) && (r / noff <? n))%Z then a (r / noff + 1)%Z else data e.

(* interpol.F90:124-256 the loops over the lines of the array *)
Definition all_lines (noff nblock : Z) : list (Z * Z) :=
  flat_map (fun oi => map (fun bi => (oi, bi)) (zrange 0 nblock)) (zrange 0 noff).
Definition do_line (b : edge) (n noff : Z) (trans : bool) (ps : list R) (data : arr) (ob : Z * Z) : option arr :=
  let lo := (fst ob + snd ob * n * noff)%Z in
  a <- pole_loop b n trans ps (fun k => take_line n noff data lo k * weight ps);;
  Some (put_line n noff data lo a).

(* interpol.F90:89-259. lines: the order the threads take the lines in, a permutation of all_lines.
   data has prod(dims) elements, first index 0. *)
Definition spline_filter1d (lines : list (Z * Z)) (data : arr) (dims : list Z) (axis : nat) (order : Z) (b : edge) (trans : bool) : option arr :=
  let n := nth axis dims 0%Z in
  match poles order with
  | None => Some data
  | Some ps => ofold (do_line b n (zprod (skipn (S axis) dims)) trans ps) lines data
  end.

(* ---------------------------------------------------------------- spline_filter *)
(* the border names accepted by map_coordinates (interpol.py:52) *)
Inductive bname := Bzero | Bnearest | Bcyclic | Bmirror | Breflect.
(* interpol.py:52 *)
Definition iborder (b : bname) : edge :=
  match b with Bzero => EZero | Bnearest => ENearest | Bcyclic => ECyclic | Bmirror | Breflect => EMirror end.
(* interpol.py:110; None: the KeyError *)
Definition filter_border (b : bname) : option edge :=
  match b with Bzero => Some EZero | Bnearest => Some ENearest | Bcyclic => Some ECyclic | Bmirror => Some EMirror | Breflect => None end.

(* interpol.py:100-114. np.array keeps the memory layout of its argument, so data.reshape(-1) is a view of data
   only if the argument was in C order (contig); otherwise it is a copy and the filtered values are dropped.
   lines axis: the order in which the threads take the lines of that axis. *)
Definition spline_filter (lines : nat -> list (Z * Z)) (contig : bool) (dims : list Z) (data : arr) (order : Z) (border : bname) (ndim : nat) (trans : bool) : option arr :=
  b <- filter_border border;;
  let axes := seq (length dims - ndim) ndim in
  ofold (fun data axis =>
      data' <- spline_filter1d (lines axis) data dims axis order b trans;;
      Some (if contig then data' else data))
    (if trans then rev axes else axes) data.

(* ---------------------------------------------------------------- weights *)
Inductive kind := Conv | Spline | Lanczos.
(* interpol.F90:7-18 *)
Definition sinc (x : R) : R :=
  let y := Rabs (PI * x) in
  if Rlt_dec y (/ 10 ^ 4) then 1 - y ^ 2 / 6 + y ^ 4 / 120 else sin y / y.
(* interpol.F90:20-31 *)
Definition dsinc (x : R) : R :=
  let y := Rabs (PI * x) in
  if Rlt_dec y (/ 10 ^ 4) then - sin y / 2 else cos y / x - sin y / (x * y).

(* interpol.F90:261-277 get_weight_length *)
Definition nweight (t : kind) (order : Z) : Z :=
  match t with
  | Conv => match order with 0%Z => 1 | 1%Z => 2 | 3%Z => 4 | _ => 0 end
  | Spline => order + 1
  | Lanczos => Z.max 1 (2 * order)
  end%Z.

(* interpol.F90:297-332 the value for a cell at distance x; order > 0 *)
Definition kernel (t : kind) (order : Z) (x : R) : R :=
  match t with
  | Conv =>
      match order with
      | 1%Z => if Rlt_dec x 1 then 1 - x else 0
      | 3%Z => if Rlt_dec x 1 then 1.5 * x ^ 3 - 2.5 * x ^ 2 + 1
               else if Rlt_dec x 2 then - 0.5 * x ^ 3 + 2.5 * x ^ 2 - 4 * x + 2 else 0
      | _ => 0
      end
  | Spline =>
      match order with
      | 1%Z => if Rlt_dec x 1 then 1 - x else 0
      | 2%Z => if Rlt_dec x 0.5 then 0.75 - x ^ 2 else if Rlt_dec x 1.5 then 0.50 * (1.5 - x) ^ 2 else 0
      | 3%Z => if Rlt_dec x 1 then (x * x * (x - 2) * 3 + 4) / 6 else if Rlt_dec x 2 then (2 - x) ^ 3 / 6 else 0
      | 4%Z => if Rlt_dec x 0.5 then x ^ 2 * (x ^ 2 * 0.25 - 0.625) + 115 / 192
               else if Rlt_dec x 1.5 then x * (x * (x * (5 / 6 - x / 6) - 1.25) + 5 / 24) + 55 / 96
               else if Rlt_dec x 2.5 then (x - 2.5) ^ 4 / 24 else 0
      | 5%Z => if Rlt_dec x 1 then x ^ 2 * (x ^ 2 * (0.25 - x / 12) - 0.5) + 0.55
               else if Rlt_dec x 2 then x * (x * (x * (x * (x / 24 - 0.375) + 1.25) - 1.75) + 0.625) + 0.425
               else if Rlt_dec x 3 then (3 - x) ^ 5 / 120 else 0
      | _ => 0
      end
  | Lanczos => if Rlt_dec x (IZR order) then sinc x * sinc (x / IZR order) else 0
  end.

(* Fortran's nint: halves away from zero *)
Definition nint (x : R) : Z := if Rle_dec 0 x then rfloor (x + / 2) else (- rfloor (- x + / 2))%Z.
(* interpol.F90:290-294 off for one axis *)
Definition offset (t : kind) (order : Z) (p : R) : Z :=
  if (order =? 0)%Z then nint p else rfloor (p - (IZR (nweight t order) - 2) * 0.5).
(* interpol.F90:279-335 calc_weights for one axis; j counts from 0 *)
Definition weight_at (t : kind) (order : Z) (p : R) (j : Z) : R :=
  if (order =? 0)%Z then 1 else kernel t order (Rabs (p - IZR j - IZR (offset t order p))).

(* interpol.F90:358-393 the derivative weights; x the distance, before the sign *)
Definition dkernel (t : kind) (order : Z) (x : R) : R :=
  match t with
  | Conv =>
      match order with
      | 1%Z => if Rlt_dec x 1 then -1 else 0
      | 3%Z => if Rlt_dec x 1 then 4.5 * x ^ 2 - 5 * x else if Rlt_dec x 2 then - 1.5 * x ^ 2 + 5 * x - 4 else 0
      | _ => 0
      end
  | Spline =>
      match order with
      | 1%Z => if Rlt_dec x 1 then -1 else 0
      | 2%Z => if Rlt_dec x 0.5 then -2 * x else if Rlt_dec x 1.5 then - (1.5 - x) else 0
      | 3%Z => if Rlt_dec x 1 then x ^ 2 - x * 2 / 3 else if Rlt_dec x 2 then - (2 - x) ^ 2 / 2 else 0
      | 4%Z => if Rlt_dec x 0.5 then 2 * x * (x ^ 2 * 0.25 - 0.625) + x ^ 2 * 2 * x * 0.25
               else if Rlt_dec x 1.5 then x ^ 2 * 5 / 2 - x ^ 3 * 2 / 3 - 2 * x * 1.25 + 5 / 24
               else if Rlt_dec x 2.5 then (x - 2.5) ^ 3 / 6 else 0
      | _ => 0
      end
  | Lanczos => if Rlt_dec x (IZR order) then dsinc x * sinc (x / IZR order) + sinc x * dsinc (x / IZR order) / IZR order else 0
  end.
(* interpol.F90:337-397 calc_weights_deriv for one axis *)
Definition dweight_at (t : kind) (order : Z) (p : R) (j : Z) : R :=
  if (order =? 0)%Z then 0 else
  let x := p - IZR j - IZR (offset t order p) in
  let sgn := if Rlt_dec 0 x then 1 else -1 in
  sgn * dkernel t order (Rabs x).

(* ---------------------------------------------------------------- interpol *)
(* interpol.F90:399-420; -1: no sample. For EMirror and n = 1 the code divides by zero. *)
Definition map_border (b : edge) (n i : Z) : Z :=
  if ((i <? 0) || (i >=? n))%Z then
    match b with
    | EZero => -1
    | ENearest => Z.max 0 (Z.min (n - 1) i)
    | ECyclic => i mod n
    | EMirror => let v := (i mod (2 * n - 2))%Z in if (v >=? n)%Z then (2 * n - 2 - v)%Z else v
    end%Z
  else i.

(* interpol.F90:476-486 the index of a cell of context in the array; None: cycle cloop *)
Fixpoint cell (b : edge) (shape off inds : list Z) (dind : Z) : option Z :=
  match shape, off, inds with
  | n :: shape, o :: off, k :: inds =>
      let xi := map_border b n (k + o) in
      if (xi <? 0)%Z then None else cell b shape off inds (dind * n + xi)%Z
  | _, _, _ => Some dind
  end.

(* interpol.F90:508-512 *)
Fixpoint adv (nw : Z) (r : list Z) : list Z :=
  match r with [] => [] | k :: r => if (k + 1 <? nw)%Z then (k + 1)%Z :: r else 0%Z :: adv nw r end.
Definition advance (nw : Z) (inds : list Z) : list Z := rev (adv nw (rev inds)).

(* interpol.F90:473-513 cloop: the cells that reach the standard or transposed update, with their indices.
   "cycle cloop" leaves inds as it is. *)
Fixpoint cloop (b : edge) (nw : Z) (shape off : list Z) (fuel : nat) (inds : list Z) : list (Z * list Z) :=
  match fuel with
  | O => []
  | S fuel =>
      match cell b shape off inds 0 with
      | None => cloop b nw shape off fuel inds
      | Some dind => (dind, inds) :: cloop b nw shape off fuel (advance nw inds)
      end
  end.

Definition visits (t : kind) (order : Z) (b : edge) (shape : list Z) (pos : list R) : list (Z * list Z) :=
  let nw := nweight t order in
  cloop b nw shape (map (offset t order) pos) (Z.to_nat nw ^ length pos) (repeat 0%Z (length pos)).

(* the weights of a cell, one for each dimension *)
Definition cell_weights (t : kind) (order : Z) (pos : list R) (inds : list Z) : list R :=
  map (fun '(p, k) => weight_at t order p k) (combine pos inds).

(* interpol.F90:463-515 with trans = false, for one sample and one leading index: data is that part of idata *)
Definition interpol1 (t : kind) (order : Z) (b : edge) (shape : list Z) (pos : list R) (data : arr) : R :=
  fold_left (fun res '(dind, inds) => res + fold_left Rmult (cell_weights t order pos inds) (data dind))
    (visits t order b shape pos) 0.

(* interpol.F90:442-518 with trans = false: the samples are independent. Output element j*nsamp+si. *)
Definition interpol (t : kind) (order : Z) (b : edge) (shape : list Z) (points : list (list R)) (idata : arr) : arr := fun o =>
  let nsamp := zlen points in
  interpol1 t order b shape (nth (Z.to_nat (o mod nsamp)) points []) (fun d => idata (o / nsamp * zprod shape + d)%Z).

(* interpol.F90:496-505: the atomic additions to idata made for sample si *)
Definition sample_updates (t : kind) (order : Z) (b : edge) (shape : list Z) (npre nsamp si : Z) (pos : list R) (odata : arr) : list (Z * R) :=
  flat_map (fun '(dind, inds) =>
    map (fun j => ((j * zprod shape + dind)%Z, fold_left Rmult (cell_weights t order pos inds) (odata (j * nsamp + si)%Z))) (zrange 0 npre))
    (visits t order b shape pos).
Definition updates (t : kind) (order : Z) (b : edge) (shape : list Z) (npre : Z) (points : list (list R)) (odata : arr) : list (Z * R) :=
  flat_map (fun '(si, pos) => sample_updates t order b shape npre (zlen points) si pos odata) (combine (zrange 0 (zlen points)) points).
(* interpol.F90:442-518 with trans = true: the threads' atomic additions, in the order they happen *)
Definition apply_updates (us : list (Z * R)) : arr :=
  fold_left (fun m '(d, v) => fun e => if (e =? d)%Z then m e + v else m e) us (fun _ => 0).
Definition interpol_T (t : kind) (order : Z) (b : edge) (shape : list Z) (npre : Z) (points : list (list R)) (odata res : arr) : Prop :=
  exists us, Permutation us (updates t order b shape npre points odata) /\ res = apply_updates us.

(* ---------------------------------------------------------------- map_coordinates *)
(* interpol.py:7-80 with trans = false and deriv = false. pre and post: the leading and the interpolated axes of idata *)
Definition map_coordinates (lines : nat -> list (Z * Z)) (contig : bool) (pre post : list Z) (t : kind) (order : Z) (border : bname)
    (prefilter : bool) (points : list (list R)) (idata : arr) : option arr :=
  idata <- (match t, prefilter with
            | Spline, true => spline_filter lines contig (pre ++ post) idata order border (length post) false
            | _, _ => Some idata end);;
  Some (interpol t order (iborder border) post points idata).

(* interpol.py:81-98 with trans = true: idata is overwritten. viewable: idata.reshape is a view of idata;
   otherwise it is a copy and the core's result is dropped. *)
Definition map_coordinates_T (lines : nat -> list (Z * Z)) (contig viewable : bool) (pre post : list Z) (t : kind) (order : Z) (border : bname)
    (prefilter : bool) (points : list (list R)) (idata odata : arr) (res : option arr) : Prop :=
  exists core, interpol_T t order (iborder border) post (zprod pre) points odata core /\
  let idata := if viewable then core else idata in
  res = match t, prefilter with
        | Spline, true => spline_filter lines contig (pre ++ post) idata order border (length post) true
        | _, _ => Some idata end.

(* ---------------------------------------------------------------- interpol_deriv *)
(* interpol.F90:527-613 with trans = false, one sample, one leading index: the derivative along axis i *)
Definition deriv1 (t : kind) (order : Z) (b : edge) (shape : list Z) (pos : list R) (i : nat) (data : arr) : R :=
  fold_left (fun res '(dind, inds) =>
      let v := fold_left Rmult (cell_weights t order pos inds) (data dind) in
      if Req_EM_T v 0 then res else
      let p := nth i pos 0 in let k := nth i inds 0%Z in
      res + v * dweight_at t order p k / weight_at t order p k)
    (visits t order b shape pos) 0.

(* interpol.F90:587-600: the additions made for one cell with trans = true. res is (npre, ndim), res(i,:) is scaled for
   i = 1..ndim, and the test reads weights(j,i). None: an access outside the bounds, or a division by zero. *)
Definition deriv_T_cell (t : kind) (order : Z) (pos : list R) (npre : Z) (odata : Z -> Z -> R) (dind : Z) (inds : list Z) : option (list (Z * Z * R)) :=
  let ndim := zlen pos in
  let w j i := weight_at t order (nth (Z.to_nat (i - 1)) pos 0) (j - 1)%Z in
  let dw j i := dweight_at t order (nth (Z.to_nat (i - 1)) pos 0) (j - 1)%Z in
  let ind i := nth (Z.to_nat (i - 1)) inds 0%Z in
  if (npre <? ndim)%Z then None else
  let res j i := if (j <=? ndim)%Z then odata j i * w (ind j + 1)%Z j else odata j i in
  ofold (fun us '(j, i) =>
      if (nweight t order <? j)%Z then None else
      if Req_EM_T (w j i) 0 then Some us else
      if Req_EM_T (w (ind i + 1)%Z i) 0 then None else
      Some (us ++ [((dind, j), res j i * dw (ind i + 1)%Z i / w (ind i + 1)%Z i)]))
    (flat_map (fun j => map (fun i => (j, i)) (zrange 1 (ndim + 1))) (zrange 1 (npre + 1))) [].
