(* Model of the alm bookkeeping: curvedsky.py alm_info, nalm2lmax, rand_alm, and the C and cython
   helpers in cython/cmisc_core.c and cython/cmisc.pyx. A complex coefficient is one array element
   here; the C code handles it as two consecutive reals at 2i and 2i+1. Arithmetic is exact. *)
From Coq Require Import ZArith List Lia Reals.
From Verif Require Import Base RangeModel AlmSpec.
Import ListNotations.
Local Open Scope Z_scope.

(* ---- general helpers ---- *)
(* a loop whose body may fail *)
Fixpoint ofold {S A} (f : S -> A -> option S) (l : list A) (s : S) : option S :=
  match l with [] => Some s | x :: l => match f s x with Some s => ofold f l s | None => None end end.
(* C array write arr[i] = v: writing outside the array is an error *)
Definition set_at {A} (l : list A) (i : Z) (v : A) : option (list A) :=
  if (0 <=? i) && (i <? zlen l) then Some (upd l (Z.to_nat i) v) else None.

(* ---- layout: curvedsky.py 397-442 ---- *)
Inductive layout := Tri | Rect | Custom (mstart : list Z).
Record ainfo := AI { ai_lmax : Z; ai_mmax : Z; ai_stride : Z; ai_nelem : Z; ai_mstart : list Z }.

(* curvedsky.py:1138 nalm2lmax. int((-1+(1+8*nalm)**0.5)/2)-1 with an exact square root; the floor of
   (sqrt(x)-1)/2 only depends on the integer part of the root. A negative nalm up to rounding makes
   the root complex, which int() refuses. *)
Definition nalm2lmax (nalm : Z) : option Z := if nalm <? 0 then None else Some ((Z.sqrt (1 + 8 * nalm) - 1) / 2 - 1).
(* curvedsky.py:415 int(nalm**0.5)-1 *)
Definition rect_lmax (nalm : Z) : option Z := if nalm <? 0 then None else Some (Z.sqrt nalm - 1).
(* np.max, which refuses an empty array *)
Definition np_max (l : list Z) : option Z := match l with [] => None | x :: l => Some (fold_left Z.max l x) end.
(* curvedsky.py:404-428 alm_info.__init__. None arguments are None; None results are exceptions.
   An explicit layout needs explicit lmax and mmax. The conversion to uint64 is not modelled. *)
Definition alm_info (lmax mmax nalm : option Z) (stride : Z) (lay : layout) : option ainfo :=
  let fill (f : Z -> option Z) := match lmax with Some l => Some l | None => match nalm with Some n => f n | None => None end end in
  let ml := match lay with
    | Tri => match fill nalm2lmax with
        | None => None
        | Some l => let mm := match mmax with Some m => m | None => l end in
            Some (l, mm, map (fun m => stride * (m * (2 * l + 1 - m) / 2)) (zrange 0 (mm + 1)))
        end
    | Rect => match fill rect_lmax with
        | None => None
        | Some l => let mm := match mmax with Some m => m | None => l end in
            Some (l, mm, map (fun m => m * (l + 1) * stride) (zrange 0 (mm + 1)))
        end
    | Custom ms => match lmax, mmax with Some l, Some m => Some (l, m, ms) | _, _ => None end
    end in
  match ml with
  | None => None
  | Some (l, mm, ms) =>
    match np_max ms with
    | None => None
    | Some mx =>
      let nelem := mx + (l + 1) * stride in
      if (match nalm with Some n => nelem =? n | None => true end) then Some (AI l mm stride nelem ms) else None
    end
  end.
(* curvedsky.py:433-434 lm2ind *)
Definition lm2ind (a : ainfo) (l m : Z) : option Z :=
  match pyget (ai_mstart a) m with Some s => Some (s + l * ai_stride a) | None => None end.
(* the position the C helpers use: mstart[m]+l, whatever the stride *)
Definition cind (a : ainfo) (l m : Z) : option Z :=
  match zget (ai_mstart a) m with Some s => Some (s + l) | None => None end.

(* ---- transpose_alm: cmisc_core.c:84-121, cmisc.pyx:92-122 ---- *)
Section Generic.
Context {A : Type}.
(* one pass of the inner loop; the state is ol, om, oalm *)
Definition tstep (a : ainfo) (ialm : list A) (st : Z * Z * list A) (p : Z * Z) : option (Z * Z * list A) :=
  let '(ol, om, oalm) := st in let '(il, im) := p in
  match cind a il im, cind a ol om with
  | Some ii, Some oi =>
    match zget ialm ii with
    | Some v => match set_at oalm oi v with
      | Some oalm => let om := om + 1 in
          Some (if (ai_mmax a <? om) || (ol <? om) then (ol + 1, 0, oalm) else (ol, om, oalm))
      | None => None end
    | None => None
    end
  | _, _ => None
  end.
Definition transpose_raw (a : ainfo) (ialm work : list A) : option (list A) :=
  option_map snd (ofold (tstep a ialm)
    (flat_map (fun im => map (fun il => (il, im)) (zrange im (ai_lmax a + 1))) (zrange 0 (ai_mmax a + 1))) (0, 0, work)).
(* cmisc.pyx transpose_alm for a stack of alms: one work array, zero at the start and not cleared
   between the members of the stack *)
Fixpoint transpose_stack (a : ainfo) (alms : list (list A)) (work : list A) : option (list (list A)) :=
  match alms with
  | [] => Some []
  | x :: alms => match transpose_raw a x work with
      | Some w => match transpose_stack a alms w with Some r => Some (w :: r) | None => None end
      | None => None end
  end.
Definition transpose_alm (zero : A) (a : ainfo) (alms : list (list A)) : option (list (list A)) :=
  match alms with [] => Some [] | x :: _ => transpose_stack a alms (repeat zero (length x)) end.

(* ---- transfer_alm: cmisc.pyx:126-147, for one member of the stack ---- *)
(* dest[:] = op(dest, src) on the strided slices d0:d1:ds and s0:s1:ss. Slices are clipped to the
   array. The two slices must have the same length (or the source length 1, which is then repeated). *)
Definition slice_inds (n start stop step : Z) : list Z :=
  let stop := Z.min stop n in map (fun k => start + k * step) (zrange 0 ((stop - start + step - 1) / step)).
Definition transfer_slice (op : A -> A -> A) (oa ia : list A) (d s : list Z) : option (list A) :=
  let s := if zlen s =? 1 then repeat (hd 0 s) (length d) else s in
  if negb (zlen s =? zlen d) then None else
  ofold (fun oa p => match zget oa (fst p), zget ia (snd p) with Some x, Some y => set_at oa (fst p) (op x y) | _, _ => None end) (combine d s) oa.
Definition transfer_one (op : A -> A -> A) (ai : ainfo) (ialm : list A) (ao : ainfo) (oalm : list A) : option (list A) :=
  let lmax := Z.min (ai_lmax ai) (ai_lmax ao) in
  let mmax := Z.min (ai_mmax ai) (ai_mmax ao) in
  ofold (fun oa m =>
    match zget (ai_mstart ai) m, zget (ai_mstart ao) m with
    | Some im, Some om =>
      transfer_slice op oa ialm
        (slice_inds (zlen oa) (om + m * ai_stride ao) (om + (lmax + 1) * ai_stride ao) (ai_stride ao))
        (slice_inds (zlen ialm) (im + m * ai_stride ai) (im + (lmax + 1) * ai_stride ai) (ai_stride ai))
    | _, _ => None
    end) (zrange 0 (mmax + 1)) oalm.
End Generic.
(* cmisc_core.c:250-263 transfer_alm_dp (and _sp): the C variant, parallel over m; [ms] is the order in
   which the iterations over m happen to run *)
Definition transfer_c {A} (ms : list Z) (a1 : ainfo) (alm1 : list A) (a2 : ainfo) (alm2 : list A) : option (list A) :=
  let lmax := Z.min (ai_lmax a1) (ai_lmax a2) in
  ofold (fun out m => ofold (fun out l =>
    match cind a1 l m, cind a2 l m with
    | Some i1, Some i2 => match zget alm1 i1 with Some v => set_at out i2 v | None => None end
    | _, _ => None end) (zrange m (lmax + 1)) out) ms alm2.

(* ---- lmul: cmisc_core.c:123-149; [ms] is the order of the parallel iterations ---- *)
Local Open Scope R_scope.
Local Notation C := (R * R)%type.
Definition rscale (f : R) (x : C) : C := (f * fst x, f * snd x).
Definition cadd (x y : C) : C := (fst x + fst y, snd x + snd y).
Definition lmul (ms : list Z) (a : ainfo) (alm : list C) (lfun : list R) : option (list C) :=
  let lfmax := (zlen lfun - 1)%Z in
  ofold (fun alm m => ofold (fun alm l =>
    match cind a l m with
    | Some i =>
      match (if (l <=? lfmax)%Z then zget lfun l else Some 0), zget alm i with
      | Some v, Some x => set_at alm i (rscale v x)
      | _, _ => None
      end
    | None => None
    end) (zrange m (ai_lmax a + 1)) alm) ms alm.

(* ---- lmatmul: cmisc_core.c:152-247, cmisc.pyx:209-240 ---- *)
(* The memory is a collection of rows. aptrs and optrs say which row each input and output pointer
   points to; they may coincide (in-place use). *)
Definition read_row {A} (mem : list (list A)) (p i : Z) : option A := match zget mem p with Some r => zget r i | None => None end.
Definition write_row {A} (mem : list (list A)) (p i : Z) (v : A) : option (list (list A)) :=
  match zget mem p with Some r => match set_at r i v with Some r => set_at mem p r | None => None end | None => None end.
(* vreal[r], vimag[r] *)
Definition mat_entry (mem : list (list C)) (aptrs : list Z) (lmat : list (list R)) (M r l i : Z) : option C :=
  ofold (fun v c => match zget aptrs c with
    | Some p => match read_row lmat (r * M + c) l, read_row mem p i with
      | Some f, Some x => Some (cadd v (rscale f x)) | _, _ => None end
    | None => None end) (zrange 0 M) (0, 0).
Fixpoint omap {A B} (f : A -> option B) (l : list A) : option (list B) :=
  match l with [] => Some [] | x :: l => match f x, omap f l with Some y, Some r => Some (y :: r) | _, _ => None end end.
(* the body for one (m,l): compute the whole column, then store it *)
Definition mat_body (a : ainfo) (aptrs optrs : list Z) (lmat : list (list R)) (N M m : Z) (mem : list (list C)) (l : Z) : option (list (list C)) :=
  match cind a l m with
  | None => None
  | Some i =>
    match omap (fun r => mat_entry mem aptrs lmat M r l i) (zrange 0 N) with
    | None => None
    | Some vs => ofold (fun mem r => match zget optrs r, zget vs r with Some p, Some v => write_row mem p i v | _, _ => None end) (zrange 0 N) mem
    end
  end.
(* lup is the last multipole of the main loop: leff in lmatmul_dp but lfmax in lmatmul_sp;
   ms and rs are the orders of the two parallel loops *)
Definition lmatmul (lup : Z -> Z -> Z) (ms rs : list Z) (N M : Z) (a : ainfo) (aptrs : list Z) (lfmax : Z) (lmat : list (list R)) (optrs : list Z) (mem : list (list C)) : option (list (list C)) :=
  let leff := Z.min (ai_lmax a) lfmax in
  match ofold (fun mem m => ofold (mat_body a aptrs optrs lmat N M m) (zrange m (lup leff lfmax + 1)) mem) ms mem with
  | None => None
  | Some mem =>
    ofold (fun mem r => ofold (fun mem m => ofold (fun mem l =>
      match cind a l m, zget optrs r with Some i, Some p => write_row mem p i (0, 0) | _, _ => None end)
      (zrange (Z.max m (leff + 1)) (ai_lmax a + 1)) mem) (zrange 0 (ai_mmax a + 1)) mem) rs mem
  end.
Definition lmatmul_dp := lmatmul (fun leff lfmax => leff).
Definition lmatmul_sp := lmatmul (fun leff lfmax => lfmax).

(* ---- alm2cl: cmisc_core.c:16-79 ---- *)
(* Operations on the shared scratch array buf. buf[nl*id+l] += v is a read into a register of the
   thread followed by a write, so that other threads may run in between. *)
Inductive mop := Assign (l : Z) (v : R) | Load (l : Z) | Store (l : Z) (v : R).
Definition cget (a : ainfo) (alm : list C) (l m : Z) : option C := match cind a l m with Some i => zget alm i | None => None end.
(* lines 21-34: what thread id executes when the dynamic schedule hands it the iterations ms *)
Definition thread_prog (a : ainfo) (alm1 alm2 : list C) (id : Z) (ms : list Z) : option (list mop) :=
  let first := if (id =? 0)%Z then
      omap (fun l => match cget a alm1 l 0, cget a alm2 l 0 with Some x, Some y => Some (Assign l (fst x * fst y / 2)) | _, _ => None end) (zrange 0 (ai_lmax a + 1))
    else Some [] in
  let body := omap (fun m => omap (fun l => match cget a alm1 l m, cget a alm2 l m with
        | Some x, Some y => Some [Load l; Store l (fst x * fst y + snd x * snd y)] | _, _ => None end) (zrange m (ai_lmax a + 1))) ms in
  match first, body with Some f, Some b => Some (f ++ concat (concat b)) | _, _ => None end.
(* one step of thread id; the state is the registers and the buffer *)
Definition fset {V} (f : Z -> V) (i : Z) (v : V) (j : Z) : V := if (j =? i)%Z then v else f j.
Definition mstep (nl : Z) (st : (Z -> R) * (Z -> R)) (e : Z * mop) : (Z -> R) * (Z -> R) :=
  let '(reg, buf) := st in let '(id, op) := e in
  match op with
  | Assign l v => (reg, fset buf (nl * id + l) v)
  | Load l => (fset reg id (buf (nl * id + l)%Z), buf)
  | Store l v => (reg, fset buf (nl * id + l) (reg id + v))
  end.
(* lines 36-43, after the barrier *)
Definition reduce (nl nthread : Z) (buf : Z -> R) : list R :=
  map (fun l => fold_left (fun s i => s + buf (nl * i + l)%Z) (zrange 0 nthread) 0 * (2 / (2 * IZR l + 1))) (zrange 0 nl).
Definition alm2cl_run (a : ainfo) (nthread : Z) (trace : list (Z * mop)) : list R :=
  let nl := (ai_lmax a + 1)%Z in
  reduce nl nthread (snd (fold_left (mstep nl) trace (fun _ => 0, fun _ => 0))).

(* ---- the cache of cmisc.alm2cl, cmisc.pyx:44-74 ---- *)
(* each alm is an address and its contents; [one] is the function computing a single spectrum *)
Section Cache.
Context {E S : Type}.
Definition ckey (p q : Z) : Z * Z := if (p <=? q)%Z then (p, q) else (q, p).
Fixpoint clookup (k : Z * Z) (cache : list ((Z * Z) * S)) : option S :=
  match cache with [] => None | (k', v) :: c => if ((fst k =? fst k') && (snd k =? snd k'))%Z then Some v else clookup k c end.
Fixpoint alm2cl_all (one : E -> E -> S) (pairs : list ((Z * E) * (Z * E))) (cache : list ((Z * Z) * S)) : list S :=
  match pairs with
  | [] => []
  | ((p, x), (q, y)) :: pairs =>
      let key := ckey p q in
      match clookup key cache with
      | Some v => v :: alm2cl_all one pairs cache
      | None => let v := one x y in v :: alm2cl_all one pairs ((key, v) :: cache)
      end
  end.
End Cache.

(* ---- random alms: curvedsky.py 588-592, 594-617, 61-77 ---- *)
(* fill_gauss: draws from the generator in blocks; the generator is an unknown sequence *)
Definition fill_gauss (draw : Z -> R) (size bsize : Z) : list R :=
  flat_map (fun k => let i := (k * bsize)%Z in map draw (zrange i (i + Z.min bsize (size - i)))) (zrange 0 ((size + bsize - 1) / bsize)).
Fixpoint pair_up (l : list R) : list C := match l with x :: y :: l => (x, y) :: pair_up l | _ => [] end.
(* rand_alm_white with pre=[ncomp] *)
Definition chunk {A} (l : list A) (ncomp n : Z) : list (list A) := map (fun j => firstn (Z.to_nat n) (skipn (Z.to_nat (j * n)) l)) (zrange 0 ncomp).
Definition rand_alm_white (draw : Z -> R) (bsize : Z) (a : ainfo) (ncomp : Z) : option (list (list C)) :=
  transpose_alm (0, 0) a (chunk (pair_up (fill_gauss draw (2 * (ncomp * ai_nelem a)) bsize)) ncomp (ai_nelem a)).
(* rand_alm with ainfo=None. ps12 is multi_pow(ps,0.5) flattened over its first two axes; padding the
   spectrum with zeros pads its matrix square root with zeros. *)
Definition rand_alm (draw : Z -> R) (bsize : Z) (ncomp lmax : Z) (ps12 : list (list R)) : option (list (list C)) :=
  let nl := match ps12 with r :: _ => zlen r | [] => 0%Z end in
  let ps12 := if (nl - 1 <? lmax)%Z then map (fun r => r ++ repeat 0 (Z.to_nat (lmax + 1 - nl))) ps12 else ps12 in
  match alm_info (Some lmax) None None 1 Tri with
  | None => None
  | Some a =>
    match rand_alm_white draw bsize a ncomp with
    | None => None
    | Some alm =>
      match lmatmul_dp (zrange 0 (ai_mmax a + 1)) (zrange 0 ncomp) ncomp ncomp a (zrange 0 ncomp)
              (match ps12 with r :: _ => zlen r | [] => 0%Z end - 1) (map (map (fun x => x / sqrt 2)) ps12) (zrange 0 ncomp) alm with
      | None => None
      | Some alm => Some (map (fun row => map (fun ix => let '(i, x) := ix in
            if (i <=? lmax)%Z then (fst x * sqrt 2, 0) else x) (combine (zrange 0 (zlen row)) row)) alm)
      end
    end
  end.
