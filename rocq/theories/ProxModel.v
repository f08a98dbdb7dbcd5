(* Model of delayed map reading (ndmap_proxy_fits, ndmap_proxy_hdf). *)
From Verif Require Import Base SliceSpec ArrModel PixModel WindModel.

(* How a proxy gets at its data. shared: reads return views of one array held in memory (hdu.data, used for small
   files or when there are no sections); otherwise every read makes a new array (hdu.section, and hdf datasets).
   native: the array is already in the machine's byte order. flipped: components with a Stokes sign flip. *)
Record source := Src { shared : bool; native : bool; flipped : Z -> bool }.

(* enmap.py:2989-3012 ndmap_proxy_fits.__getitem__ (and 3020-3029 ndmap_proxy_hdf.__getitem__: shared = false, no flips) on a
   section sel of a map with one component axis and one pixel axis. swap: byteswap of an element, neg: multiplication by
   -1. Line 3009 res *= signs and fix_endian's byteswap(True) work in place, so if res is a view they change the shared array.
   The returned array is copied here as it is when returned. The wcs is C01's. *)
Definition proxy_read {E} (swap neg : E -> E) (src : source) (buf : farr E) (sel : pyslice * pyslice) : option (farr E * farr E) :=
  let '(sc, sp) := sel in
  let res := get2 buf sc sp in
  let signed := FA (f_ny res) (f_nx res) (fun i j => if flipped src (sl_at sc (f_ny buf) i) then neg (f_at res i j) else f_at res i j) in
  let fixed := FA (f_ny signed) (f_nx signed) (fun i j => if native src then f_at signed i j else swap (f_at signed i j)) in
  bind (if shared src then set2 buf sc sp fixed else Some buf) (fun buf' => Some (fixed, buf')).

(* a history of reads on one proxy: the arrays returned *)
Fixpoint reads {E} (swap neg : E -> E) (src : source) (buf : farr E) (sels : list (pyslice * pyslice)) : option (list (farr E)) :=
  match sels with
  | [] => Some []
  | sel :: r => bind (proxy_read swap neg src buf sel) (fun p => option_map (cons (fst p)) (reads swap neg src (snd p) r))
  end.

(* enmap.py:3042-3080 get_stokes_flips for one axis: its CTYPE is STOKES or not, its crpix, crval, cdelt, and the
   POLCCONV/POLCONV header value if there is one. -1: nothing to flip. *)
Inductive polconv := COSMO | IAU | OtherConv.
Definition stokes_flip (is_stokes : bool) (crpix crval cdelt : Q) (conv : option polconv) : Z :=
  let ind := if is_stokes then qround ((3 - crval) / cdelt + crpix) - 1 else -1 in
  if ind =? -1 then -1
  else match conv with
       | None => ind
       | Some COSMO => -1
       | Some IAU => ind
       | Some OtherConv => -1
       end.
