(* Models of uncat, allgatherv (utils.py) and the multimap container (multimap.py). *)
From Verif Require Import Base CatSpec WindModel BlockModel RangeModel DownModel.

(* utils.py:736-752 cumsum(lens, endpoint=True) of a 1d array *)
Definition cumsum_end (lens : list Z) : list Z := 0 :: cumsum lens.
(* utils.py:1797-1802 uncat *)
Definition uncat {A} (a : list A) (lens : list Z) : list (list A) :=
  let cum := cumsum_end lens in
  map (fun i => match zget cum i, zget cum (i + 1) with Some x, Some y => psl a x y | _, _ => [] end) (zrange 0 (zlen lens)).

(* comm.Allgatherv(ra, (rb, (counts, displs))): every rank's flat buffer is written at its displacement *)
Fixpoint write_at {A} (buf : list A) (off : Z) (data : list A) : list A :=
  match data with [] => buf | x :: data => write_at (upd buf (Z.to_nat off) x) (off + 1) data end.
Fixpoint mpi_allgatherv {A} (rb : list A) (displs : list Z) (bufs : list (list A)) : list A :=
  match displs, bufs with d :: ds, b :: bs => mpi_allgatherv (write_at rb d b) ds bs | _, _ => rb end.

(* utils.py:1411-1450 allgatherv along the first axis, as seen by the given rank; dtypes not modelled.
   None: some rank's reshape raises (the others then wait forever). zero fills the np.zeros buffer *)
Definition allgatherv {A} (zero : A) (arrs : list (arr A)) (rank : nat) : option (arr A) :=
  match filter (fun a => negb (ar_size a =? 0)) arrs with
  | [] => nth_error arrs rank
  | first :: _ =>
    let inner := ar_inner first in
    if forallb (fun a => ar_lead a * zprod inner =? ar_size a) arrs then
      let N := zprod inner in
      let n := map (fun a => if 0 <? ar_size a then ar_lead a else 0) arrs in
      let o := removelast (cumsum_end n) in
      let rb := repeat zero (Z.to_nat (zsum n * N)) in
      Some (Arr (zsum n) inner (mpi_allgatherv rb (map (fun x => x * N) o) (map ar_data arrs)))
    else None
  end.

(* multimap.py:6-16 ndmaps: the pixel shapes of the maps and all their pixels along the last axis, for each pre-component *)
Record mmap (A : Type) := MM { mm_geos : list (Z * Z); mm_data : list (list A) }.
Arguments MM {A}. Arguments mm_geos {A}. Arguments mm_data {A}.
(* multimap.py:65-74 multimap; None: no maps or different pre-dimensions *)
Definition multimap {A} (maps : list (pmap A)) : option (mmap A) :=
  match maps with
  | [] => None
  | m0 :: _ =>
    if forallb (fun m => zlen (pm_data m) =? zlen (pm_data m0)) maps then
      Some (MM (map (fun m => (pm_ny m, pm_nx m)) maps)
               (map (fun p => flat_map (fun m => nth (Z.to_nat p) (pm_data m) []) maps) (zrange 0 (zlen (pm_data m0)))))
    else None
  end.
Definition npixs {A} (mm : mmap A) : list Z := map (fun g => fst g * snd g) (mm_geos mm).
(* multimap.py:47-58 _map_view.__getitem__ with an integer index; None: IndexError or a failing reshape *)
Definition mm_get {A} (mm : mmap A) (i : Z) : option (pmap A) :=
  let offs := cumsum_end (npixs mm) in
  match pyget offs i, pyget offs (i + 1), pyget (mm_geos mm) i with
  | Some a, Some b, Some (ny, nx) =>
    let parts := map (fun row => psl row a b) (mm_data mm) in
    if forallb (fun p => zlen p =? ny * nx) parts then Some (PM ny nx parts) else None
  | _, _, _ => None
  end.
(* multimap.py:59-66 __setitem__ with an integer index and a value of the same shape: written through the view *)
Definition mm_set {A} (mm : mmap A) (i : Z) (val : list (list A)) : option (mmap A) :=
  let offs := cumsum_end (npixs mm) in
  match pyget offs i, pyget offs (i + 1), pyget (mm_geos mm) i with
  | Some a, Some b, Some (ny, nx) =>
    if forallb (fun row => zlen (psl row a b) =? ny * nx) (mm_data mm) && (zlen val =? zlen (mm_data mm)) && forallb (fun c => zlen c =? ny * nx) val then
      Some (MM (mm_geos mm) (map (fun p => write_at (fst p) a (snd p)) (combine (mm_data mm) val)))
    else None
  | _, _, _ => None
  end.
