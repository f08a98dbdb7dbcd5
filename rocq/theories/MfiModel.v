(* Models of the matched filters of analysis.py on flat maps, and of the parts of uharm.py they use. Numbers are exact. Maps have shape
   [ny,nx] and are functions of the pixel; the functions work on leading axes independently. *)
From Coq Require Import Reals.
From Coquelicot Require Import Complex.
From Verif Require Import Base ArrModel PixModel DctSpec FftSpec FftModel MfiSpec.
Open Scope R_scope.

Definition cimage := Z -> Z -> C.
Definition cx (m : image) : cimage := fun y x => RtoC (m y x).
(* elementwise arithmetic on arrays of the same shape *)
Definition imul (a b : image) : image := fun y x => a y x * b y x.
Definition idiv (a b : image) : image := fun y x => a y x / b y x.
Definition iscal (c : R) (a : image) : image := fun y x => c * a y x.
Definition ipow (a : image) (n : nat) : image := fun y x => a y x ^ n.
Definition isqrt (a : image) : image := fun y x => sqrt (a y x).
Definition cmul (a b : cimage) : cimage := fun y x => (a y x * b y x)%C.
Definition cscal (c : R) (a : cimage) : cimage := fun y x => (RtoC c * a y x)%C.

(* uharm.py:53-96 UHT in flat mode: the geometry, enmap.area and enmap.pixsizemap *)
Record uht := UHT { u_ny : Z; u_nx : Z; u_area : R; u_pixarea : image }.
Definition u_npix (u : uht) : R := IZR (u_ny u * u_nx u).
(* enmap.py:1049-1051 pixsize *)
Definition u_pixsize (u : uht) : R := u_area u / u_npix u.
(* uharm.py:66, 79 *)
Definition u_fsky (u : uht) : R := u_area u / (4 * PI).
Definition u_nper (u : uht) : R := 1 / u_fsky u.
Definition arr (u : uht) (a : cimage) : farr C := FA (u_ny u) (u_nx u) a.

(* uharm.py:97-101 map2harm; enmap.py:1313-1327 with spin=0 *)
Definition map2harm (u : uht) (m : image) : option cimage := bind (emap_fft Phys false (u_pixsize u) (arr u (cx m))) (fun r => Some (f_at r)).
(* uharm.py:102-108 harm2map; enmap.py:1328-1338 *)
Definition harm2map (u : uht) (h : cimage) : option image := bind (emap_ifft Phys false (u_pixsize u) (arr u h)) (fun r => Some (fun y x => Re (f_at r y x))).
(* uharm.py:109-113 harm2map_adjoint; enmap.py:1343-1344 *)
Definition harm2map_adjoint (u : uht) (m : image) : option cimage := bind (emap_fft Phys true (u_pixsize u) (arr u (cx m))) (fun r => Some (f_at r)).
(* uharm.py:114-120 map2harm_adjoint; enmap.py:1340-1341 *)
Definition map2harm_adjoint (u : uht) (h : cimage) : option image := bind (emap_ifft Phys true (u_pixsize u) (arr u h)) (fun r => Some (fun y x => Re (f_at r y x))).
(* uharm.py:121-130 quad_weights *)
Definition quad_weights (u : uht) : image := u_pixarea u.
(* uharm.py:157-169 hmul with a profile of shape [ny,nx] *)
Definition hmul (p h : cimage) : cimage := cmul p h.
(* uharm.py:187-193 sum_hprof *)
Definition sum_hprof (u : uht) (p : image) : R := rsum2 (u_ny u) (u_nx u) (iscal (u_nper u) p).
(* uharm.py:195-210 hprof_rpow *)
Definition hprof_rpow (u : uht) (p : image) (power : nat) : option cimage :=
  let norm := sqrt (u_area u) in
  bind (harm2map u (cx (iscal (/ norm) p))) (fun map =>
  bind (map2harm u (ipow map power)) (fun h => Some (cscal norm h))).

(* analysis.py:124-152 matched_filter_constcov with spin=0. kappa is one number *)
Definition matched_filter_constcov (u : uht) (map B iN : image) : option (image * R) :=
  bind (map2harm u map) (fun h =>
  bind (map2harm_adjoint u (hmul (cx (imul B iN)) h)) (fun r =>
  Some (idiv r (u_pixarea u), sum_hprof u (imul (ipow B 2) iN) / (4 * PI)))).

(* analysis.py:154-192 matched_filter_white. high_acc is not used *)
Definition matched_filter_white (u : uht) (map B ivar : image) (B2 : option cimage) : option (image * image) :=
  let P : image := fun y x => 1 / u_pixarea u y x in
  bind (match B2 with None => hprof_rpow u B 2 | Some b => Some b end) (fun B2 =>
  bind (harm2map_adjoint u (imul ivar map)) (fun h =>
  bind (map2harm_adjoint u (hmul (cx B) h)) (fun r =>
  bind (harm2map_adjoint u ivar) (fun h2 =>
  bind (map2harm_adjoint u (hmul B2 h2)) (fun k =>
  Some (imul P r, imul P k)))))).

(* analysis.py:252: the numerator, with the default S and iS *)
Definition lowcorr_rho (u : uht) (V B iC map : image) : option image :=
  bind (map2harm u (imul V map)) (fun h =>
  bind (map2harm_adjoint u (hmul (cx iC) h)) (fun a =>
  bind (harm2map_adjoint u (imul V a)) (fun h =>
  bind (harm2map u (hmul (cx B) h)) (fun r => Some (idiv r (u_pixarea u)))))).
(* analysis.py:193-263 matched_filter_constcorr_lowcorr with the default S and iS *)
Definition matched_filter_constcorr_lowcorr (u : uht) (map B ivar iC : image) (B2 : option cimage) (high_acc : bool) : option (image * image) :=
  let pixarea := u_pixarea u in
  let V := isqrt ivar in
  let W := quad_weights u in
  bind (match B2 with None => hprof_rpow u B 2 | Some b => Some b end) (fun B2 =>
  let iC_white := sum_hprof u (imul (ipow B 2) iC) / sum_hprof u (ipow B 2) in
  bind (lowcorr_rho u V B iC map) (fun rho =>
  bind (harm2map_adjoint u (iscal iC_white (imul ivar W))) (fun h =>
  bind (map2harm_adjoint u (hmul B2 h)) (fun k =>
  let kappa := idiv k (ipow pixarea 2) in
  if high_acc then
    let py := (u_ny u / 2)%Z in let px := (u_nx u / 2)%Z in
    let one : image := fun y x => if ((y =? py) && (x =? px))%Z%bool then 1 else 0 in
    bind (map2harm u (idiv one pixarea)) (fun h =>
    bind (harm2map u (hmul (cx B) h)) (fun s =>
    bind (lowcorr_rho u V B iC s) (fun kii =>
    let alpha := kappa py px / kii py px in
    Some (rho, fun y x => kappa y x / alpha))))
  else Some (rho, kappa))))).

(* analysis.py:265-304 matched_filter_constcorr_smoothivar *)
Definition matched_filter_constcorr_smoothivar (u : uht) (map B ivar iC : image) : option (image * image) :=
  let V := isqrt ivar in
  let P : image := fun y x => 1 / u_pixarea u y x in
  bind (harm2map_adjoint u (imul V map)) (fun h =>
  bind (map2harm_adjoint u (hmul (cx (imul B iC)) h)) (fun r =>
  Some (imul (imul P V) r, imul (iscal (sum_hprof u (imul (ipow B 2) iC) / (4 * PI)) ivar) P))).

(* analysis.py:306-355 matched_filter_constcorr_dual with the default S and iS *)
Definition matched_filter_constcorr_dual (u : uht) (map B ivar iC : image) : option (image * image) :=
  let pixarea := u_pixarea u in
  let W := quad_weights u in
  let hC := isqrt iC in
  bind (hprof_rpow u (imul B hC) 2) (fun BC2 =>
  bind (map2harm u map) (fun h =>
  bind (harm2map u (hmul (cx hC) h)) (fun a =>
  bind (map2harm u (imul ivar a)) (fun h =>
  bind (harm2map u (hmul (cx hC) h)) (fun a =>
  bind (map2harm u a) (fun h =>
  bind (harm2map u (hmul (cx B) h)) (fun r =>
  bind (harm2map_adjoint u (imul ivar W)) (fun h =>
  bind (map2harm_adjoint u (hmul BC2 h)) (fun k =>
  Some (idiv r pixarea, idiv k (ipow pixarea 2))))))))))).

(* analysis.py:1077-1082 rpow *)
Definition rpow (u : uht) (f : image) (exp : nat) : option image :=
  let norm := sqrt (u_area u) in
  bind (emap_ifft Phys false (u_pixsize u) (arr u (cx (iscal (/ norm) f)))) (fun map =>
  bind (emap_fft Phys false (u_pixsize u) (arr u (cx (ipow (fun y x => Re (f_at map y x)) exp)))) (fun h =>
  Some (fun y x => Re (f_at h y x) * norm))).
(* analysis.py:1084-1091 rmul; without arguments args[0] raises *)
Fixpoint rmul_work (u : uht) (norm : R) (work : option image) (args : list image) : option (option image) :=
  match args with
  | [] => Some work
  | arg :: args =>
    bind (emap_ifft Phys false (u_pixsize u) (arr u (cx (iscal (/ norm) arg)))) (fun r =>
    let rmap : image := fun y x => Re (f_at r y x) in
    rmul_work u norm (Some (match work with None => rmap | Some w => imul w rmap end)) args)
  end.
Definition rmul (u : uht) (args : list image) : option image :=
  match args with
  | [] => None
  | _ =>
    let norm := sqrt (u_area u) in
    bind (rmul_work u norm None args) (fun work =>
    bind work (fun work =>
    bind (emap_fft Phys false (u_pixsize u) (arr u (cx work))) (fun h => Some (fun y x => Re (f_at h y x) * norm))))
  end.

(* analysis.py:1062-1063 get_flat_sky_correction *)
Definition flatcorr_rho (pixratio : image) : image := fun y x => / sqrt (/ 2 * (1 + pixratio y x ^ 2)).
Definition flatcorr_kappa (pixratio : image) : image := fun y x => 1 / pixratio y x.
(* analysis.py:405 *)
Definition pixratio (u : uht) : image := fun y x => u_pixarea u y x / u_pixsize u.

(* analysis.py:395-426 NmatConstcov.matched_filter of n maps with n beams and no cache. iN[i,j] is indexed by two whole numbers below n. *)
Fixpoint gather {A} (l : list (option A)) : option (list A) :=
  match l with [] => Some [] | o :: l => bind o (fun a => bind (gather l) (fun r => Some (a :: r))) end.
Definition comp (l : list cimage) (i : Z) : cimage := nth (Z.to_nat i) l (fun _ _ => RtoC 0).
Definition nmat_constcov (u : uht) (n : Z) (iN : Z -> Z -> image) (apod : image) (map beam : Z -> image) : option (list image * (Z -> Z -> image)) :=
  let fr := flatcorr_rho (pixratio u) in
  let fk := flatcorr_kappa (pixratio u) in
  bind (gather (List.map (fun j => map2harm u (imul (map j) apod)) (zrange 0 n))) (fun hs =>
  let pre (i : Z) : cimage := fun k l => (csum n (fun j => RtoC (iN i j k l) * comp hs j k l) * RtoC (/ u_pixsize u))%C in
  bind (gather (List.map (fun i => map2harm_adjoint u (cmul (cx (beam i)) (pre i))) (zrange 0 n))) (fun rs =>
  let kappa0 (i j : Z) : R := rsum2 (u_ny u) (u_nx u) (fun k l => beam i k l * iN i j k l * beam j k l) / (4 * PI * u_fsky u) in
  Some (List.map (fun r => imul r fr) rs, fun i j => iscal (kappa0 i j) fk))).

(* analysis.py:433-471 NmatConstcorr.matched_filter of a single map, without beam2 and cache *)
Definition nmat_constcorr (u : uht) (iN ivar map beam : image) : option (image * image) :=
  let V := isqrt ivar in
  bind (rpow u beam 2) (fun beam2 =>
  let iN_white := rsum2 (u_ny u) (u_nx u) (fun k l => beam k l * iN k l * beam k l) / rsum2 (u_ny u) (u_nx u) (fun k l => beam k l * beam k l) in
  let fr := flatcorr_rho (pixratio u) in
  let fk := flatcorr_kappa (pixratio u) in
  bind (map2harm u (imul V map)) (fun h =>
  bind (harm2map u (hmul (cx iN) h)) (fun a =>
  bind (map2harm u (imul (imul fr V) a)) (fun h =>
  bind (harm2map u (hmul (cx beam) (fun k l => (h k l * RtoC (/ u_pixsize u))%C))) (fun rho =>
  bind (map2harm u ivar) (fun h =>
  bind (harm2map u (hmul (cx beam2) h)) (fun k =>
  let kappa : image := fun y x => k y x / u_pixsize u * fk y x in
  let rk : image := fun y x => sqrt (Rmax (kappa y x) 0) in
  Some (rho, fun y x => rk y x * iN_white * rk y x)))))))).
