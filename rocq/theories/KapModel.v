(* Models of curvedsky.almxfl and of the conversions between lensing potential and convergence of lensing.py. Numbers are exact. *)
From Coq Require Import ZArith List Reals.
From Verif Require Import Base AlmModel.
Import ListNotations.
Local Open Scope R_scope.

(* curvedsky.py:616-637 almxfl with a function of l, for one alm; None as ainfo: the layout is inferred from the length. [ms] is the order of the
   parallel iterations of lmul. *)
Definition almxfl (ms : list Z) (alm : list (R * R)) (lfilter : R -> R) (ai : option ainfo) : option (list (R * R)) :=
  match (match ai with Some a => Some a | None => alm_info None None (Some (zlen alm)) 1 Tri end) with
  | None => None
  | Some a => lmul ms a alm (map (fun l => lfilter (IZR l)) (zrange 0 (ai_lmax a + 1)))
  end.
(* lensing.py:80-94 *)
Definition phi_to_kappa (ms : list Z) (phi_alm : list (R * R)) (ai : option ainfo) : option (list (R * R)) :=
  almxfl ms phi_alm (fun l => l * (l + 1) / 2) ai.
(* lensing.py:115-131. At l = 0 the filter is inf, its products are inf or nan, and these are set to zero afterwards: the filter is zero there. *)
Definition kappa_to_phi (ms : list Z) (kappa_alm : list (R * R)) (ai : option ainfo) : option (list (R * R)) :=
  almxfl ms kappa_alm (fun x => if Req_EM_T x 0 then 0 else 1 / (x * (x + 1) / 2)) ai.
