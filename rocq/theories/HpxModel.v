(* Model of curvedsky.apply_minfo_theta_lim, curvedsky.pad_spectrum and reproject.cutout (along one axis, given the pixel) *)
From Coq Require Import List ZArith QArith Reals Bool.
From Verif Require Import WindModel HpxSpec.
Import ListNotations.

Definition geb (a b : R) : bool := if Rle_dec b a then true else false.
(* a[mask] *)
Fixpoint masked {A} (mask : list bool) (l : list A) : list A := match mask, l with m :: mask, x :: l => if m then x :: masked mask l else masked mask l | _, _ => [] end.
Definition ands (a b : list bool) : list bool := map (fun p => fst p && snd p) (combine a b).
(* curvedsky.py:579-586. offsets is not among the keys *)
Definition apply_theta_lim (m : rings) (theta_min theta_max : option R) : rings :=
  match theta_min, theta_max with
  | None, None => m
  | _, _ =>
      let mask := map (fun _ => true) (theta m) in
      let mask := match theta_min with Some t => ands mask (map (fun x => geb x t) (theta m)) | None => mask end in
      let mask := match theta_max with Some t => ands mask (map (fun x => geb t x) (theta m)) | None => mask end in
      {| theta := masked mask (theta m); nphi := masked mask (nphi m); phi0 := masked mask (phi0 m); offsets := offsets m |}
  end.

(* curvedsky.py:38-42, one spectrum. None: ValueError, the shapes differ *)
Definition pad_spectrum (ps : list Q) (lmax : nat) : option (list Q) :=
  if Nat.leb (length ps) (lmax + 1) then Some (ps ++ repeat 0%Q (lmax + 1 - length ps))
  else if Nat.eqb (length (firstn (length ps) (repeat 0%Q (lmax + 1)))) (length ps) then Some ps else None.

Open Scope Q_scope.
(* reproject.py:781-789. None: the code returns None. Otherwise the start and the end of the slice *)
Definition cutout (iy : Q) (npix N pad : Z) : option (Z * Z) :=
  let half := inject_Z npix / 2 in
  if ((qround (iy - half) <? pad)%Z || (N - pad <? qround (iy + half))%Z)%bool then None
  else Some (qround (iy - half + (1 # 2)), qround (iy + half + (1 # 2))).
