(* Model of enmap.py: apod. A map is one [ny,nx] component with real values: the code treats leading dimensions
   separately. Results are given as new maps; inplace=True only changes where they are stored. *)
From Verif Require Import Base ArrModel MskModel.
From Coq Require Import Reals.
Open Scope Z_scope.

Inductive fillkind := FillZero | FillMean | FillMedian | FillCrossfade | FillOther.
Inductive profkind := ProfLin | ProfCos | ProfOther.
Inductive apderr := ProfileError | ShapeError.
Inductive res (A : Type) := Ok (a : A) | Err (e : apderr).
Arguments Ok {A}. Arguments Err {A}.

(* enmap.py:2410-2412: the profile function of a name. None: unknown, ValueError *)
Definition profile_fun (p : profkind) : option (R -> R) :=
  match p with ProfLin => Some apod_profile_lin | ProfCos => Some apod_profile_cos | ProfOther => None end.

(* enmap.py:2419-2425, along one axis of n pixels of which v are the values; prof k for 0 <= k < w. slice2 starts at n-w *)
Definition apod_line (fill : fillkind) (prof : Z -> R) (w n : Z) (v : Z -> R) : Z -> R :=
  match fill with
  | FillCrossfade =>
      let m1 := fun k => v k in
      let m2 := fun k => v (n - w + k) in
      let v1 := fun j => if j <? w then (m1 j * (1 - prof (w - 1 - j)%Z) + m2 j * prof (w - 1 - j)%Z)%R else v j in
      fun j => if n - w <=? j then let k := j - (n - w) in (m2 k * (1 - prof k) + m1 k * prof k)%R else v1 j
  | FillZero | FillMean | FillMedian =>
      let v1 := fun j => if j <? w then (v j * prof j)%R else v j in
      fun j => if n - w <=? j then (v1 j * prof (w - 1 - (j - (n - w)))%Z)%R else v1 j
  | FillOther => v
  end.

(* enmap.py:2403-2412: one axis, with its width; n its length, put applies a function along it. A width above n makes the
   shapes of the slice and the profile differ, which numpy refuses; with an unknown fill the arrays are not combined *)
Definition apod_axis (fill : fillkind) (p : profkind) (w n : Z) (put : ((Z -> R) -> Z -> R) -> farr R) (m : farr R) : res (farr R) :=
  if w <=? 0 then Ok m else
  match profile_fun p with
  | None => Err ProfileError
  | Some pf =>
      let den := match fill with FillCrossfade => 2 * w + 1 | _ => w + 1 end in
      let prof := fun k => pf (IZR (k + 1) / IZR den)%R in
      match fill with
      | FillOther => Ok m
      | _ => if n <? w then Err ShapeError else Ok (put (apod_line fill prof w n))
      end
  end.
Definition along_y (m : farr R) (g : (Z -> R) -> Z -> R) : farr R :=
  FA (f_ny m) (f_nx m) (fun y x => g (fun y' => f_at m y' x) y).
Definition along_x (m : farr R) (g : (Z -> R) -> Z -> R) : farr R :=
  FA (f_ny m) (f_nx m) (fun y x => g (fun x' => f_at m y x') x).

Definition mapR (f : R -> R) (m : farr R) : farr R := FA (f_ny m) (f_nx m) (fun y x => f (f_at m y x)).
Definition sum_map (m : farr R) : R :=
  fold_left Rplus (flat_map (fun y => map (fun x => f_at m y x) (zrange 0 (f_nx m))) (zrange 0 (f_ny m))) 0%R.
(* np.mean over both axes *)
Definition mean_map (m : farr R) : R := (sum_map m / IZR (f_ny m * f_nx m))%R.

(* enmap.py:2392-2426 apod; width: after the conversion to two integers. median: np.median of the map *)
Definition apod (median : farr R -> R) (m : farr R) (width : Z * Z) (p : profkind) (fill : fillkind) : res (farr R) :=
  let offset := match fill with FillMean => mean_map m | FillMedian => median m | _ => 0%R end in
  let m0 := match fill with FillMean | FillMedian => mapR (fun v => (v - offset)%R) m | _ => m end in
  match apod_axis fill p (fst width) (f_ny m0) (along_y m0) m0 with
  | Err e => Err e
  | Ok m1 =>
      match apod_axis fill p (snd width) (f_nx m1) (along_x m1) m1 with
      | Err e => Err e
      | Ok m2 => Ok (match fill with FillMean | FillMedian => mapR (fun v => (v + offset)%R) m2 | _ => m2 end)
      end
  end.
