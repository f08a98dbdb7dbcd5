(* Models of utils.py: ang2rect, rect2ang, angdist, vec_angdist, rotmatrix; coordinates.py: euler_mat, euler_rot, recenter, decenter,
   tele2hor, hor2tele, tele2bore, bore2tele and the chain of conversions of transform_raw. One point at a time: the code does the same
   for every entry of its arrays. *)
From Coq Require Import Reals.
From Verif Require Import Base SkyrModel RotSpec.
Open Scope R_scope.

(* utils.py:1804-1815 *)
Definition ang2rect (zenith : bool) (a : R * R) : vec :=
  let '(phi, theta) := a in
  let ct := cos theta in let st := sin theta in let cp := cos phi in let sp := sin phi in
  if zenith then ((st * cp, st * sp), ct) else ((ct * cp, ct * sp), st).
(* utils.py:1817-1825; the second component is what return_r adds *)
Definition rect2ang (zenith : bool) (v : vec) : (R * R) * R :=
  let '((x, y), z) := v in
  let r := sqrt (x ^ 2 + y ^ 2) in
  let phi := atan2 y x in
  let theta := if zenith then atan2 r z else atan2 z r in
  ((phi, theta), r).
(* utils.py:1827-1847 *)
Definition angdist (zenith : bool) (a b : R * R) : R :=
  let dra := fst a - fst b in
  let sin_dra := sin dra in let cos_dra := cos dra in
  let cos' := if zenith then sin else cos in let sin' := if zenith then cos else sin in
  let a_sin_dec := sin' (snd a) in let a_cos_dec := cos' (snd a) in
  let b_sin_dec := sin' (snd b) in let b_cos_dec := cos' (snd b) in
  let y := sqrt ((b_cos_dec * sin_dra) ^ 2 + (a_cos_dec * b_sin_dec - a_sin_dec * b_cos_dec * cos_dra) ^ 2) in
  let x := a_sin_dec * b_sin_dec + a_cos_dec * b_cos_dec * cos_dra in
  atan2 y x.
(* utils.py:1849-1860. Opposite vectors divide by zero: numpy's arctan(inf) is pi/2. *)
Definition sub3 (a b : vec) : vec := ((fst (fst a) - fst (fst b), snd (fst a) - snd (fst b)), snd a - snd b).
Definition len3 (a : vec) : R := sqrt (fst (fst a) ^ 2 + snd (fst a) ^ 2 + snd a ^ 2).
Definition vec_angdist (v1 v2 : vec) : R :=
  let a := len3 v1 in let b := len3 v2 in let c := len3 (sub3 v1 v2) in
  let mu := if Rle_dec c b then c - (a - b) else b - (a - c) in
  let num := ((a - b) + c) * mu in let den := (a + (b + c)) * ((a - c) + b) in
  2 * (if Req_EM_T den 0 then PI / 2 else atan (sqrt (num / den))).

(* utils.py:1862-1891 *)
Definition rotmatrix (ang : R) (raxis : axis3) : mat :=
  let c := cos ang in let s := sin ang in
  match raxis with
  | Xax => ((((1, 0), 0), ((0, c), - s)), ((0, s), c))
  | Yax => ((((c, 0), s), ((0, 1), 0)), ((- s, 0), c))
  | Zax => ((((c, - s), 0), ((s, c), 0)), ((0, 0), 1))
  end.
(* np.einsum("ij,jk->ik") *)
Definition col (m : mat) (k : nat) : vec :=
  let c (v : vec) := match k with 0%nat => fst (fst v) | 1%nat => snd (fst v) | _ => snd v end in ((c (fst (fst m)), c (snd (fst m))), c (snd m)).
Definition mulm (a b : mat) : mat :=
  let row (v : vec) := ((dot v (col b 0), dot v (col b 1)), dot v (col b 2)) in ((row (fst (fst a)), row (snd (fst a))), row (snd a)).
(* coordinates.py:270-278 *)
Definition euler_mat (euler : (R * R) * R) (kind : (axis3 * axis3) * axis3) : mat :=
  let '((alpha, beta), gamma) := euler in
  let r1 := rotmatrix gamma (snd kind) in let r2 := rotmatrix beta (snd (fst kind)) in let r3 := rotmatrix alpha (fst (fst kind)) in
  mulm (mulm r3 r2) r1.
Definition zyz : (axis3 * axis3) * axis3 := ((Zax, Yax), Zax).
(* coordinates.py:280-287 *)
Definition euler_rot (euler : (R * R) * R) (kind : (axis3 * axis3) * axis3) (co : R * R) : R * R :=
  fst (rect2ang false (mulv (euler_mat euler kind) (ang2rect false co))).

(* A centre: (ra0, dec0), or (ra0, dec0, ra1, dec1). *)
Inductive center := Two (ra0 dec0 : R) | Four (ra0 dec0 ra1 dec1 : R).
Definition center4 (c : center) : ((R * R) * R) * R := match c with Two ra0 dec0 => (((ra0, dec0), 0), PI / 2) | Four ra0 dec0 ra1 dec1 => (((ra0, dec0), ra1), dec1) end.
(* coordinates.py:289-305 *)
Definition recenter (ctr : center) (restore : bool) (ang : R * R) : R * R :=
  let '(((ra0, dec0), ra1), dec1) := center4 ctr in
  let ra1 := if restore then ra1 + ra0 else ra1 in
  euler_rot ((ra1, dec0 - dec1), - ra0) zyz ang.
(* coordinates.py:307-312 *)
Definition decenter (ctr : center) (restore : bool) (ang : R * R) : R * R :=
  let '(((ra0, dec0), ra1), dec1) := center4 ctr in
  let ra1 := if restore then ra1 + ra0 else ra1 in
  euler_rot ((ra0, dec1 - dec0), - ra1) zyz ang.
(* The caller's centre after either call: with four arrays, "ra1 += ra0" changes the caller's array in place; numbers are not changed, and
   neither is anything of a centre of two (coordinates.py:303-304, 310-311). *)
Definition center_after (arrays : bool) (ctr : center) (restore : bool) : center :=
  match ctr with Four ra0 dec0 ra1 dec1 => if restore && arrays then Four ra0 dec0 (ra1 + ra0) dec1 else ctr | Two _ _ => ctr end.

(* coordinates.py:246-249, 251-254; the site's angles in radians *)
Definition tele2hor (base_az base_tilt : R) (co : R * R) : R * R := euler_rot ((base_az, base_tilt), - base_az) zyz co.
Definition hor2tele (base_az base_tilt : R) (co : R * R) : R * R := euler_rot ((base_az, - base_tilt), - base_az) zyz co.
(* coordinates.py:256-268 *)
Definition tele2bore (co bore : R * R) : R * R := recenter (Two (fst bore) (snd bore)) false co.
Definition bore2tele (co bore : R * R) : R * R := decenter (Two (fst bore) (snd bore)) false co.

(* Coordinate systems: those relative to the telescope, icrs, and the other systems astropy knows, by number *)
Inductive sys := Bore | Tele | Altaz | Icrs | Other (k : nat).
Definition sys_eqb (a b : sys) : bool := match a, b with Bore, Bore | Tele, Tele | Altaz, Altaz | Icrs, Icrs => true | Other i, Other j => Nat.eqb i j | _, _ => false end.
(* coordinates.py:314 nohor *)
Definition nohor (s : sys) : sys := match s with Altaz | Tele | Bore => Icrs | s => s end.
(* coordinates.py:154-176, one round of the loop: the system reached next; None: done *)
Definition next_sys (from to : sys) : option sys :=
  if sys_eqb from to then None else
  match from with
  | Bore => Some Tele
  | Tele => if sys_eqb to Bore then Some Bore else Some Altaz
  | Altaz => match to with Tele | Bore => Some Tele | _ => Some Icrs end
  | Icrs => match to with Altaz | Tele | Bore => Some Altaz | _ => Some (nohor to) end
  | Other _ => Some (nohor to)
  end.
(* the whole loop, at most n rounds; None: it goes on for longer *)
Fixpoint route (n : nat) (from to : sys) : option (list (sys * sys)) :=
  match next_sys from to with
  | None => Some []
  | Some m => match n with O => None | S n => option_map (cons (from, m)) (route n m to) end
  end.
(* coordinates.py:124-181 transform_raw. conv a b is the conversion from a to b: tele2hor, hor2cel and so on; a reference is a centre and
   whether to restore. The loop is given as many rounds as it needs. *)
Definition apply_ref (f : center -> bool -> R * R -> R * R) (r : option (center * bool)) (c : R * R) : R * R := match r with None => c | Some (ctr, restore) => f ctr restore c end.
Definition transform_raw (conv : sys -> sys -> R * R -> R * R) (from to : sys * option (center * bool)) (co : R * R) : option (R * R) :=
  let co := apply_ref decenter (snd from) co in
  match route 4 (fst from) (fst to) with
  | None => None
  | Some l => Some (apply_ref recenter (snd to) (fold_left (fun c (s : sys * sys) => conv (fst s) (snd s) c) l co))
  end.
