(* Models of the CG and Minres solvers of utils.py. *)
From Coq Require Import Reals.
From Verif Require Import Base CgSpec.
Open Scope R_scope.

(* utils.py:3325-3343: the attributes that change. err = None: the initial np.inf *)
Record cg (V : Type) := CG { cg_i : nat; cg_rz : R; cg_rz0 : R; cg_x : V; cg_r : V; cg_p : V; cg_err : option R }.
Arguments CG {V}. Arguments cg_i {V}. Arguments cg_rz {V}. Arguments cg_rz0 {V}. Arguments cg_x {V}. Arguments cg_r {V}. Arguments cg_p {V}. Arguments cg_err {V}.

(* utils.py:3311-3343 CG.__init__. Vectors are values: M must return a new vector, as default_M does. *)
Definition cg_init (U : vspace) (A M : vec U -> vec U) (dot : vec U -> vec U -> R) (b : vec U) (x0 : option (vec U)) : cg (vec U) :=
  let '(x, r) := match x0 with None => (vzero U, b) | Some x => (x, vsub U b (A x)) end in
  let z := M r in
  let rz := dot r z in
  CG 0 rz rz x r z None.

(* utils.py:3344-3363 CG.step; None: a division by zero *)
Definition cg_step (U : vspace) (A M : vec U -> vec U) (dot : vec U -> vec U -> R) (s : cg (vec U)) : option (cg (vec U)) :=
  let Ap := A (cg_p s) in
  let pAp := dot (cg_p s) Ap in
  if Req_EM_T pAp 0 then None else
  let alpha := cg_rz s / pAp in
  let x := vadd U (cg_x s) (vscale U alpha (cg_p s)) in
  let r := vsub U (cg_r s) (vscale U alpha Ap) in
  let z := M r in
  let next_rz := dot r z in
  if Req_EM_T (cg_rz0 s) 0 then None else
  let err := next_rz / cg_rz0 s in
  if Req_EM_T (cg_rz s) 0 then None else
  let beta := next_rz / cg_rz s in
  Some (CG (S (cg_i s)) next_rz (cg_rz0 s) x r (vadd U z (vscale U beta (cg_p s))) (Some err)).

Fixpoint iter {St : Type} (step : St -> option St) (n : nat) (s : St) : option St :=
  match n with O => Some s | S n => match step s with None => None | Some s => iter step n s end end.

(* utils.py:3364-3370 save: an hdf file with one entry per key *)
Inductive key := Ki | Krz | Krz0 | Kx | Kr | Kp | Kerr.
Inductive value (V : Type) := Vnat (n : nat) | Vnum (r : R) | Verr (r : option R) | Vvec (v : V).
Arguments Vnat {V}. Arguments Vnum {V}. Arguments Verr {V}. Arguments Vvec {V}.
Definition getattr {V} (s : cg V) (k : key) : value V :=
  match k with Ki => Vnat (cg_i s) | Krz => Vnum (cg_rz s) | Krz0 => Vnum (cg_rz0 s) | Kx => Vvec (cg_x s) | Kr => Vvec (cg_r s) | Kp => Vvec (cg_p s) | Kerr => Verr (cg_err s) end.
Definition keys : list key := [Ki; Krz; Krz0; Kx; Kr; Kp; Kerr].
Definition save {V} (s : cg V) : list (key * value V) := map (fun k => (k, getattr s k)) keys.

(* utils.py:3371-3378 load, into an already initialised solver *)
Definition setattr {V} (s : cg V) (k : key) (v : value V) : cg V :=
  match k, v with
  | Ki, Vnat n => CG n (cg_rz s) (cg_rz0 s) (cg_x s) (cg_r s) (cg_p s) (cg_err s)
  | Krz, Vnum a => CG (cg_i s) a (cg_rz0 s) (cg_x s) (cg_r s) (cg_p s) (cg_err s)
  | Krz0, Vnum a => CG (cg_i s) (cg_rz s) a (cg_x s) (cg_r s) (cg_p s) (cg_err s)
  | Kx, Vvec u => CG (cg_i s) (cg_rz s) (cg_rz0 s) u (cg_r s) (cg_p s) (cg_err s)
  | Kr, Vvec u => CG (cg_i s) (cg_rz s) (cg_rz0 s) (cg_x s) u (cg_p s) (cg_err s)
  | Kp, Vvec u => CG (cg_i s) (cg_rz s) (cg_rz0 s) (cg_x s) (cg_r s) u (cg_err s)
  | Kerr, Verr e => CG (cg_i s) (cg_rz s) (cg_rz0 s) (cg_x s) (cg_r s) (cg_p s) e
  | _, _ => s
  end.
Definition key_eqb (a b : key) : bool :=
  match a, b with Ki, Ki | Krz, Krz | Krz0, Krz0 | Kx, Kx | Kr, Kr | Kp, Kp | Kerr, Kerr => true | _, _ => false end.
Definition load {V} (s : cg V) (file : list (key * value V)) : cg V :=
  fold_left (fun s k => match find (fun e => key_eqb (fst e) k) file with Some (_, v) => setattr s k v | None => s end) keys s.

(* utils.py:3380-3427 Minres: x, r, p, q, rz, rz0, i; err and abserr do not influence the iteration *)
Record minres (V : Type) := MR { mr_x : V; mr_r : V; mr_p : V; mr_q : V; mr_rz : R; mr_i : nat }.
Arguments MR {V}. Arguments mr_x {V}. Arguments mr_r {V}. Arguments mr_p {V}. Arguments mr_q {V}. Arguments mr_rz {V}. Arguments mr_i {V}.
Definition mr_init (U : vspace) (A : vec U -> vec U) (dot : vec U -> vec U -> R) (b : vec U) (x0 : option (vec U)) : minres (vec U) :=
  let '(x, r) := match x0 with None => (vzero U, b) | Some x => (x, vsub U b (A x)) end in
  let z := A r in
  MR x r r z (dot r z) 0.
Definition mr_step (U : vspace) (A : vec U -> vec U) (dot : vec U -> vec U -> R) (s : minres (vec U)) : option (minres (vec U)) :=
  let qq := dot (mr_q s) (mr_q s) in
  if Req_EM_T qq 0 then None else
  let alpha := mr_rz s / qq in
  let x := vadd U (mr_x s) (vscale U alpha (mr_p s)) in
  let r := vsub U (mr_r s) (vscale U alpha (mr_q s)) in
  let z := A r in
  let next_rz := dot r z in
  if Req_EM_T (mr_rz s) 0 then None else
  let beta := next_rz / mr_rz s in
  Some (MR x r (vadd U (vscale U beta (mr_p s)) r) (vadd U (vscale U beta (mr_q s)) z) next_rz (S (mr_i s))).
