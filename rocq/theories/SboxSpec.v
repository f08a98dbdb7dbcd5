(* Vocabulary for C20: a slice box [start,end,step] along one axis stands for the index sequence
   of python's range(start,end,step). *)
From Verif Require Export Base.

Notation sbox := (Z * Z * Z)%type.

Definition range_len (a b s : Z) : Z :=
  if 0 <? s then (if a <? b then (b - a - 1) / s + 1 else 0)
  else if s <? 0 then (if b <? a then (a - b - 1) / (- s) + 1 else 0)
  else 0.
Definition indices (x : sbox) : list Z :=
  let '(a, b, s) := x in map (fun i => a + s * i) (zrange 0 (range_len a b s)).

Definition box_step (x : sbox) : Z := snd x.
(* non-zero step, end not on the wrong side of start *)
Definition box_ok (x : sbox) : Prop := let '(a, b, s) := x in s <> 0 /\ 0 <= (b - a) * Z.sgn s.
(* moreover the end is a whole number of steps away from the start *)
Definition box_exact (x : sbox) : Prop := let '(a, b, s) := x in s <> 0 /\ exists n, 0 <= n /\ b = a + n * s.

(* the pair of boxes (ibox,obox) sends output position t to input position p *)
Definition moves (io : sbox * sbox) (t p : Z) : Prop :=
  exists j, zget (indices (snd io)) j = Some t /\ zget (indices (fst io)) j = Some p.
(* same, one position per axis *)
Fixpoint moves_nd (io : list sbox * list sbox) (t p : list Z) : Prop :=
  match fst io, snd io, t, p with
  | [], [], [], [] => True
  | i :: is, o :: os, t :: ts, p :: ps => moves (i, o) t p /\ moves_nd (is, os) ts ps
  | _, _, _, _ => False
  end.

(* k is listed by one of the boxes *)
Definition boxes_In (k : Z) (l : list sbox) := exists r, In r l /\ In k (indices r).

(* equal modulo w *)
Definition cong (w x y : Z) : Prop := exists t, x = y + t * w.

(* output position t of a slice of an array that repeats with period w (0: does not repeat) and is
   physically c long (0: unlimited) is to be read from input position p *)
Definition wrap_target (x : sbox) (w c t p : Z) : Prop :=
  exists k, zget (indices x) t = Some k /\ p = (if w =? 0 then k else k mod w) /\ (c = 0 \/ 0 <= p < c).

(* same, for several axes; each axis has its own box, wrap and cap *)
Fixpoint targets (x : list (sbox * Z * Z)) (t p : list Z) : Prop :=
  match x, t, p with
  | [], [], [] => True
  | (b, w, c) :: x, t :: ts, p :: ps => wrap_target b w c t p /\ targets x ts ps
  | _, _, _ => False
  end.
