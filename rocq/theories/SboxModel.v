From Verif Require Import Base SboxSpec.

(* All functions below are the per-axis content of the numpy code, which applies them elementwise
   to arrays [...,{start,end,step}]. sbox_fix0 (utils.py:1684-1692), which only adds a missing
   step of 1 and converts the dtype, is the identity on triples. *)

(* utils.py:1675-1682 sbox_size *)
Definition sbox_size (x : sbox) : Z :=
  let '(a, b, s) := x in
  let sg := Z.sgn s in
  ((b * sg - a * sg) - 1) / (s * sg) + 1.

(* utils.py:1694-1700 sbox_fix *)
Definition sbox_fix (x : sbox) : sbox := let '(a, b, s) := x in (a, a + sbox_size x * s, s).

(* utils.py:1667-1669 sbox_flip *)
Definition sbox_flip (x : sbox) : sbox := let '(a, b, s) := x in (b - s, a - s, - s).

(* utils.py:1790-1795 gcd, lcm; fuel bounds the recursion depth *)
Fixpoint gcd_rec (fuel : nat) (a b : Z) : Z :=
  if b =? 0 then a else match fuel with O => a | S fuel => gcd_rec fuel b (a mod b) end.
Definition pygcd (a b : Z) : Z := gcd_rec (S (Z.to_nat b)) a b.
Definition pylcm (a b : Z) : Z := a * b / pygcd a b.

(* utils.py:1616-1628: one turn of the loop over segs; 0 or 1 boxes. np.arange is indices. *)
Definition intersect_seg (a b : sbox) : list sbox :=
  let '(a, b) := if fst (fst b) <? fst (fst a) then (b, a) else (a, b) in
  let '(a0, a1, a2) := a in let '(b0, b1, b2) := b in
  let step := pylcm (Z.abs a2) (Z.abs b2) in
  let rel_inds := indices (b0 - a0, b0 - a0 + step, b2) in
  match filter (fun r => r mod a2 =? 0) rel_inds with
  | [] => []
  | m :: _ =>
      let start := m + a0 in
      let e := (Z.min (a1 - a2) (b1 - b2) - start) / step * step + start + step in
      if e <=? start then [] else [(start, e, step)]
  end.

(* utils.py:1604-1607, 1610-1612 *)
Definition shift_box (x : sbox) (d : Z) : sbox := let '(a, b, s) := x in (a - d, b - d, s).

(* utils.py:1596-1629 sbox_intersect_1d *)
Definition sbox_intersect_1d (a b : sbox) (wrap : Z) : list sbox :=
  let a := sbox_fix a in let b := sbox_fix b in
  let a := if snd a <? 0 then sbox_flip a else a in
  let b := if snd b <? 0 then sbox_flip b else b in
  let segs :=
    if wrap =? 0 then [(a, b)]
    else
      let a := shift_box a (fst (fst a) / wrap * wrap) in
      let b := shift_box b (fst (fst b) / wrap * wrap) in
      [(a, b)] ++ (if wrap <? snd (fst a) then [(shift_box a wrap, b)] else [])
               ++ (if wrap <? snd (fst b) then [(a, shift_box b wrap)] else []) in
  flat_map (fun ab => intersect_seg (fst ab) (snd ab)) segs.

(* utils.py:1631-1645 sbox_div with wrap=0 *)
Definition sbox_div (a b : sbox) : sbox :=
  let '(a0, a1, a2) := sbox_fix a in let '(b0, b1, b2) := sbox_fix b in
  let step := a2 / b2 in
  let num := (a1 - a0) / a2 in
  let start := (a0 - b0) / b2 in
  (start, start + step * num, step).

(* utils.py:1647-1665 sbox_mul *)
Definition sbox_mul (a b : sbox) : sbox :=
  let a := sbox_fix a in let b := sbox_fix b in
  let flip := xorb (snd a <? 0) (snd b <? 0) in
  let a := if snd a <? 0 then sbox_flip a else a in
  let b := if snd b <? 0 then sbox_flip b else b in
  let '(a0, a1, a2) := a in let '(b0, b1, b2) := b in
  let c0 := a0 + b0 * a2 in
  let c1 := Z.min (a0 + b1 * a2) a1 in
  let c2 := a2 * b2 in
  let res := sbox_fix (c0, c1, c2) in
  if flip then sbox_flip res else res.

(* utils.py:1744-1762: while ibox[1] > 0. Returns None when the fuel runs out. *)
Fixpoint wrap_loop (fuel : nat) (ibox : sbox) (i w c ilen : Z) (flip : bool) : option (list (sbox * sbox)) :=
  let '(i0, i1, i2) := ibox in
  if 0 <? i1 then
    match fuel with
    | O => None
    | S fuel =>
        let npre := Z.max ((- i0) / i2) 0 in
        let isub := sbox_fix (i0 + npre * i2, Z.min i1 w, i2) in
        let nsub := sbox_size isub in
        let isub := if c =? 0 then isub else sbox_fix (i0 + npre * i2, Z.min i1 c, i2) in
        let ncap := if c =? 0 then nsub else sbox_size isub in
        let osub := if flip then (ilen - 1 - i, ilen - 1 - (i + ncap), -1) else (i, i + ncap, 1) in
        match wrap_loop fuel (i0 - w, i1 - w, i2) (i + nsub) w c ilen flip with
        | None => None
        | Some rest => Some ((if 0 <? ncap then [(isub, osub)] else []) ++ rest)
        end
    end
  else Some [].

(* utils.py:1732-1778: the body of the loop over dimensions in sbox_wrap *)
Definition wrap_dim (x : sbox) (w c : Z) : option (list (sbox * sbox)) :=
  let ibox := sbox_fix x in
  let ilen := sbox_size ibox in
  let flip := snd ibox <? 0 in
  let ibox := if flip then sbox_flip ibox else ibox in
  if w =? 0 then
    let '(i0, i1, i2) := ibox in
    let npre := if c =? 0 then 0 else Z.max ((- i0) / i2) 0 in
    let npost := if c =? 0 then 0 else Z.max ((i1 - i2 - (c - 1)) / i2) 0 in
    if npre + npost <? ilen then
      let isub := (i0 + npre * i2, i1 - npost * i2, i2) in
      let osub := if flip then (ilen - 1 - npre, npost - 1, -1) else (npre, ilen - npost, 1) in
      Some [(isub, osub)]
    else Some []
  else
    let ibox := shift_box ibox (fst (fst ibox) / w * w) in
    wrap_loop (Z.to_nat (snd (fst ibox))) ibox 0 w c ilen flip.

(* utils.py:1780-1784: outer product of the per-axis lists, first axis slowest *)
Fixpoint outer {A} (ls : list (list A)) : list (list A) :=
  match ls with [] => [[]] | l :: ls => flat_map (fun x => map (cons x) (outer ls)) l end.

Fixpoint all_some {A} (l : list (option A)) : option (list A) :=
  match l with
  | [] => Some []
  | None :: _ => None
  | Some x :: l => match all_some l with None => None | Some r => Some (x :: r) end
  end.

(* utils.py:1702-1788 sbox_wrap: one (sbox,wrap,cap) per axis *)
Definition sbox_wrap (x : list (sbox * Z * Z)) : option (list (list sbox * list sbox)) :=
  match all_some (map (fun d => wrap_dim (fst (fst d)) (snd (fst d)) (snd d)) x) with
  | None => None
  | Some dim_boxes => Some (map (fun ps => (map fst ps, map snd ps)) (outer dim_boxes))
  end.
