(* Models of small utilities of utils.py: sexagesimal numbers, cache_get, nearest_product. *)
From Coq Require Import Qround.
From Verif Require Import Base BinSpec.

(* utils.py:3131-3151 to_sexa of a scalar, over exact numbers; int() of a non-negative number is floor *)
Definition to_sexa (x : Q) : Z * Z * Z * Q :=
  let sign := if Qlt_le_dec x 0 then -1 else 1 in
  let x := (x * inject_Z sign)%Q in
  let deg := Qfloor x in
  let x := ((x - inject_Z deg) * 60)%Q in
  let min := Qfloor x in
  let sec := ((x - inject_Z min) * 60)%Q in
  (sign, deg, min, sec).

(* utils.py:3153-3155 from_sexa *)
Definition from_sexa (s : Z * Z * Z * Q) : Q :=
  let '(sign, deg, min, sec) := s in (inject_Z sign * (inject_Z deg + inject_Z min / 60 + sec / 3600))%Q.

(* utils.py:3157-3159: the values format_sexa hands to the format string, so all its text depends on *)
Definition format_sexa_args (x : Q) : Z * Z * Q :=
  let '(sign, deg, min, sec) := to_sexa x in (sign * deg, min, sec).

(* a python dict as association list *)
Definition dict_get {V} (d : list (Z * V)) (k : Z) : option V :=
  option_map snd (find (fun e => fst e =? k) d).

(* utils.py:3474-3478 cache_get; v is what op() gives in this call. Result: returned value, whether op was
   evaluated, and the cache afterwards. An empty dict and None are both falsy. *)
Definition cache_get {V} (cache : list (Z * V)) (key : Z) (v : V) : V * bool * list (Z * V) :=
  match cache with
  | [] => (v, true, [])
  | _ => match dict_get cache key with
         | None => (v, true, (key, v) :: cache)
         | Some w => (w, false, cache)
         end
  end.
(* a history of calls; each entry of the result is (key, returned value, evaluated) *)
Fixpoint cache_run {V} (cache : list (Z * V)) (calls : list (Z * V)) : list (Z * V * bool) :=
  match calls with
  | [] => []
  | (k, v) :: r => let '(w, e, c) := cache_get cache k v in (k, w, e) :: cache_run c r
  end.

(* l[i] = v for 0 <= i < len l *)
Fixpoint zset {A} (l : list A) (i : nat) (v : A) : list A :=
  match l, i with [], _ => [] | _ :: r, O => v :: r | x :: r, S i => x :: zset r i v end.

(* utils.py:785-794: the loop over the factors for one i *)
Fixpoint np_factors (below : bool) (n i : Z) (fs : list Z) (st : list bool * option Z) : list bool * option Z :=
  match fs with
  | [] => st
  | f :: fs =>
      let '(a, best) := st in
      let m := i * f in
      if below then
        if n <? m then np_factors below n i fs st
        else np_factors below n i fs (if m <? zlen a then zset a (Z.to_nat m) true else a, Some m)
      else
        let best := if (n <=? m) && match best with None => true | Some b => m <? b end then Some m else best in
        np_factors below n i fs (if m <? zlen a then zset a (Z.to_nat m) true else a, best)
  end.
Fixpoint np_loop (below : bool) (n : Z) (F : list Z) (is : list Z) (st : list bool * option Z) : list bool * option Z :=
  match is with
  | [] => st
  | i :: is => np_loop below n F is (match zget (fst st) i with Some true => np_factors below n i F st | _ => st end)
  end.
Fixpoint zmin_list (d : Z) (l : list Z) : Z := match l with [] => d | x :: r => zmin_list (Z.min d x) r end.

(* utils.py:771-795 nearest_product for an integer n (for other n, m > n and m >= n compare the same with
   floor(n) and ceil(n)) and positive factors. Outer None: min() of no factors. *)
Definition nearest_product (n : Z) (F : list Z) (below : bool) : option (option Z) :=
  if existsb (fun f => f =? 1) F then Some (Some n) else
  match below, F with
  | false, [] => None
  | _, _ =>
    let nmax := if below then n + 1 else n * zmin_list (hd 0 F) F + 1 in
    let a := zset (repeat false (Z.to_nat (nmax + 1))) 1 true in
    Some (snd (np_loop below n F (zrange 0 (n + 1)) (a, None)))
  end.
