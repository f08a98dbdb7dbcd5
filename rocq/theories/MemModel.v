(* pixell/device.py: the memory pool behind ArrayPoolCpu/ArrayPoolGpu.
   Memory is a line of addresses. The underlying allocator (AllocCpu 99-100, AllocGpu 102-109) is an oracle: every
   operation carries the address p it would return if asked; only operations that ask use it. Byte contents are not modelled. *)
From Coq Require Import ZArith List Bool. From Verif Require Import MemSpec. Import ListNotations. Open Scope Z_scope.

(* an arena: the block obtained from the allocator, and the aligned part of it the pool uses *)
Record arena := AR { ar_raw : buf; ar_ptr : Z; ar_size : Z }.
(* device.py:283 *)
Definition round_up (a b : Z) : Z := (a + b - 1) / b * b.
(* device.py:118-122 AllocAligned.alloc. buf[off:off+n] is clipped to the block as in numpy *)
Definition aligned_alloc (align p n : Z) : arena :=
  let off := (- p) mod align in
  AR (p, n + align - 1) (p + off) (Z.min (off + n) (n + align - 1) - off).
(* Mempool's attributes. arenas is kept newest first, so arenas[-1] is the head *)
Record pool := MP { p_arenas : list arena; p_cap : Z; p_size : Z; p_pos : Z }.
(* device.py:149-160 free *)
Definition fresh : pool := MP [] 0 0 0.
(* the slice [i:j] of an arena *)
Definition cut (a : arena) (i j : Z) : buf := (ar_ptr a + Z.min i (ar_size a), Z.max 0 (Z.min j (ar_size a) - Z.min i (ar_size a))).
(* device.py:131-147 alloc: the buffer, the new state, and the block asked of the allocator if any *)
Definition alloc (align : Z) (st : pool) (n p : Z) : buf * pool * option arena :=
  let eff := round_up n align in
  let room := match p_arenas st with [] => false | a :: _ => negb (ar_size a <? p_pos st + n) end in
  if room then
    match p_arenas st with
    | a :: _ => (cut a (p_pos st) (p_pos st + n), MP (p_arenas st) (Z.max (p_cap st) (p_size st)) (p_size st) (p_pos st + eff), None)
    | [] => ((0, 0), st, None)
    end
  else
    let a := aligned_alloc align p n in
    (cut a 0 n, MP (a :: p_arenas st) (Z.max (p_cap st) (p_size st + eff)) (p_size st + eff) eff, Some a).
(* device.py:161-173 reset *)
Definition reset (align : Z) (st : pool) (p : Z) : pool * option arena :=
  if p_cap st =? 0 then (MP [] (p_cap st) 0 0, None)
  else if negb (match p_arenas st with [a] => true | _ => false end) || negb (match p_arenas st with a :: _ => ar_size a =? p_cap st | [] => false end)
  then let a := aligned_alloc align p (p_cap st) in (MP [a] (p_cap st) 0 0, Some a)
  else (MP (p_arenas st) (p_cap st) 0 0, None).
(* device.py:179-182 ArrayPoolCpu.empty with a byte count: reset first unless told not to *)
Definition empty (align : Z) (st : pool) (n : Z) (rst : bool) (p q : Z) : buf * pool :=
  let st := if rst then fst (reset align st q) else st in fst (alloc align st n p).

(* a history of calls; each carries the address the allocator would answer *)
Inductive op := OAlloc (n p : Z) | OReset (p : Z) | OFree.
(* the state after a history, with the buffers handed out since the last reset or free, newest first,
   and the number of times the underlying allocator was called *)
Definition step (align : Z) (s : pool * list buf * Z) (o : op) : pool * list buf * Z :=
  let '(st, live, c) := s in
  match o with
  | OAlloc n p => let '(b, st', new) := alloc align st n p in (st', b :: live, match new with Some _ => c + 1 | None => c end)
  | OReset p => let '(st', new) := reset align st p in (st', [], match new with Some _ => c + 1 | None => c end)
  | OFree => (fresh, [], c)
  end.
Definition run (align : Z) (h : list op) : pool * list buf * Z := fold_left (step align) h (fresh, [], 0).
