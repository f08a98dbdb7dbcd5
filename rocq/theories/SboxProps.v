(* C20: slice boxes. *)
From Verif Require Import Base SboxSpec SboxModel SboxLemmas.

(* sanity of the specification: the sequence of a box *)
Example indices_ex : indices (1, 8, 3) = [1; 4; 7] /\ indices (5, 0, -2) = [5; 3; 1] /\ indices (3, 3, 1) = [].
Proof. repeat split. Qed.

Theorem C20_sbox_size_partial : forall x, box_ok x -> sbox_size x = zlen (indices x).
Proof. exact sbox_size_spec. Qed.
Print Assumptions C20_sbox_size_partial.

Example C20_size_ex : box_ok (5, -1, -2) /\ sbox_size (5, -1, -2) = 3.
Proof. repeat split; discriminate. Qed.

(* an end on the wrong side of the start gives a negative size *)
Theorem C20_sbox_size_refuted : exists x, snd x <> 0 /\ sbox_size x <> zlen (indices x).
Proof. exists (5, 0, 1). split; discriminate. Qed.
Print Assumptions C20_sbox_size_refuted.

Theorem C20_sbox_fix : forall x, box_ok x -> box_exact (sbox_fix x) /\ indices (sbox_fix x) = indices x.
Proof. exact sbox_fix_spec. Qed.
Print Assumptions C20_sbox_fix.

Example C20_fix_ex : box_ok (0, 5, 2) /\ sbox_fix (0, 5, 2) = (0, 6, 2).
Proof. repeat split; discriminate. Qed.

Theorem C20_sbox_flip_partial : forall x, box_exact x ->
  box_exact (sbox_flip x) /\ indices (sbox_flip x) = rev (indices x).
Proof. exact sbox_flip_spec. Qed.
Print Assumptions C20_sbox_flip_partial.

Example C20_flip_ex : box_exact (2, 11, 3) /\ sbox_flip (2, 11, 3) = (8, -1, -3).
Proof. split; [|reflexivity]. split; [discriminate|]. exists 3. lia. Qed.

(* without the exact end (documented only at sbox_size) the flip lists other indices *)
Theorem C20_sbox_flip_refuted : exists x, box_ok x /\ indices (sbox_flip x) <> rev (indices x).
Proof. exists (0, 5, 2). split; [repeat split; discriminate|]. vm_compute. discriminate. Qed.
Print Assumptions C20_sbox_flip_refuted.

Theorem C20_sbox_intersect : forall a b, box_ok a -> box_ok b ->
  let res := sbox_intersect_1d a b 0 in
  (forall k, boxes_In k res <-> In k (indices a) /\ In k (indices b)) /\
  (length res <= 1)%nat /\ Forall (fun r => 0 < snd r) res.
Proof. exact sbox_intersect_1d_spec. Qed.
Print Assumptions C20_sbox_intersect.

Example C20_intersect_ex : box_ok (20, 0, -3) /\ box_ok (2, 30, 4) /\
  sbox_intersect_1d (20, 0, -3) (2, 30, 4) 0 = [(2, 26, 12)].
Proof. repeat split; discriminate. Qed.

(* with wrapping: boxes no longer than one period *)
Theorem C20_sbox_intersect_wrap_partial : forall a b w, box_ok a -> box_ok b -> 0 < w ->
  sbox_size a * Z.abs (snd a) <= w -> sbox_size b * Z.abs (snd b) <= w ->
  forall k, (exists x, boxes_In x (sbox_intersect_1d a b w) /\ cong w x k) <->
    (exists x, In x (indices a) /\ cong w x k) /\ (exists y, In y (indices b) /\ cong w y k).
Proof. exact sbox_intersect_1d_wrap_spec. Qed.
Print Assumptions C20_sbox_intersect_wrap_partial.

Example C20_intersect_wrap_ex : box_ok (8, 13, 1) /\ box_ok (-3, 4, 1) /\ sbox_size (8, 13, 1) * 1 <= 10 /\
  sbox_intersect_1d (8, 13, 1) (-3, 4, 1) 10 = [(8, 13, 1)].
Proof. repeat split; discriminate. Qed.

(* longer boxes lose intersections *)
Theorem C20_sbox_intersect_wrap_refuted : exists a b w k, box_ok a /\ box_ok b /\ 0 < w /\
  In k (indices a) /\ (exists y, In y (indices b) /\ cong w y k) /\
  ~ (exists x, boxes_In x (sbox_intersect_1d a b w) /\ cong w x k).
Proof.
  exists (0, 35, 7), (1, 2, 1), 10, 21.
  split; [split; [discriminate|vm_compute; discriminate]|].
  split; [split; [discriminate|vm_compute; discriminate]|].
  split; [reflexivity|]. split; [vm_compute; tauto|].
  split; [exists 1; split; [now left|]; exists (-2); reflexivity|].
  intros (x & (r & Hr & Hx) & _). vm_compute in Hr. exact Hr.
Qed.
Print Assumptions C20_sbox_intersect_wrap_refuted.

(* sbox_div: c such that arr[a] = arr[b][c] *)
Theorem C20_sbox_div : forall a b, box_ok a -> box_ok b -> indices a <> [] ->
  (forall k, In k (indices a) -> In k (indices b)) -> (snd b | snd a) ->
  map (zget (indices b)) (indices (sbox_div a b)) = map Some (indices a).
Proof. exact sbox_div_spec. Qed.
Print Assumptions C20_sbox_div.

Example C20_div_ex : let a := (12, 0, -4) in let b := (0, 20, 2) in
  box_ok a /\ box_ok b /\ indices a <> [] /\ (forall k, In k (indices a) -> In k (indices b)) /\ (snd b | snd a) /\
  sbox_div a b = (6, 0, -2).
Proof.
  cbv zeta. split; [split; [discriminate|vm_compute; discriminate]|].
  split; [split; [discriminate|vm_compute; discriminate]|]. split; [discriminate|].
  split; [|split; [exists (-2); reflexivity|reflexivity]].
  assert (E1 : indices (12, 0, -4) = [12; 8; 4]) by reflexivity.
  assert (E2 : indices (0, 20, 2) = [0; 2; 4; 6; 8; 10; 12; 14; 16; 18]) by reflexivity.
  rewrite E1, E2. cbn. tauto.
Qed.

(* sbox_mul: arr[c] = arr[a][b]; correct for boxes a with positive step. Indices of b past the
   end of a are dropped, as python slicing does. *)
Theorem C20_sbox_mul_partial : forall a b, box_ok a -> box_ok b -> 0 < snd a -> Forall (fun j => 0 <= j) (indices b) ->
  map Some (indices (sbox_mul a b)) =
    map (zget (indices a)) (filter (fun j => j <? zlen (indices a)) (indices b)).
Proof. exact sbox_mul_zget. Qed.
Print Assumptions C20_sbox_mul_partial.

Example C20_mul_ex : let a := (3, 20, 2) in let b := (7, 0, -3) in
  box_ok a /\ box_ok b /\ Forall (fun j => 0 <= j) (indices b) /\ indices (sbox_mul a b) = [17; 11; 5].
Proof.
  cbv zeta. split; [split; [discriminate|vm_compute; discriminate]|].
  split; [split; [discriminate|vm_compute; discriminate]|]. split; [|reflexivity].
  repeat constructor; vm_compute; discriminate.
Qed.

(* arr[9:None:-1][0:3] is arr[9],arr[8],arr[7], but the result lists 2,1,0 *)
Theorem C20_sbox_mul_refuted : exists a b, box_ok a /\ box_ok b /\
  Forall (fun j => 0 <= j < zlen (indices a)) (indices b) /\
  map Some (indices (sbox_mul a b)) <> map (zget (indices a)) (indices b).
Proof.
  exists (9, -1, -1), (0, 3, 1). split; [split; [discriminate|vm_compute; discriminate]|].
  split; [split; [discriminate|vm_compute; discriminate]|].
  split; [repeat constructor; vm_compute; try discriminate; reflexivity|]. vm_compute. discriminate.
Qed.
Print Assumptions C20_sbox_mul_refuted.

(* sbox_wrap, any number of axes, boxes with step +-1: output pixel t is read from input pixel p
   by one of the pieces exactly when it should be. *)
Theorem C20_sbox_wrap_partial : forall x,
  Forall (fun d => let '(b, w, c) := d in box_ok b /\ Z.abs (snd b) = 1 /\ 0 <= w /\ 0 <= c /\ (0 < w -> c <= w)) x ->
  exists res, sbox_wrap x = Some res /\
  forall t p, (exists io, In io res /\ moves_nd io t p) <-> targets x t p.
Proof. exact sbox_wrap_spec. Qed.
Print Assumptions C20_sbox_wrap_partial.

(* along one axis no output pixel is handled twice *)
Theorem C20_sbox_wrap_once_partial : forall x w c, box_ok x -> Z.abs (snd x) = 1 -> 0 <= w -> 0 <= c -> (0 < w -> c <= w) ->
  exists res, wrap_dim x w c = Some res /\
  (forall t p, (exists io, In io res /\ moves io t p) <-> wrap_target x w c t p) /\
  (forall a b io io' t p p', nth_error res a = Some io -> nth_error res b = Some io' ->
     moves io t p -> moves io' t p' -> a = b).
Proof. exact wrap_dim_spec. Qed.
Print Assumptions C20_sbox_wrap_once_partial.

(* a 2d box, capped in y and wrapping in x *)
Example C20_wrap_ex : let x := [((-1, 4, 1), 0, 3); ((12, 7, -1), 10, 8)] in
  Forall (fun d => let '(b, w, c) := d in box_ok b /\ Z.abs (snd b) = 1 /\ 0 <= w /\ 0 <= c /\ (0 < w -> c <= w)) x /\
  sbox_wrap x = Some [([(0, 3, 1); (0, 3, 1)], [(1, 4, 1); (2, -1, -1)])].
Proof.
  cbv zeta. split; [|reflexivity]. repeat constructor; vm_compute; congruence.
Qed.

(* steps larger than one: with period 10, box 0,3,6,..,18, the second piece starts at -1 *)
Theorem C20_sbox_wrap_refuted : exists x w res t p, box_ok x /\ 0 < w /\ wrap_dim x w 0 = Some res /\
  (exists io, In io res /\ moves io t p) /\ ~ wrap_target x w 0 t p.
Proof.
  exists (0, 20, 3), 10. eexists. exists 4, (-1). split; [repeat split; discriminate|]. split; [reflexivity|].
  split; [vm_compute; reflexivity|]. split.
  - eexists. split; [right; left; reflexivity|]. exists 0. split; reflexivity.
  - intros (k & Hk & Hp & _). vm_compute in Hk. apply Some_inj in Hk. subst k. discriminate.
Qed.
Print Assumptions C20_sbox_wrap_refuted.
