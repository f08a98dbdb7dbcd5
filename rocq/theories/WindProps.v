(* C23: angle rewinding and unwinding; C66: time scales; C67: repeat_filler and cumsplit. *)
From Coq Require Import Qabs Qround.
From Verif Require Import Base WindSpec WindModel WindLemmas.

Theorem C23_rewind : forall ref p a, (0 < p)%Q ->
  same_angle p a (rewind ref p a) /\ within (ref - p / 2) (ref + p / 2) (rewind ref p a) /\
  (forall b, same_angle p a b -> within (ref - p / 2) (ref + p / 2) b -> (b == rewind ref p a)%Q).
Proof.
  intros ref p a Hp. destruct (rewind_spec ref p a Hp) as [H1 H2]. split; [exact H1|]. split; [exact H2|].
  intros b [k Hk] Hb. destruct H1 as [l Hl]. symmetry.
  assert (E : (ref - p / 2 + p == ref + p / 2)%Q) by field.
  apply (same_angle_unique p (ref - p / 2)); auto.
  - exists (k - l). rewrite Hk, Hl. unfold Z.sub. rewrite inject_Z_plus, inject_Z_opp. ring.
  - destruct H2. split; [assumption|]. now rewrite E.
  - destruct Hb. split; [assumption|]. now rewrite E.
Qed.
Print Assumptions C23_rewind.

Example C23_rewind_ex : (rewind 0 360 270 == -90)%Q /\ (rewind 180 360 (-10) == 350)%Q /\ (rewind 0 360 180 == -180)%Q.
Proof. repeat split; reflexivity. Qed.

(* unwind, both reference modes *)
Theorem C23_unwind : forall mode ref p a, (0 < p)%Q ->
  let out := unwind mode ref p a in
  length out = length a /\
  (forall i x, nth_error a i = Some x -> exists y, nth_error out i = Some y /\ same_angle p x y) /\
  no_jump (p / 2) out /\
  (forall i y, i = match mode with RLeft => 0%nat | RMiddle => Nat.div (length a) 2 end ->
     nth_error out i = Some y -> within (ref - p / 2) (ref + p / 2) y).
Proof. exact unwind_spec. Qed.
Print Assumptions C23_unwind.

(* with mask_nan=True: bad samples stay bad, the others are unwound *)
Theorem C23_unwind_nan : forall mode ref p a, (0 < p)%Q ->
  let out := unwind_nan mode ref p a in
  length out = length a /\
  (forall i, nth_error a i = Some None -> nth_error out i = Some None) /\
  (forall i x, nth_error a i = Some (Some x) -> exists y, nth_error out i = Some (Some y) /\ same_angle p x y) /\
  (forall i x y, nth_error out i = Some (Some x) -> nth_error out (S i) = Some (Some y) -> (Qabs (y - x) <= p / 2)%Q).
Proof. exact unwind_nan_spec. Qed.
Print Assumptions C23_unwind_nan.

Example C23_unwind_ex : map Qred (unwind RLeft 0 10 [4; 8; 1; 7; 2]%Q) = [4; 8; 11; 7; 12]%Q /\
  map Qred (unwind RMiddle 0 10 [4; 8; 1; 7; 2]%Q) = [-6; -2; 1; -3; 2]%Q.
Proof. split; reflexivity. Qed.

(* fast_rewind moves values that are at most one period off into [ref,ref+p) *)
Theorem C23_fast_rewind : forall ref p a, (0 < p)%Q -> within (ref - p) (ref + 2 * p) a ->
  same_angle p a (fast_rewind ref p a) /\ within ref (ref + p) (fast_rewind ref p a).
Proof. exact fast_rewind_spec. Qed.
Print Assumptions C23_fast_rewind.

(* so the default ref = p/2 does not give [0,p): a value that is already there is moved out *)
Theorem C23_fast_rewind_default_refuted : exists p a, (0 < p)%Q /\ within 0 p a /\ ~ within 0 p (fast_rewind_default p a).
Proof. exists 8%Q, 1%Q. split; [reflexivity|]. split; [split; [discriminate|reflexivity]|]. intros [_ H]. vm_compute in H. discriminate. Qed.
Print Assumptions C23_fast_rewind_default_refuted.

Theorem C66_time_scales : forall t,
  (mjd2ctime (ctime2mjd t) == t /\ ctime2mjd (mjd2ctime t) == t /\
   djd2mjd (mjd2djd t) == t /\ mjd2djd (djd2mjd t) == t /\
   jd2mjd (mjd2jd t) == t /\ mjd2jd (jd2mjd t) == t /\
   djd2ctime (ctime2djd t) == t /\ ctime2djd (djd2ctime t) == t /\
   jd2ctime (ctime2jd t) == t /\ ctime2jd (jd2ctime t) == t)%Q.
Proof.
  intros t. unfold djd2ctime, ctime2djd, jd2ctime, ctime2jd, mjd2ctime, ctime2mjd, djd2mjd, mjd2djd, jd2mjd, mjd2jd.
  repeat split; field.
Qed.
Print Assumptions C66_time_scales.

(* the unix epoch is MJD 40587 and JD 2440587.5, and a day is 86400 s *)
Theorem C66_epoch : (ctime2mjd 0 == 40587 /\ ctime2jd 0 == 4881175 # 2 /\ ctime2djd 0 == 51135 # 2)%Q /\
  forall t, (ctime2mjd (t + 86400) == ctime2mjd t + 1 /\ ctime2jd (t + 86400) == ctime2jd t + 1 /\ ctime2djd (t + 86400) == ctime2djd t + 1)%Q.
Proof.
  split; [repeat split; reflexivity|]. intros t. unfold ctime2jd, ctime2djd, mjd2djd, mjd2jd, ctime2mjd. repeat split; field.
Qed.
Print Assumptions C66_epoch.

(* the result has n elements and is d, reversed d, d, ... *)
Theorem C67_repeat_filler_partial : forall (A : Type) (d : list A) n, d <> [] -> 0 < n ->
  exists r, repeat_filler d n = Some r /\ zlen r = n /\
    forall k, 0 <= k < n -> zget r k = let m := zlen d in let j := k mod (2 * m) in
      if j <? m then zget d j else zget d (2 * m - 1 - j).
Proof. exact @repeat_filler_spec. Qed.
Print Assumptions C67_repeat_filler_partial.

(* n=0 raises instead of giving an empty array *)
Theorem C67_repeat_filler_zero_refuted : exists d : list Z, d <> [] /\ repeat_filler d 0 = None.
Proof. exists [1; 2]. split; [discriminate|reflexivity]. Qed.
Print Assumptions C67_repeat_filler_zero_refuted.

Example C67_filler_ex : repeat_filler [1; 2; 3] 8 = Some [1; 2; 3; 3; 2; 1; 1; 2].
Proof. reflexivity. Qed.

(* entry i is the largest k for which the first k sizes fit in the first i+1 capacities *)
Theorem C67_cumsplit : forall sizes caps, Forall (fun x => 0 <= x) sizes ->
  length (cumsplit sizes caps) = length caps /\
  forall i r, nth_error (cumsplit sizes caps) i = Some r ->
    0 <= r <= zlen sizes /\
    forall k, (k <= length sizes)%nat -> (zsum (firstn k sizes) <= zsum (firstn (S i) caps) \/ k = 0%nat <-> Z.of_nat k <= r).
Proof. exact cumsplit_spec. Qed.
Print Assumptions C67_cumsplit.

Example C67_cumsplit_ex : cumsplit [1; 1; 2; 0; 1; 3; 1] [3; 2; 5] = [2; 5; 7].
Proof. reflexivity. Qed.
