(* C10: Fourier resampling keeps the shared frequencies, and up then down is the identity. *)
From Verif Require Import Base SliceSpec ArrModel PixModel FresSpec FresModel FresLemmas.

(* Every frequency the two sizes share keeps its place, and everything else is zero. Guard: along each axis the smaller of
   the two sizes is even (C10_odd_refuted shows why). *)
Theorem C10_modes_partial {A} (zero : A) nrm op (fi : farr A) oy ox :
  0 < f_ny fi -> 0 < f_nx fi -> 0 < oy -> 0 < ox -> Z.even (Z.min (f_ny fi) oy) = true -> Z.even (Z.min (f_nx fi) ox) = true ->
  exists o, resample_fft zero nrm op fi oy ox = Some o /\ f_ny o = oy /\ f_nx o = ox /\
  (forall ky kx, has_freq (f_ny fi) ky -> has_freq oy ky -> has_freq (f_nx fi) kx -> has_freq ox kx ->
     f_at o (fidx oy ky) (fidx ox kx) = op zero (nrm (f_at fi (fidx (f_ny fi) ky) (fidx (f_nx fi) kx)))) /\
  (forall y x, 0 <= y < oy -> 0 <= x < ox -> ~ (has_freq (f_ny fi) (sfreq oy y) /\ has_freq (f_nx fi) (sfreq ox x)) -> f_at o y x = zero).
Proof.
  intros H1 H2 H3 H4 Ey Ex. destruct (resample_fft_spec zero nrm op fi oy ox H1 H2 H3 H4) as (o & E & Ny & Nx & V).
  exists o. split; [exact E|]. split; [exact Ny|]. split; [exact Nx|]. split.
  - intros ky kx A1 A2 A3 A4. rewrite V, !fsrc_freq; try assumption; try reflexivity; unfold has_freq in *; lia.
  - intros y x Hy Hx N. rewrite V.
    destruct (fsrc (f_ny fi) oy y) eqn:Fy; [|reflexivity]. destruct (fsrc (f_nx fi) ox x) eqn:Fx; [|reflexivity]. exfalso. apply N. split.
    + assert (D : has_freq (Z.min (f_ny fi) oy) (sfreq oy y) \/ ~ has_freq (Z.min (f_ny fi) oy) (sfreq oy y)) by (unfold has_freq; lia).
      destruct D as [D|D]; [unfold has_freq in *; lia|]. rewrite (fsrc_none _ oy y) in Fy by assumption. discriminate.
    + assert (D : has_freq (Z.min (f_nx fi) ox) (sfreq ox x) \/ ~ has_freq (Z.min (f_nx fi) ox) (sfreq ox x)) by (unfold has_freq; lia).
      destruct D as [D|D]; [unfold has_freq in *; lia|]. rewrite (fsrc_none _ ox x) in Fx by assumption. discriminate.
Qed.
Print Assumptions C10_modes_partial.

(* Without the guard, for odd sizes too: every shared frequency except the largest one of an odd size keeps its place. *)
Theorem C10_modes_odd_partial {A} (zero : A) nrm op (fi : farr A) oy ox ky kx :
  0 < f_ny fi -> 0 < f_nx fi -> 0 < oy -> 0 < ox ->
  has_freq (Z.min (f_ny fi) oy) ky -> has_freq (Z.min (f_nx fi) ox) kx ->
  2 * ky + 1 <> Z.min (f_ny fi) oy -> 2 * kx + 1 <> Z.min (f_nx fi) ox ->
  exists o, resample_fft zero nrm op fi oy ox = Some o /\
     f_at o (fidx oy ky) (fidx ox kx) = op zero (nrm (f_at fi (fidx (f_ny fi) ky) (fidx (f_nx fi) kx))).
Proof.
  intros H1 H2 H3 H4 A1 A2 N1 N2. destruct (resample_fft_spec zero nrm op fi oy ox H1 H2 H3 H4) as (o & E & Ny & Nx & V).
  exists o. split; [exact E|]. rewrite V.
  assert (D : forall n k, has_freq n k -> 2 * k + 1 <> n -> has_freq n (k + 1) \/ Z.even n = true).
  { intros n k Hk Hn. unfold has_freq in *. destruct (Z.even n) eqn:Ev; [right; reflexivity|left].
    assert (O : Z.odd n = true) by (rewrite <- Z.negb_even, Ev; reflexivity). apply Z.odd_spec in O as [m Hm]. lia. }
  rewrite !fsrc_freq_odd; try assumption; try (apply D; assumption). reflexivity.
Qed.
Print Assumptions C10_modes_odd_partial.

(* Resampling to a larger size and back gives the input back, whatever the two sizes: c and d are the two normalisations. *)
Theorem C10_roundtrip {A} (zero : A) (op : A -> A -> A) (c d : A -> A) (fi : farr A) oy ox :
  (forall a, op zero a = a) -> (forall a, d (c a) = a) -> 0 < f_ny fi <= oy -> 0 < f_nx fi <= ox ->
  exists o b, resample_fft zero c op fi oy ox = Some o /\ resample_fft zero d op o (f_ny fi) (f_nx fi) = Some b /\
  f_ny b = f_ny fi /\ f_nx b = f_nx fi /\ forall y x, 0 <= y < f_ny fi -> 0 <= x < f_nx fi -> f_at b y x = f_at fi y x.
Proof.
  intros Ho Hdc Hy Hx. destruct (resample_fft_spec zero c op fi oy ox) as (o & E & Ny & Nx & V); try lia.
  destruct (resample_fft_spec zero d op o (f_ny fi) (f_nx fi)) as (b & F & My & Mx & W); try lia.
  exists o, b. split; [exact E|]. split; [exact F|]. split; [exact My|]. split; [exact Mx|]. intros y x Y X. rewrite W, Ny, Nx.
  destruct (fsrc_back (f_ny fi) oy y) as (i & -> & Ei); try lia. destruct (fsrc_back (f_nx fi) ox x) as (j & -> & Ej); try lia.
  rewrite V, Ei, Ej, !Ho. apply Hdc.
Qed.
Print Assumptions C10_roundtrip.

(* The 1d version for time-ordered data: same places, same round trip. *)
Theorem C10_axis_modes_partial {A} (zero : A) (fd : list A) n : 0 < zlen fd -> 0 < n -> Z.even (Z.min (zlen fd) n) = true ->
  let o := resample_axis zero fd n in
  zlen o = n /\
  (forall k, has_freq (zlen fd) k -> has_freq n k -> zget o (fidx n k) = zget fd (fidx (zlen fd) k)) /\
  (forall i, 0 <= i < n -> ~ has_freq (zlen fd) (sfreq n i) -> zget o i = Some zero).
Proof.
  intros H1 H2 He o. destruct (resample_axis_spec zero fd n H1 H2) as (L & V). fold o in L, V. split; [exact L|]. split.
  - intros k A1 A2. rewrite V; [|unfold fidx, has_freq in *; destruct (0 <=? k) eqn:?; lia]. rewrite fsrc_freq; try assumption; [reflexivity|unfold has_freq in *; lia].
  - intros i Hi N. rewrite V by exact Hi. rewrite fsrc_none; try assumption; [reflexivity|unfold has_freq in *; lia].
Qed.
Print Assumptions C10_axis_modes_partial.

Theorem C10_axis_roundtrip {A} (zero : A) (fd : list A) n : 0 < zlen fd <= n -> resample_axis zero (resample_axis zero fd n) (zlen fd) = fd.
Proof.
  intros H. destruct (resample_axis_spec zero fd n) as (L & V); try lia. destruct (resample_axis_spec zero (resample_axis zero fd n) (zlen fd)) as (L2 & W); try lia.
  apply zget_ext. intros i. destruct (Z_lt_dec i 0); [rewrite !zget_out by lia; reflexivity|]. destruct (Z_lt_dec i (zlen fd)); [|rewrite !zget_out by lia; reflexivity].
  rewrite W by lia. rewrite L. destruct (fsrc_back (zlen fd) n i) as (j & -> & Ej); try lia.
  rewrite V, Ej; [reflexivity|]. pose proof (half (Z.min (zlen fd) n) ltac:(lia)).
  unfold fsrc in Ej. destruct ((0 <=? j) && _) eqn:F; [lia|]. destruct ((n - _ <=? j) && _) eqn:G; [lia|discriminate].
Qed.
Print Assumptions C10_axis_roundtrip.

(* Odd sizes: growing 3 entries to 6, the frequency 1 ends up at frequency -2. *)
Theorem C10_odd_refuted : exists fd : list Z,
  sfreq 3 1 = 1 /\ zget fd 1 = Some 7 /\ zget (resample_axis 0 fd 6) (fidx 6 1) = Some 0 /\ zget (resample_axis 0 fd 6) (fidx 6 (-2)) = Some 7.
Proof. exists [5; 7; 9]. vm_compute. auto. Qed.
Print Assumptions C10_odd_refuted.

Theorem C10_odd_map_refuted : exists fi o : farr Z, f_ny fi = 3 /\ f_nx fi = 3 /\
  resample_fft 0 (fun a => a) (fun _ b => b) fi 6 6 = Some o /\
  f_at fi (fidx 3 1) (fidx 3 0) <> 0 /\ f_at o (fidx 6 1) (fidx 6 0) = 0 /\ f_at o (fidx 6 (-2)) (fidx 6 0) = f_at fi (fidx 3 1) (fidx 3 0).
Proof.
  set (fi := FA 3 3 (fun y x => 10 * y + x + 1)). destruct (resample_fft_spec 0 (fun a : Z => a) (fun _ b => b) fi 6 6) as (o & E & Ny & Nx & V); cbn; try lia.
  exists fi, o. split; [reflexivity|]. split; [reflexivity|]. split; [exact E|]. rewrite !V. vm_compute. split; [discriminate|]. auto.
Qed.
Print Assumptions C10_odd_map_refuted.

Example C10_ex_axis : resample_axis 0 [1;2;3;4] 7 = [1;2;0;0;0;3;4] /\ resample_axis 0 [1;2;3;4;5;6;7] 4 = [1;2;6;7].
Proof. vm_compute. auto. Qed.
Example C10_ex_hyp : has_freq 4 (-2) /\ has_freq 7 (-2) /\ fidx 7 (-2) = 5 /\ sfreq 7 5 = -2 /\ ~ has_freq 4 (sfreq 7 3).
Proof. unfold has_freq, sfreq, fidx. cbn. lia. Qed.
