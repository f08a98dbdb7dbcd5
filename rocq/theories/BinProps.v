(* C24: linbin, expbin, bin_data, bin_expand, edges2bins, bins2edges. *)
From Verif Require Import Base BlockSpec BlockModel BlockLemmas BinSpec BinModel BinLemmas.

(* what "partition" means for bins that tile a range: every member is in exactly one bin *)
Theorem C24_tiles_partition : forall lo hi bins k, tiles_range lo hi bins -> lo <= k < hi -> exists! i, in_bin bins i k.
Proof. exact tiles_unique. Qed.
Print Assumptions C24_tiles_partition.

(* linbin(n, nbin): nbin bins of almost equal size; non-empty when there are no more bins than points *)
Theorem C24_linbin_partial : forall n nb, 0 <= n -> 1 <= nb ->
  let bins := linbin n (Some nb) in
  zlen bins = nb /\ tiles_range 0 n bins /\
  (forall b, In b bins -> n / nb <= bin_size b <= n / nb + 1) /\
  (nb <= n -> forall b, In b bins -> 0 < bin_size b).
Proof. exact linbin_spec. Qed.
Print Assumptions C24_linbin_partial.

(* the default: nbin is the integer nearest sqrt(n), and the bins are never empty *)
Theorem C24_linbin_default : forall n, 1 <= n ->
  let bins := linbin n None in
  tiles_range 0 n bins /\ (forall b, In b bins -> 0 < bin_size b) /\
  let s := zlen bins in (2 * s - 1) * (2 * s - 1) <= 4 * n + 1 /\ 4 * n < (2 * s + 1) * (2 * s + 1).
Proof.
  intros n Hn. destruct (nint_sqrt_spec n ltac:(lia)) as (H1 & H2 & H3 & H4). specialize (H4 Hn).
  destruct (linbin_spec n (nint_sqrt n)) as (L1 & L2 & L3 & L4); [lia|lia|]. change (linbin n None) with (linbin n (Some (nint_sqrt n))).
  cbv zeta in *. rewrite L1. split; [exact L2|]. split; [apply L4; lia|]. split; assumption.
Qed.
Print Assumptions C24_linbin_default.

(* linbin(n, bsize=b): equal bins that cover [0,n), going past n by less than one bin *)
Theorem C24_linbin_bsize_partial : forall n b, 0 <= n -> 1 <= b ->
  let bins := linbin_bsize n None b in
  exists e, tiles_range 0 e bins /\ n <= e < n + b /\ (forall x, In x bins -> bin_size x = b).
Proof. intros n b Hn Hb. destruct (linbin_bsize_spec n b Hn Hb) as (_ & H2 & H3 & H4). exists (zceil n b * b). auto. Qed.
Print Assumptions C24_linbin_bsize_partial.

Theorem C24_linbin_refuted :
  (exists n nb, 1 <= n /\ 1 <= nb /\ exists b, In b (linbin n (Some nb)) /\ bin_size b = 0) /\
  (exists n b, 1 <= n /\ 1 <= b /\ ~ tiles_range 0 n (linbin_bsize n None b)).
Proof.
  split; [exists 2, 4; repeat split; try lia; exists (0, 0); vm_compute; auto|].
  exists 5, 3. repeat split; try lia. vm_compute. intuition discriminate.
Qed.
Print Assumptions C24_linbin_refuted.

(* expbin, for any integer array tmp that line 2505 could give: nbin+1 non-decreasing values from 0 to n.
   Whenever it returns, the bins tile [0,n), have nmin points or more, or at most nmax if that is given *)
Theorem C24_expbin_partial : forall fuel tmp n nbin nmin nmax bins, exp_ok tmp n nbin -> 1 <= nbin -> 1 <= nmin -> 0 <= nmax ->
  expbin fuel tmp n nbin nmin nmax = Some bins ->
  tiles_range 0 n bins /\ bins <> [] /\ (forall b, In b bins -> 0 < bin_size b) /\
  (nmax = 0 -> forall b, In b bins -> nmin <= bin_size b) /\ (0 < nmax -> forall b, In b bins -> bin_size b <= nmax).
Proof. exact expbin_spec. Qed.
Print Assumptions C24_expbin_partial.
Example C24_expbin_ex : exp_ok [0; 1; 5; 14; 40; 99] 99 5.
Proof.
  repeat split. intros i j Hi Hj.
  assert (i = 0 \/ i = 1 \/ i = 2 \/ i = 3 \/ i = 4 \/ i = 5) as [->|[->|[->|[->|[->| ->]]]]] by lia;
  (assert (j = 0 \/ j = 1 \/ j = 2 \/ j = 3 \/ j = 4 \/ j = 5) as [->|[->|[->|[->|[->| ->]]]]] by lia); vm_compute; try discriminate; lia.
Qed.

(* it returns after one pass when the last of the raw bins holds nmin points *)
Theorem C24_expbin_returns_partial : forall tmp n nbin nmin nmax, exp_ok tmp n nbin -> 1 <= nbin -> nmin <= znth tmp nbin - znth tmp (nbin - 1) ->
  exists bins, expbin 1 tmp n nbin nmin nmax = Some bins.
Proof. exact expbin_returns. Qed.
Print Assumptions C24_expbin_returns_partial.

(* but not always: expbin(5) loops forever. Here tmp is what line 2505 computes for n=5, nbin=2. *)
Theorem C24_expbin_diverges_refuted : exists tmp n nbin nmin, exp_ok tmp n nbin /\ 1 <= nbin /\ 1 <= nmin /\
  forall fuel, expbin fuel tmp n nbin nmin 0 = None.
Proof.
  exists [0; 1; 5], 5, 2, 8. split.
  - repeat split. intros i j Hi Hj. assert (i = 0 \/ i = 1 \/ i = 2) as [->|[->| ->]] by lia;
    (assert (j = 0 \/ j = 1 \/ j = 2) as [->|[->| ->]] by lia); vm_compute; try discriminate; lia.
  - repeat split; try lia. intros fuel. unfold expbin. enough (E : exp_loop fuel 2 8 [0; 1; 5] 0 [0] = None) by (change (znth [0; 1; 5] 0) with 0; rewrite E; reflexivity).
    induction fuel as [|fuel IH]; [reflexivity|]. cbn [exp_loop]. change (0 <? 2) with true. cbv iota.
    change (exp_scan 8 [0; 1; 5] (zrange (0 + 1) (2 + 1)) 0 [0]) with (0, [0]). exact IH.
Qed.
Print Assumptions C24_expbin_diverges_refuted.

(* bin_data: entry i is op of the members of bin i *)
Theorem C24_bin_data : forall A (op : list A -> A) bins d i a b, tiles_range 0 (zlen d) bins -> zget bins i = Some (a, b) ->
  zget (bin_data op bins d) i = Some (op (sub d a b)).
Proof. intros A. exact bin_data_spec. Qed.
Print Assumptions C24_bin_data.
Theorem C24_bin_data_total : forall bins d, tiles_range 0 (zlen d) bins -> (qsum (bin_data qsum bins d) == qsum d)%Q.
Proof.
  intros bins d Ht. rewrite (bin_data_sum bins d 0 Ht) by lia. unfold sub. rewrite Z.sub_0_r. cbn [Z.to_nat skipn].
  unfold zlen. rewrite Nat2Z.id, firstn_all. reflexivity.
Qed.
Print Assumptions C24_bin_data_total.

(* bin_expand: every member of bin i gets value i; binning it again gives the values back *)
Theorem C24_bin_expand : forall A (zero : A) bins bd n, tiles_range 0 n bins -> length bd = length bins -> bins <> [] ->
  exists y, bin_expand zero bins bd = Some y /\ zlen y = n /\ forall i k, in_bin bins i k -> zget y k = zget bd i.
Proof. intros A. exact bin_expand_spec. Qed.
Print Assumptions C24_bin_expand.
Theorem C24_bin_roundtrip : forall bins bd n, tiles_range 0 n bins -> (forall b, In b bins -> 0 < bin_size b) -> bins <> [] -> length bd = length bins ->
  exists y, bin_expand 0%Q bins bd = Some y /\ zlen y = n /\ Forall2 Qeq (bin_data qmean bins y) bd.
Proof. intros. apply bin_data_expand; auto using qmean_repeat. Qed.
Print Assumptions C24_bin_roundtrip.

(* bins2edges does not undo edges2bins: it takes the end of bin number 1, not of the last bin *)
Theorem C24_bins2edges_partial : forall a b c, bins2edges (edges2bins [a; b; c]) = Some [a; b; c].
Proof. exact bins2edges_two. Qed.
Print Assumptions C24_bins2edges_partial.
Theorem C24_bins2edges_refuted : (exists e, bins2edges (edges2bins e) = Some [0; 2; 4; 4] /\ e = [0; 2; 4; 6]) /\
  (exists e, length e = 2%nat /\ bins2edges (edges2bins e) = None).
Proof. split; [exists [0; 2; 4; 6]; split; reflexivity|exists [0; 2]; split; reflexivity]. Qed.
Print Assumptions C24_bins2edges_refuted.

Example C24_ex : linbin 10 None = [(0, 3); (3, 6); (6, 10)] /\ linbin_bsize 7 None 3 = [(0, 3); (3, 6); (6, 9)] /\
  expbin 1 [0; 1; 5; 14; 40; 99] 99 5 8 30 = Some [(0, 14); (14, 40); (40, 69); (69, 99)] /\
  bin_data zsum [(0, 2); (2, 5)] [1; 2; 3; 4; 5] = [3; 12] /\ bin_expand 0 [(0, 2); (2, 5)] [7; 8] = Some [7; 7; 8; 8; 8].
Proof. repeat split; reflexivity. Qed.
