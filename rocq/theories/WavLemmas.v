From Verif Require Import Base SliceSpec SliceModel BlockSpec BlockModel BlockLemmas DownModel DownSpec DownLemmas RangeModel CatModel CatLemmas WavSpec WavModel.
Ltac Zify.zify_post_hook ::= idtac.

(** multimaps *)
Lemma chunks_concat {A} nx (rows : list (list A)) : Forall (fun r => zlen r = nx) rows ->
  chunks (Z.to_nat nx) (length rows) (concat rows) = rows.
Proof.
  induction 1 as [|r rows Hr HF IH]; [reflexivity|]. cbn [length chunks concat].
  assert (E : length r = Z.to_nat nx) by (unfold zlen in Hr; lia).
  rewrite <- E in *. rewrite firstn_app, Nat.sub_diag, firstn_all. cbn [firstn]. rewrite app_nil_r.
  rewrite skipn_app, Nat.sub_diag, skipn_all. cbn [skipn app]. rewrite IH. reflexivity.
Qed.
Lemma zlen_concat_const {A} nx (rows : list (list A)) : Forall (fun r => zlen r = nx) rows -> zlen (concat rows) = zlen rows * nx.
Proof. induction 1 as [|r rows Hr HF IH]; [reflexivity|]. cbn [concat]. rewrite zlen_app, zlen_cons, IH, Hr. lia. Qed.

Lemma mm_get_spec {A} (maps : list (ndmap A)) mm k m : Forall nd_wf maps -> multimap maps = Some mm -> nth_error maps k = Some m ->
  mm_get mm (Z.of_nat k) = Some m.
Proof.
  intros HW HM Hk. assert (E : mm = MM (concat (map (fun m => concat (nm_arr m)) maps)) (map geo_of maps)) by (destruct maps; [discriminate|now injection HM as <-]).
  subst mm. unfold mm_get. cbn [mm_flat mm_geos].
  assert (Hkl : (k < length maps)%nat) by (apply nth_error_Some; congruence).
  assert (EL : map geo_npix (map geo_of maps) = map zlen (map (fun m => concat (nm_arr m)) maps)).
  { rewrite !map_map. apply map_ext_in. intros x Hx. rewrite Forall_forall in HW. destruct (HW x Hx) as [W1 W2].
    rewrite (zlen_concat_const (nm_nx x)) by exact W2. unfold geo_npix, geo_of. cbn [fst snd]. lia. }
  rewrite EL. unfold pyget. destruct (Z.ltb_spec (Z.of_nat k) 0); [lia|]. destruct (Z.ltb_spec (Z.of_nat k + 1) 0); [lia|].
  rewrite !zget_cum by (unfold zlen; rewrite !map_length; lia). rewrite zget_nth_error, nth_error_map, Hk. cbn [option_map geo_of].
  replace (Z.to_nat (Z.of_nat k + 1)) with (S k) by lia. rewrite Nat2Z.id.
  rewrite (psl_concat _ k (concat (nm_arr m))) by (rewrite nth_error_map, Hk; reflexivity).
  rewrite Forall_forall in HW. destruct (HW m) as [W1 W2]; [eapply nth_error_In, Hk|].
  rewrite (zlen_concat_const (nm_nx m)), W1, Z.eqb_refl by exact W2. replace (Z.to_nat (nm_ny m)) with (length (nm_arr m)) by (unfold zlen in W1; lia).
  rewrite chunks_concat by exact W2. destruct m. reflexivity.
Qed.

(** pixelwise description of upgrade to a given shape and of map arithmetic *)
Lemma upgrade_to_spec (m : ndmap Q) fy fx oy ox ny nx : nd_wf m -> 0 < fy -> 0 < fx -> 0 <= oy <= ny -> 0 <= ox <= nx -> 0 < ny -> 0 < nx ->
  nm_ny m = nblock ny fy oy -> nm_nx m = nblock nx fx ox ->
  exists u, upgrade_to m fy fx oy ox true ny nx = Some u /\ nd_wf u /\ nm_ny u = ny /\ nm_nx u = nx /\
    forall y x, 0 <= y < ny -> 0 <= x < nx -> pixel u y x = pixel m (which_block fy oy y) (which_block fx ox x).
Proof.
  intros [W1 W2] Hfy Hfx Hoy Hox Hny Hnx Ey Ex. unfold upgrade_to.
  destruct (block_expand_spec (repeat 0%Q (Z.to_nat (nm_nx m))) (nm_arr m) fy ny oy) as (rows & Hr & Hrl & Hrv); [lia..|].
  rewrite Hr.
  assert (Hrows : Forall (fun r => zlen r = nm_nx m) rows).
  { apply Forall_of_zget. intros i r Hi. pose proof (zget_Some_range _ _ _ Hi). rewrite Hrv in Hi by lia. exact (Forall_zget _ _ _ _ W2 Hi). }
  destruct (sequence_map (fun r => block_expand 0%Q r fx nx ox true) rows
      (fun r s => zlen s = nx /\ forall k, 0 <= k < nx -> zget s k = zget r (which_block fx ox k))) as (out & Ho & HF).
  { intros r Hin. rewrite Forall_forall in Hrows. pose proof (Hrows r Hin) as Hlen.
    destruct (block_expand_spec 0%Q r fx nx ox) as (s & H1 & H2 & H3); [lia..|]. eauto. }
  rewrite Ho. unfold up_axis. eexists. split; [reflexivity|]. apply Forall2_zget_l in HF as [Hol Hog].
  assert (Hnxo : Forall (fun s => zlen s = nx) out).
  { apply Forall_of_zget. intros i s Hs. pose proof (zget_Some_range _ _ _ Hs). destruct (zget_in_range rows i) as [r Hri]; [lia|].
    destruct (Hog _ _ Hri) as (s' & Hs' & H1 & _). rewrite Hs in Hs'. injection Hs' as <-. exact H1. }
  assert (Hrow : DownModel.row_len out = nx) by (apply zget_sequence_row_len; [apply zlen_pos_ne; lia|exact Hnxo]).
  cbn [nm_ny nm_nx nm_arr nm_wcs]. split; [split; cbn [nm_arr nm_ny nm_nx]; [reflexivity|rewrite Hrow; exact Hnxo]|].
  split; [lia|]. split; [exact Hrow|]. intros y x Hy Hx. unfold pixel. cbn [nm_arr].
  destruct (zget_in_range rows y) as [r Hry]; [lia|]. destruct (Hog _ _ Hry) as (s & Hs & _ & Hsv). rewrite Hs, Hsv by lia.
  rewrite Hrv in Hry by lia. rewrite Hry. reflexivity.
Qed.

Lemma pixel_in (m : ndmap Q) y x : nd_wf m -> 0 <= y < nm_ny m -> 0 <= x < nm_nx m -> exists v, pixel m y x = Some v.
Proof.
  intros [W1 W2] Hy Hx. unfold pixel. destruct (zget_in_range (nm_arr m) y) as [r Hr]; [lia|]. rewrite Hr.
  apply zget_in_range. rewrite (Forall_zget _ _ _ _ W2 Hr). exact Hx.
Qed.
Lemma pixel_range (m : ndmap Q) y x v : nd_wf m -> pixel m y x = Some v -> 0 <= y < nm_ny m /\ 0 <= x < nm_nx m.
Proof.
  intros [W1 W2]. unfold pixel. destruct (zget (nm_arr m) y) as [r|] eqn:Hr; [|discriminate]. intros Hx.
  pose proof (zget_Some_range _ _ _ Hr). pose proof (zget_Some_range _ _ _ Hx). rewrite (Forall_zget _ _ _ _ W2 Hr) in *. lia.
Qed.
Lemma zget_combine {A B} (a : list A) (b : list B) k : zget (combine a b) k =
  match zget a k, zget b k with Some x, Some y => Some (x, y) | _, _ => None end.
Proof.
  unfold zget. destruct (k <? 0); [reflexivity|]. revert b. generalize (Z.to_nat k). induction a as [|x a IH]; intros n b.
  - destruct n; reflexivity.
  - destruct b as [|y b]; destruct n as [|n]; cbn [combine nth_error]; try reflexivity.
    + destruct (nth_error a n); reflexivity.
    + apply IH.
Qed.
Lemma zlen_combine_eq {A B} (a : list A) (b : list B) : zlen a = zlen b -> zlen (combine a b) = zlen a.
Proof. unfold zlen. rewrite combine_length. lia. Qed.

Lemma map_op_spec f (a b : ndmap Q) : nd_wf a -> nd_wf b -> nm_ny a = nm_ny b -> nm_nx a = nm_nx b ->
  exists c, map_op f a b = Some c /\ nd_wf c /\ nm_ny c = nm_ny a /\ nm_nx c = nm_nx a /\ nm_wcs c = nm_wcs a /\
    forall y x, pixel c y x = match pixel a y x, pixel b y x with Some u, Some v => Some (f u v) | _, _ => None end.
Proof.
  intros [A1 A2] [B1 B2] Ey Ex. unfold map_op. destruct (Z.eqb_spec (nm_ny a) (nm_ny b)); [|lia]. destruct (Z.eqb_spec (nm_nx a) (nm_nx b)); [|lia].
  cbn [andb]. eexists. split; [reflexivity|]. cbn [nm_ny nm_nx nm_wcs]. split; [|split; [reflexivity|split; [reflexivity|split; [reflexivity|]]]].
  - split; cbn [nm_ny nm_nx nm_arr]; [rewrite zlen_map, zlen_combine_eq; lia|].
    apply Forall_of_zget. intros i r. rewrite zget_map, zget_combine. destruct (zget (nm_arr a) i) as [p|] eqn:Ea; [|discriminate].
    destruct (zget (nm_arr b) i) as [q|] eqn:Eb; [|discriminate]. cbn [option_map fst snd]. intros H. apply Some_inj in H. subst r.
    rewrite zlen_map, zlen_combine_eq; rewrite (Forall_zget _ _ _ _ A2 Ea); [reflexivity|]. rewrite (Forall_zget _ _ _ _ B2 Eb). exact Ex.
  - intros y x. unfold pixel. cbn [nm_arr]. rewrite zget_map, zget_combine. destruct (zget (nm_arr a) y) as [p|] eqn:Ea; [|reflexivity].
    destruct (zget (nm_arr b) y) as [q|] eqn:Eb; cbn [option_map fst snd].
    + rewrite zget_map, zget_combine. destruct (zget p x), (zget q x); reflexivity.
    + destruct (zget p x); reflexivity.
Qed.

(** reconstruction *)
Section Haar.
Variable refpix : Z -> Z -> wcs -> Z * Z.
Notation off := (haar_off refpix).

(* the same maps put together without the flat array *)
Fixpoint recon (L : list (ndmap Q)) : option (ndmap Q) :=
  match L with
  | [] => None
  | [m] => Some m
  | d :: rest =>
    match recon rest with
    | None => None
    | Some m => let '(oy, ox) := off (geo_of d) in
      match upgrade_to m 2 2 oy ox true (nm_ny d) (nm_nx d) with Some up => map_op Qplus d up | None => None end
    end
  end.

Lemma fold_recon L wave : Forall nd_wf L -> multimap (rev L) = Some wave -> forall pre suf, L = pre ++ suf -> suf <> [] ->
  fold_left (haar_step refpix wave) (zrange 1 (zlen suf)) (mm_get wave 0) = recon suf.
Proof.
  intros HW HM. assert (Egeo : mm_geos wave = map geo_of (rev L)) by (destruct (rev L); [discriminate|now injection HM as <-]).
  assert (HWr : Forall nd_wf (rev L)) by (apply Forall_rev; exact HW).
  assert (Hget : forall pre d suf, L = pre ++ d :: suf -> nth_error (rev L) (length suf) = Some d).
  { intros pre d suf ->. rewrite rev_app_distr. cbn [rev]. rewrite <- app_assoc. rewrite nth_error_app2 by (rewrite rev_length; lia).
    rewrite rev_length, Nat.sub_diag. reflexivity. }
  intros pre suf. revert pre. induction suf as [|d suf IH]; intros pre HL Hne; [congruence|].
  destruct suf as [|d' suf'].
  - change (zlen [d]) with 1. rewrite zrange_empty by lia. cbn [fold_left recon]. change 0 with (Z.of_nat 0).
    apply (mm_get_spec (rev L)); [exact HWr|exact HM|]. apply (Hget pre d []). exact HL.
  - set (suf := d' :: suf') in *. assert (Hs : 1 <= zlen suf) by (unfold suf; rewrite zlen_cons; pose proof (zlen_nonneg suf'); lia).
    rewrite zlen_cons. replace (1 + zlen suf) with (zlen suf + 1) by lia. rewrite (zrange_snoc 1 (zlen suf)) by lia. rewrite fold_left_app.
    rewrite (IH (pre ++ [d])); [|rewrite <- app_assoc; exact HL|discriminate]. cbn [fold_left].
    change (recon (d :: suf)) with (match recon suf with
      | None => None
      | Some m => let '(oy, ox) := off (geo_of d) in
        match upgrade_to m 2 2 oy ox true (nm_ny d) (nm_nx d) with Some up => map_op Qplus d up | None => None end end).
    unfold haar_step. destruct (recon suf) as [m|]; [|reflexivity].
    pose proof (Hget pre d suf HL) as Hd. unfold pyget. destruct (Z.ltb_spec (zlen suf) 0); [lia|].
    unfold zlen. rewrite zget_nth_error, Egeo, nth_error_map, Hd. cbn [option_map geo_of].
    rewrite (mm_get_spec (rev L) wave (length suf) d HWr HM Hd). reflexivity.
Qed.

Lemma haar_off_range g : 0 <= fst (off g) <= 1 /\ 0 <= snd (off g) <= 1.
Proof.
  destruct g as [[ny nx] w]. unfold haar_off. destruct (refpix ny nx w) as [y x]. cbn [fst snd].
  pose proof (Z.mod_pos_bound y 2). pose proof (Z.mod_pos_bound x 2). lia.
Qed.

Lemma down_good n o : 0 < n -> 0 <= o <= 1 -> good_axis true n 2 o.
Proof. intros Hn Ho. repeat split; try lia; discriminate. Qed.

(* one level: the map is split into a coarse map and details that add up to it *)
Lemma haar_one (m : ndmap Q) oy ox : nd_wf m -> 0 < nm_ny m -> 0 < nm_nx m -> 0 <= oy <= 1 -> 0 <= ox <= 1 ->
  exists down up d, downgrade m 2 2 oy ox true = Some down /\ nd_wf down /\ 0 < nm_ny down /\ 0 < nm_nx down /\
    nm_ny down = nblock (nm_ny m) 2 oy /\ nm_nx down = nblock (nm_nx m) 2 ox /\
    upgrade_to down 2 2 oy ox true (nm_ny m) (nm_nx m) = Some up /\ nd_wf up /\ nm_ny up = nm_ny m /\ nm_nx up = nm_nx m /\
    map_op Qminus m up = Some d /\ nd_wf d /\ geo_of d = geo_of m /\
    (forall y x, pixel d y x = match pixel m y x, pixel up y x with Some u, Some v => Some (u - v)%Q | _, _ => None end) /\
    (forall y x, 0 <= y < nm_ny m -> 0 <= x < nm_nx m -> pixel up y x = pixel down (which_block 2 oy y) (which_block 2 ox x)).
Proof.
  intros Hw Hny Hnx Hoy Hox. pose proof (down_good _ oy Hny Hoy) as Gy. pose proof (down_good _ ox Hnx Hox) as Gx.
  destruct (downgrade_spec m 2 2 oy ox true Hw Gy Gx) as (down & Hd & Wd & Ey & Ex & _).
  assert (Py : 0 < nm_ny down) by (rewrite Ey; apply blk_n_pos; exact Gy). assert (Px : 0 < nm_nx down) by (rewrite Ex; apply blk_n_pos; exact Gx).
  destruct (upgrade_to_spec down 2 2 oy ox (nm_ny m) (nm_nx m) Wd) as (up & Hu & Wu & Uy & Ux & Up); [lia..|exact Ey|exact Ex|].
  destruct (map_op_spec Qminus m up Hw Wu) as (d & Hdd & Wdd & Dy & Dx & Dw & Dp); [lia..|].
  exists down, up, d. repeat (split; [first [assumption | lia]|]). split; [unfold geo_of; congruence|]. split; assumption.
Qed.

Lemma haar_levels_ok n : forall m, nd_wf m -> 0 < nm_ny m -> 0 < nm_nx m ->
  exists L, haar_levels refpix n m = Some L /\ length L = S n /\ Forall nd_wf L /\
    exists r, recon L = Some r /\ nd_wf r /\ identical_map r m.
Proof.
  induction n as [|n IH]; intros m Hw Hny Hnx; cbn [haar_levels].
  - exists [m]. split; [reflexivity|]. split; [reflexivity|]. split; [now constructor|]. exists m. cbn [recon]. split; [reflexivity|]. split; [exact Hw|].
    split; [reflexivity|]. split; [reflexivity|]. split; [reflexivity|]. intros y x. destruct (pixel m y x); reflexivity.
  - pose proof (haar_off_range (geo_of m)) as HO. destruct (off (geo_of m)) as [oy ox] eqn:Eo. cbn [fst snd] in HO. destruct HO as [Hoy Hox].
    destruct (haar_one m oy ox Hw Hny Hnx Hoy Hox) as (down & up & d & Hd & Wd & Pdy & Pdx & Edy & Edx & Hu & Wu & Uy & Ux & Hdd & Wdd & Gd & Dp & Up).
    rewrite Hd, Hu, Hdd. destruct (IH down Wd Pdy Pdx) as (L & HL & HLl & HLw & r & Hr & Wr & (Ry & Rx & Rw & Rp)). rewrite HL.
    exists (d :: L). split; [reflexivity|]. split; [cbn [length]; lia|]. split; [now constructor|].
    assert (Hne : L <> []) by (destruct L; [discriminate|discriminate]).
    assert (Erec : recon (d :: L) = match recon L with
      | None => None
      | Some m => let '(oy, ox) := off (geo_of d) in
        match upgrade_to m 2 2 oy ox true (nm_ny d) (nm_nx d) with Some up => map_op Qplus d up | None => None end end) by (destruct L; [congruence|reflexivity]).
    rewrite Erec, Hr, Gd, Eo. assert (Edd : nm_ny d = nm_ny m /\ nm_nx d = nm_nx m /\ nm_wcs d = nm_wcs m) by (unfold geo_of in Gd; injection Gd as G1 G2 G3; auto).
    destruct Edd as (D1 & D2 & D3). rewrite D1, D2.
    destruct (upgrade_to_spec r 2 2 oy ox (nm_ny m) (nm_nx m) Wr) as (up' & Hu' & Wu' & Uy' & Ux' & Up'); [lia..|].
    rewrite Hu'. destruct (map_op_spec Qplus d up' Wdd Wu') as (s & Hs & Ws & Sy & Sx & Sw & Sp); [lia..|].
    exists s. split; [exact Hs|]. split; [exact Ws|]. split; [lia|]. split; [lia|]. split; [congruence|].
    intros y x. rewrite Sp, Dp. destruct (pixel m y x) as [v|] eqn:Em; [|exact Logic.I].
    destruct (pixel_range m y x v Hw Em) as [Yy Xx].
    destruct (pixel_in up y x Wu) as [a Ea]; [lia..|]. destruct (pixel_in up' y x Wu') as [b Eb]; [lia..|]. rewrite Ea, Eb.
    rewrite Up in Ea by assumption. rewrite Up' in Eb by assumption. specialize (Rp (which_block 2 oy y) (which_block 2 ox x)).
    rewrite Ea, Eb in Rp. rewrite Rp. ring.
Qed.

(* the details average to zero over every block *)
Lemma detail_zero (m down up d : ndmap Q) oy ox : nd_wf m -> 0 < nm_ny m -> 0 < nm_nx m -> 0 <= oy <= 1 -> 0 <= ox <= 1 ->
  downgrade m 2 2 oy ox true = Some down -> nd_wf d -> nm_ny d = nm_ny m -> nm_nx d = nm_nx m -> nd_wf up -> nm_ny up = nm_ny m -> nm_nx up = nm_nx m ->
  (forall y x, pixel d y x = match pixel m y x, pixel up y x with Some u, Some v => Some (u - v)%Q | _, _ => None end) ->
  (forall y x, 0 <= y < nm_ny m -> 0 <= x < nm_nx m -> pixel up y x = pixel down (which_block 2 oy y) (which_block 2 ox x)) ->
  exists z, downgrade d 2 2 oy ox true = Some z /\ zero_map z.
Proof.
  intros Hw Hny Hnx Hoy Hox Hd Wd Ey Ex Wu Uy Ux Dp Up. pose proof (down_good _ oy Hny Hoy) as Gy. pose proof (down_good _ ox Hnx Hox) as Gx.
  destruct (downgrade_spec m 2 2 oy ox true Hw Gy Gx) as (down' & Hd' & Wdn & Ny & Nx & Mean & _). rewrite Hd in Hd'. apply Some_inj in Hd'. subst down'.
  destruct (downgrade_spec d 2 2 oy ox true Wd) as (z & Hz & Wz & Zy & Zx & Zmean & _); [rewrite Ey; exact Gy|rewrite Ex; exact Gx|].
  exists z. split; [exact Hz|]. rewrite Ey in Zy, Zmean. rewrite Ex in Zx, Zmean.
  intros Y X v Hv. destruct (pixel_range z Y X v Wz Hv) as [HY HX].
  rewrite Zy in HY. rewrite Zx in HX.
  destruct (blk_facts true _ 2 oy Y Gy HY) as [By By']. destruct (blk_facts true _ 2 ox X Gx HX) as [Bx Bx'].
  destruct (Mean Y X) as (w & Hw' & Ew); [lia..|]. destruct (Zmean Y X) as (v' & Hv' & Ev); [lia..|]. rewrite Hv in Hv'. apply Some_inj in Hv'. subst v'.
  cbv zeta in Ew, Ev. cbn [blk_lo blk_hi] in By, Bx, By', Bx'. cbn [blk_lo blk_hi] in Ew, Ev.
  set (y0 := block_lo 2 oy Y) in *. set (y1 := block_hi (nm_ny m) 2 oy Y) in *. set (x0 := block_lo 2 ox X) in *. set (x1 := block_hi (nm_nx m) 2 ox X) in *.
  assert (Es : (qsum_on (fun y => qsum_on (fun x => pixq d y x) x0 x1) y0 y1 ==
                qsum_on (fun y => qsum_on (fun x => pixq m y x) x0 x1) y0 y1 - w * inject_Z ((y1 - y0) * (x1 - x0)))%Q).
  { rewrite (qsum_on_ext _ (fun y => qsum_on (fun x => pixq m y x) x0 x1 + (-1) * (w * inject_Z (x1 - x0)))%Q).
    - rewrite qsum_on_plus, qsum_on_const by lia. rewrite inject_Z_mult. ring.
    - intros y Hy. rewrite (qsum_on_ext _ (fun x => pixq m y x + (-1) * w)%Q).
      + rewrite qsum_on_plus, qsum_on_const by lia. change (fun x => pixq m y x) with (pixq m y). ring.
      + intros x Hx. unfold pixq. rewrite Dp. destruct (pixel_in m y x Hw) as [p Ep]; [lia..|]. rewrite Ep.
        rewrite Up by lia. assert (E1 : which_block 2 oy y = Y) by (apply (which_block_iff (nm_ny m) 2 oy y Y); lia).
        assert (E2 : which_block 2 ox x = X) by (apply (which_block_iff (nm_nx m) 2 ox x X); lia). rewrite E1, E2, Hw'. ring. }
  rewrite Es, <- Ew in Ev. assert (N0 : ~ (inject_Z ((y1 - y0) * (x1 - x0)) == 0)%Q) by (apply inject_pos; nia).
  assert (E0 : (v * inject_Z ((y1 - y0) * (x1 - x0)) == 0)%Q) by (rewrite Ev; ring).
  apply Qmult_integral in E0. destruct E0; [assumption|contradiction].
Qed.

Lemma haar_chain n : forall m, nd_wf m -> 0 < nm_ny m -> 0 < nm_nx m -> forall L, haar_levels refpix n m = Some L ->
  exists c : nat -> ndmap Q, c 0%nat = m /\ nth_error L n = Some (c n) /\
    forall k, (k < n)%nat -> let o := off (geo_of (c k)) in downgrade (c k) 2 2 (fst o) (snd o) true = Some (c (S k)) /\
      exists d z, nth_error L k = Some d /\ geo_of d = geo_of (c k) /\ downgrade d 2 2 (fst o) (snd o) true = Some z /\ zero_map z.
Proof.
  induction n as [|n IH]; intros m Hw Hny Hnx L HL; cbn [haar_levels] in HL.
  - apply Some_inj in HL. subst L. exists (fun _ => m). split; [reflexivity|]. split; [reflexivity|]. intros k Hk. lia.
  - pose proof (haar_off_range (geo_of m)) as HO. destruct (off (geo_of m)) as [oy ox] eqn:Eo. cbn [fst snd] in HO. destruct HO as [Hoy Hox].
    destruct (haar_one m oy ox Hw Hny Hnx Hoy Hox) as (down & up & d & Hd & Wd & Pdy & Pdx & Edy & Edx & Hu & Wu & Uy & Ux & Hdd & Wdd & Gd & Dp & Up).
    rewrite Hd, Hu, Hdd in HL. destruct (haar_levels refpix n down) as [L'|] eqn:EL; [|discriminate]. apply Some_inj in HL. subst L.
    destruct (IH down Wd Pdy Pdx L' EL) as (c & C0 & Cn & Ck). exists (fun k => match k with O => m | S j => c j end).
    split; [reflexivity|]. split; [exact Cn|]. intros [|k] Hk; cbv zeta.
    + rewrite Eo. cbn [fst snd]. split; [rewrite C0; exact Hd|]. 
      destruct (detail_zero m down up d oy ox) as (z & Hz & Z0); try assumption; [unfold geo_of in Gd; congruence..|].
      exists d, z. split; [reflexivity|]. split; [exact Gd|]. split; assumption.
    + apply (Ck k). lia.
Qed.
End Haar.
