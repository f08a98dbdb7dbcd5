From Verif Require Import Base RangeModel AlmModel AlmLemmas HpModel DistModel MskSpec MskModel.
From Verif Require DistSpec DistProps.
From Coq Require Import Reals Lra Lia.
Ltac Zify.zify_post_hook ::= idtac.
Open Scope Z_scope.
Import DistSpec.

(* ---- a closest element of a list ---- *)
Lemma argmin (f : Z -> R) (l : list Z) : l <> [] -> exists q, In q l /\ forall q', In q' l -> (f q <= f q')%R.
Proof.
  induction l as [|a l IH]; intros H; [congruence|]. destruct l as [|b l].
  - exists a. split; [now left|]. intros q' [<-|[]]. lra.
  - destruct IH as (q & Hq & Hm); [discriminate|].
    destruct (Rle_dec (f a) (f q)) as [Hle|Hgt].
    + exists a. split; [now left|]. intros q' [<-|H']; [lra|]. specialize (Hm _ H'). lra.
    + exists q. split; [now right|]. intros q' [<-|H']; [lra|]. now apply Hm.
Qed.
Lemma closest_exists (d : Z -> Z -> R) n (B : Z -> bool) p : (exists q, 0 <= q < n /\ B q = true) ->
  exists q, 0 <= q < n /\ B q = true /\ forall q', 0 <= q' < n -> B q' = true -> (d p q <= d p q')%R.
Proof.
  intros (q0 & Hq0 & Hb0).
  destruct (argmin (d p) (filter B (zrange 0 n))) as (q & Hq & Hm).
  - intros E. assert (Hin : In q0 (filter B (zrange 0 n))) by (apply filter_In; split; [apply zrange_In; lia|easy]). rewrite E in Hin. destruct Hin.
  - apply filter_In in Hq. destruct Hq as [Hq Hb]. apply zrange_In in Hq. exists q. split; [lia|]. split; [easy|].
    intros q' H1 H2. apply Hm. apply filter_In. split; [apply zrange_In; lia|easy].
Qed.
Lemma none_or (d : Z -> Z -> R) n (B : Z -> bool) (p : Z) : (forall q, 0 <= q < n -> B q = false) \/ exists q, 0 <= q < n /\ B q = true /\ forall q', 0 <= q' < n -> B q' = true -> (d p q <= d p q')%R.
Proof.
  destruct (existsb B (zrange 0 n)) eqn:E.
  - right. apply closest_exists. apply existsb_exists in E. destruct E as (q & Hq & Hb). apply zrange_In in Hq. exists q. split; [lia|easy].
  - left. intros q Hq. destruct (B q) eqn:Eq; [|easy]. assert (existsb B (zrange 0 n) = true); [|congruence].
    apply existsb_exists. exists q. split; [apply zrange_In; lia|easy].
Qed.

Lemma mget_zget m p : 0 <= p < zlen m -> zget m p = Some (mget m p).
Proof. intros H. unfold mget. destruct (zget m p) eqn:E; [easy|]. exfalso. revert E. unfold zget, zlen in *. destruct (p <? 0) eqn:El; [lia|]. intros E. apply nth_error_None in E. lia. Qed.

Lemma pix_split ny nx p : 1 <= nx -> 0 <= p < ny * nx -> p = (p / nx) * nx + p mod nx /\ 0 <= p / nx < ny /\ 0 <= p mod nx < nx.
Proof.
  intros Hx Hp. pose proof (Z.div_mod p nx ltac:(lia)) as E. pose proof (Z.mod_pos_bound p nx ltac:(lia)).
  assert (0 <= p / nx) by (apply Z.div_pos; lia). assert (p / nx < ny) by (apply Z.div_lt_upper_bound; nia). lia.
Qed.
Lemma pix_div nx y x : 0 <= x < nx -> (y * nx + x) / nx = y.
Proof. intros H. rewrite Z.div_add_l by lia. rewrite Z.div_small by lia. lia. Qed.
Lemma pix_mod nx y x : 0 <= x < nx -> (y * nx + x) mod nx = x.
Proof. intros H. rewrite Z.add_comm, Z.mod_add by lia. apply Z.mod_small. lia. Qed.
Lemma pix_range ny nx y x : 0 <= y < ny -> 0 <= x < nx -> 0 <= y * nx + x < ny * nx.
Proof. intros. nia. Qed.

(* ---- the closest pixel of a set is on the border or beside a pixel outside the set ---- *)
Section Edge.
Variables (ny nx : Z) (d : Z -> Z -> R).
Hypothesis (Hny : 1 <= ny) (Hnx : 1 <= nx) (G : grid_distance ny nx d).

(* q is the closest to p with B; p is not in B *)
Lemma closest_is_edge (B : Z -> bool) (differ : Z -> bool) p q : 0 <= p < ny * nx -> 0 <= q < ny * nx ->
  B p = false -> B q = true -> (forall q', 0 <= q' < ny * nx -> B q' = true -> (d p q <= d p q')%R) ->
  (forall k, 0 <= k < ny * nx -> B k = false -> differ k = true) -> edge_pixel B differ ny nx q.
Proof.
  intros Hp Hq Bp Bq Hm Hd. destruct (pix_split ny nx q Hnx Hq) as (E & Hy & Hx).
  exists (q / nx), (q mod nx). split; [easy|]. split; [easy|]. split; [easy|]. split; [easy|].
  destruct (Z.eq_dec (q / nx) 0); [now left|]. destruct (Z.eq_dec (q / nx) (ny - 1)); [tauto|].
  destruct (Z.eq_dec (q mod nx) 0); [tauto|]. destruct (Z.eq_dec (q mod nx) (nx - 1)); [tauto|].
  do 4 right. destruct (gd_step ny nx d G p (q / nx) (q mod nx) Hp) as (dy & dx & Hs & Hlt); [lia|lia|intros E2; rewrite E2, <- E in Bp; congruence|].
  exists dy, dx. split; [easy|]. rewrite <- E in Hlt.
  assert (Hr : 0 <= (q / nx + dy) * nx + (q mod nx + dx) < ny * nx) by (apply pix_range; lia).
  apply Hd; [easy|]. destruct (B ((q / nx + dy) * nx + (q mod nx + dx))) eqn:Eb; [|easy]. specialize (Hm _ Hr Eb). lra.
Qed.

Lemma edge_in own differ q : edge_pixel own differ ny nx q -> 0 <= q < ny * nx /\ own q = true.
Proof. intros (y & x & Hy & Hx & -> & Ho & _). split; [now apply pix_range|easy]. Qed.
End Edge.

Section Search.
Variables (n : Z) (d : Z -> Z -> R) (df : list Z -> option R -> Z -> R * Z).
Hypothesis (F : finds_closest n d df).
Definition lim_ok (rmax : option R) : Prop := forall r, rmax = Some r -> (0 < r)%R.

(* distance_from, when a closest pixel of B is among the points and all the points are in B *)
Lemma distance_from_limited pts rmax p (B : Z -> bool) : lim_ok rmax -> 0 <= p < n ->
  (forall q, In q pts -> 0 <= q < n /\ B q = true) ->
  (forall q, 0 <= q < n -> B q = true -> (forall q', 0 <= q' < n -> B q' = true -> (d p q <= d p q')%R) -> In q pts) ->
  limited d n (fun q => B q = true) p rmax (fst (distance_from df pts rmax p)) /\
  (let k := snd (distance_from df pts rmax p) in
   (exists q, zget pts k = Some q /\ 0 <= k /\ fst (distance_from df pts rmax p) = Some (d p q) /\ closest d n (fun q => B q = true) p (d p q)) \/
   (k = -1 /\ fst (distance_from df pts rmax p) = rmax /\ ((forall q, 0 <= q < n -> B q = false) \/ exists r v, rmax = Some r /\ closest d n (fun q => B q = true) p v /\ (r <= v)%R))).
Proof.
  intros Hl Hp Hin Hall. unfold distance_from. destruct pts as [|q0 pts0] eqn:Ep.
  - cbn [fst snd]. assert (Hno : forall q, 0 <= q < n -> B q = false).
    { destruct (none_or d n B p) as [H|(q & Hq & Hb & Hm)]; [easy|]. destruct (Hall q Hq Hb Hm). }
    split; [apply lim_empty; intros q Hq E; rewrite (Hno q Hq) in E; discriminate|]. right. split; [easy|]. split; [easy|now left].
  - rewrite <- Ep in *.
    assert (Elim : match rmax with Some r => if Rle_dec r 0 then None else Some r | None => None end = rmax).
    { destruct rmax as [r|]; [|easy]. specialize (Hl r eq_refl). destruct (Rle_dec r 0); [lra|easy]. }
    rewrite Elim.
    assert (Hne : pts <> []) by (rewrite Ep; discriminate).
    assert (Hfa : Forall (fun q => 0 <= q < n) pts) by (apply Forall_forall; intros q Hq; apply (Hin q Hq)).
    destruct (none_or d n B p) as [Hno|(qm & Hqm & Hbm & Hmm)].
    { destruct (Hin q0) as [H1 H2]; [rewrite Ep; now left|]. rewrite (Hno _ H1) in H2. discriminate. }
    assert (Hcl : closest d n (fun q => B q = true) p (d p qm)).
    { split; [now exists qm|]. intros q Hq Hb. now apply Hmm. }
    pose proof (Hall qm Hqm Hbm Hmm) as Hinm.
    destruct (F pts rmax p Hne Hfa Hp Hl) as [(k & q & Hk & Edf & Hmin & Hr)|(r & -> & Edf & Hmin)]; rewrite Edf; cbn [fst snd].
    + pose proof (nth_error_In _ _ Hk) as Hq. destruct (Hin q Hq) as [Hq1 Hq2].
      rewrite Forall_forall in Hmin. specialize (Hmin _ Hinm). specialize (Hmm q Hq1 Hq2).
      assert (Ed : d p q = d p qm) by lra.
      assert (Hcl' : closest d n (fun q => B q = true) p (d p q)) by now rewrite Ed.
      split.
      * destruct rmax as [r|]; [apply lim_near; [easy|now apply Hr]|now apply lim_none].
      * left. exists q. split; [|split; [lia|split; easy]]. unfold zget. destruct (Z.of_nat k <? 0) eqn:Ez; [lia|]. now rewrite Nat2Z.id.
    + rewrite Forall_forall in Hmin. specialize (Hmin _ Hinm). split; [now apply lim_far with (d p qm)|].
      right. split; [easy|]. split; [easy|]. right. exists r, (d p qm). easy.
Qed.
End Search.

(* ---- the brute force search ---- *)
Section Simple.
Variables (d : Z -> Z -> R) (lim : option R) (p : Z).
Let step := fun '(k, best) q =>
      (k + 1, match best with
              | None => match lim with
                        | Some r => if Rlt_dec (d p q) r then Some (d p q, k) else None
                        | None => Some (d p q, k)
                        end
              | Some (v, _) => if Rlt_dec (d p q) v then Some (d p q, k) else best
              end) : Z * option (R * Z).
Definition sinv (pts : list Z) (st : Z * option (R * Z)) : Prop := fst st = zlen pts /\
  match snd st with
  | None => (pts <> [] -> exists r, lim = Some r) /\ (forall r, lim = Some r -> Forall (fun q => (r <= d p q)%R) pts)
  | Some (v, j) => exists k q, j = Z.of_nat k /\ nth_error pts k = Some q /\ v = d p q /\ Forall (fun q' => (d p q <= d p q')%R) pts /\ (forall r, lim = Some r -> (d p q <= r)%R)
  end.
Lemma sinv_all pts : sinv pts (fold_left step pts (0, None)).
Proof.
  induction pts as [|q pts IH] using rev_ind.
  - split; [easy|]. cbn. split; [congruence|]. intros. constructor.
  - rewrite fold_left_app. cbn [fold_left]. destruct (fold_left step pts (0, None)) as [k best]. destruct IH as [Ek IH]. cbn [fst snd] in *.
    unfold step. split; [cbn [fst]; unfold zlen in *; rewrite app_length; cbn [length]; lia|]. cbn [snd].
    assert (Hnew : nth_error (pts ++ [q]) (length pts) = Some q) by (rewrite nth_error_app2 by lia; now rewrite Nat.sub_diag).
    destruct best as [[v j]|].
    + destruct IH as (i & q0 & Ej & Hi & Ev & Hm & Hr). destruct (Rlt_dec (d p q) v) as [Hlt|Hge].
      * exists (length pts), q. split; [unfold zlen in Ek; lia|]. split; [easy|]. split; [easy|]. split.
        -- apply Forall_app. split; [|apply Forall_cons; [lra|apply Forall_nil]]. eapply Forall_impl; [|exact Hm]. cbn. intros a Ha. lra.
        -- intros r E. specialize (Hr r E). lra.
      * exists i, q0. split; [easy|]. split; [rewrite nth_error_app1; [easy|apply nth_error_Some; congruence]|]. split; [easy|]. split; [|easy].
        apply Forall_app. split; [easy|]. apply Forall_cons; [lra|apply Forall_nil].
    + destruct IH as [Hn Hf]. destruct lim as [r|] eqn:El.
      * specialize (Hf r eq_refl). destruct (Rlt_dec (d p q) r) as [Hlt|Hge].
        -- exists (length pts), q. split; [unfold zlen in Ek; lia|]. split; [easy|]. split; [easy|]. split.
           ++ apply Forall_app. split; [|apply Forall_cons; [lra|apply Forall_nil]]. eapply Forall_impl; [|exact Hf]. cbn. intros a Ha. lra.
           ++ intros r' E. injection E as <-. lra.
        -- split; [intros _; now exists r|]. intros r' E. injection E as <-. apply Forall_app. split; [easy|]. apply Forall_cons; [lra|apply Forall_nil].
      * destruct pts as [|a pts]; [|destruct (Hn ltac:(discriminate)) as [? ?]; discriminate].
        exists O, q. split; [unfold zlen in Ek; cbn in Ek; cbn; lia|]. split; [easy|]. split; [easy|]. split; [|discriminate].
        apply Forall_cons; [lra|apply Forall_nil].
Qed.
End Simple.
Lemma simple_finds n d : finds_closest n d (simple_from d).
Proof.
  intros pts lim p Hne _ _ Hpos. unfold simple_from. pose proof (sinv_all d lim p pts) as H.
  destruct (fold_left _ pts (0, None)) as [k best]. destruct H as [_ H]. cbn [snd] in H. destruct best as [[v j]|].
  - left. destruct H as (i & q & -> & Hi & -> & Hm & Hr). exists i, q. easy.
  - right. destruct H as [H1 H2]. destruct (H1 Hne) as [r ->]. exists r. split; [easy|]. split; [easy|]. now apply H2.
Qed.

Lemma sgn_cases a : a <> 0 -> (0 < a /\ Z.sgn a = 1) \/ (a < 0 /\ Z.sgn a = -1).
Proof. intros H. destruct a; [congruence|left|right]; split; reflexivity. Qed.
(* ---- flat maps ---- *)
Lemma sq_step (h : R) (a : Z) : (0 < h)%R -> a <> 0 -> ((h * IZR (Z.abs a - 1)) ^ 2 < (h * IZR a) ^ 2)%R.
Proof.
  intros Hh Ha. replace ((h * IZR a) ^ 2)%R with ((h * IZR (Z.abs a)) ^ 2)%R.
  2:{ rewrite abs_IZR, !Rpow_mult_distr. f_equal. apply pow2_abs. }
  assert (H1 : (1 <= IZR (Z.abs a))%R) by (apply IZR_le; lia). rewrite minus_IZR. generalize (IZR (Z.abs a)) H1. intros u Hu. nra.
Qed.
Lemma flat_inner hy hx ny nx : (0 < hy)%R -> (0 < hx)%R -> 1 <= ny -> 1 <= nx -> inner_step ny nx (flat_distance hy hx nx).
Proof.
  intros Hhy Hhx Hny Hnx p y x Hp Hy Hx Hne. destruct (pix_split ny nx p Hnx Hp) as (E1 & Hpy & Hpx).
    unfold flat_distance. rewrite (pix_div nx y x), (pix_mod nx y x) by lia.
    assert (Hsg : forall a, a <> 0 -> exists s, Z.abs s = 1 /\ Z.abs (a - s) = Z.abs a - 1).
    { intros a Ha. exists (Z.sgn a). destruct (sgn_cases a Ha) as [[? ->]|[? ->]]; lia. }
    assert (Hsq : forall h a b, Z.abs a = b -> ((h * IZR a) ^ 2 = (h * IZR b) ^ 2)%R).
    { intros h a b <-. rewrite abs_IZR, !Rpow_mult_distr. f_equal. symmetry. apply pow2_abs. }
    destruct (Z.eq_dec (p / nx - y) 0) as [E0|Hy0].
    + destruct (Hsg (p mod nx - x)) as (s & Hs & Ha). { intros E. apply Hne. rewrite E1. f_equal; [f_equal|]; lia. }
      exists 0, s. split; [lia|]. split; [lia|]. split; [lia|]. rewrite pix_div, pix_mod by lia. apply sqrt_lt_1_alt. rewrite Z.add_0_r. split; [apply Rplus_le_le_0_compat; apply pow2_ge_0|].
      apply Rplus_lt_compat_l. replace (p mod nx - (x + s)) with (p mod nx - x - s) by lia. rewrite (Hsq hx _ _ Ha). apply sq_step; [easy|].
      intros E. apply Hne. rewrite E1. f_equal; [f_equal|]; lia.
    + destruct (Hsg (p / nx - y) Hy0) as (s & Hs & Ha). exists s, 0. split; [lia|]. split; [lia|]. split; [lia|]. rewrite pix_div, pix_mod by lia. apply sqrt_lt_1_alt. rewrite Z.add_0_r.
      split; [apply Rplus_le_le_0_compat; apply pow2_ge_0|]. apply Rplus_lt_compat_r.
      replace (p / nx - (y + s)) with (p / nx - y - s) by lia. rewrite (Hsq hy _ _ Ha). apply sq_step; easy.
Qed.
Lemma flat_grid hy hx ny nx : (0 < hy)%R -> (0 < hx)%R -> 1 <= ny -> 1 <= nx -> grid_distance ny nx (flat_distance hy hx nx).
Proof.
  intros Hhy Hhx Hny Hnx. split.
  - intros p Hp. unfold flat_distance. rewrite !Z.sub_diag, !Rmult_0_r. replace (0 ^ 2 + 0 ^ 2)%R with 0%R by ring. apply sqrt_0.
  - intros p q Hp Hq Hne. unfold flat_distance. apply sqrt_lt_R0.
    destruct (pix_split ny nx p Hnx Hp) as (E1 & _). destruct (pix_split ny nx q Hnx Hq) as (E2 & _).
    assert (Hc : p / nx - q / nx <> 0 \/ p mod nx - q mod nx <> 0).
    { destruct (Z.eq_dec (p / nx) (q / nx)) as [E3|]; [|lia]. destruct (Z.eq_dec (p mod nx) (q mod nx)) as [E4|]; [|lia]. exfalso. apply Hne. rewrite E1, E2, E3, E4. reflexivity. }
    assert (Hp2 : forall h a, (0 < h)%R -> a <> 0 -> (0 < (h * IZR a) ^ 2)%R).
    { intros h a Hh Ha. replace ((h * IZR a) ^ 2)%R with (Rsqr (h * IZR a)) by (unfold Rsqr; ring). apply Rlt_0_sqr. apply Rmult_integral_contrapositive_currified; [lra|]. now apply not_0_IZR. }
    pose proof (pow2_ge_0 (hy * IZR (p / nx - q / nx))). pose proof (pow2_ge_0 (hx * IZR (p mod nx - q mod nx))).
    destruct Hc as [Hc|Hc]; [pose proof (Hp2 hy _ Hhy Hc)|pose proof (Hp2 hx _ Hhx Hc)]; lra.
  - intros p q. unfold flat_distance. f_equal. rewrite !minus_IZR. ring.
  - intros p y x Hp Hy Hx Hne. destruct (flat_inner hy hx ny nx Hhy Hhx Hny Hnx p y x Hp ltac:(lia) ltac:(lia) Hne) as (dy & dx & H1 & _ & _ & H2).
    now exists dy, dx.
Qed.

(* ---- maps of the sphere ---- *)
Lemma acos_lt x y : (-1 <= x)%R -> (x < y)%R -> (y <= 1)%R -> (acos y < acos x)%R.
Proof.
  intros H1 H2 H3. destruct (Rle_lt_dec (acos x) (acos y)) as [Hle|]; [|easy]. exfalso.
  pose proof (acos_bound x). pose proof (acos_bound y).
  assert (H4 : (cos (acos y) <= cos (acos x))%R) by (apply cos_decr_1; lra).
  rewrite !cos_acos in H4 by lra. lra.
Qed.
Lemma cos_lt1 a : (0 < Rabs a < 2 * PI)%R -> (cos a < 1)%R.
Proof.
  intros H. rewrite <- (cos_0). replace (cos a) with (cos (Rabs a)) by (unfold Rabs; destruct (Rcase_abs a); [apply cos_neg|easy]).
  pose proof PI_RGT_0. destruct (Rle_lt_dec (Rabs a) PI) as [Hle|Hgt].
  - apply cos_decreasing_1; lra.
  - rewrite cos_0, <- cos_2PI. apply cos_increasing_1; lra.
Qed.
Lemma cos_abs a : cos (Rabs a) = cos a.
Proof. unfold Rabs. destruct (Rcase_abs a); [apply cos_neg|easy]. Qed.
(* moving one step of size |h| towards 0, or away from it beyond PI *)
Lemma cos_in a a' : (0 <= Rabs a')%R -> (Rabs a' < Rabs a)%R -> (Rabs a <= PI)%R -> (cos a < cos a')%R.
Proof. intros. rewrite <- (cos_abs a), <- (cos_abs a'). apply cos_decreasing_1; lra. Qed.
Lemma cos_out a a' : (PI <= Rabs a)%R -> (Rabs a < Rabs a')%R -> (Rabs a' <= 2 * PI)%R -> (cos a < cos a')%R.
Proof. intros. rewrite <- (cos_abs a), <- (cos_abs a'). apply cos_increasing_1; lra. Qed.

Section Sphere.
Variables (dec0 ddec dra : R) (ny nx : Z).
Hypothesis (Hny : 1 <= ny) (Hnx : 1 <= nx) (S : sphere_map dec0 ddec dra ny nx).
Let dec y : R := (dec0 + IZR y * ddec)%R.

Lemma dec_cos y : 0 <= y < ny -> (0 < cos (dec y))%R.
Proof. intros Hy. destruct S as (_ & _ & _ & H). specialize (H y Hy). apply cos_gt_0; unfold dec; lra. Qed.
Lemma dec_bound y : 0 <= y < ny -> (- (PI / 2) < dec y < PI / 2)%R.
Proof. intros Hy. destruct S as (_ & _ & _ & H). apply (H y Hy). Qed.
(* the cosine of the distance, split *)
Definition scos (y y' k : Z) : R := (sin (dec y) * sin (dec y') + cos (dec y) * cos (dec y') * cos (IZR k * dra))%R.
Lemma scos_eq y y' k : scos y y' k = (cos (dec y - dec y') - cos (dec y) * cos (dec y') * (1 - cos (IZR k * dra)))%R.
Proof. unfold scos. rewrite cos_minus. ring. Qed.
Lemma scos_bound y y' k : 0 <= y < ny -> 0 <= y' < ny -> (-1 <= scos y y' k <= 1)%R.
Proof.
  intros Hy Hy'. pose proof (dec_cos y Hy) as H1. pose proof (dec_cos y' Hy') as H2. pose proof (Rmult_lt_0_compat _ _ H1 H2) as H3.
  pose proof (COS_bound (IZR k * dra)) as Hc. pose proof (COS_bound (dec y - dec y')) as H4. pose proof (COS_bound (dec y + dec y')) as H5.
  rewrite cos_minus in H4. rewrite cos_plus in H5. unfold scos. revert H3 H4 H5. generalize (cos (dec y) * cos (dec y'))%R (sin (dec y) * sin (dec y'))%R.
  generalize (cos (IZR k * dra)) Hc. intros c Hc' u v Hu Ha Hb. nra.
Qed.
Lemma ra_pos k : Z.abs k < nx -> k <> 0 -> (0 < Rabs (IZR k * dra) < 2 * PI)%R.
Proof.
  intros Hk Hk0. destruct S as (_ & H2 & H3 & _). rewrite Rabs_mult, <- abs_IZR. assert (Hd : (0 < Rabs dra)%R) by (now apply Rabs_pos_lt).
  assert (H4 : (1 <= IZR (Z.abs k))%R) by (apply IZR_le; lia). assert (H5 : (IZR (Z.abs k) <= IZR nx - 1)%R) by (rewrite <- minus_IZR; apply IZR_le; lia).
  split; [nra|nra].
Qed.
Lemma dec_diff y y' : 0 <= y < ny -> 0 <= y' < ny -> (Rabs (dec y - dec y') < PI)%R.
Proof. intros H1 H2. pose proof (dec_bound y H1). pose proof (dec_bound y' H2). apply Rabs_def1; lra. Qed.
Lemma dec_diff_eq y y' : (dec y - dec y' = IZR (y - y') * ddec)%R.
Proof. unfold dec. rewrite minus_IZR. ring. Qed.
Lemma dec_ne y y' : y <> y' -> (0 < Rabs (dec y - dec y'))%R.
Proof.
  intros Hne. rewrite dec_diff_eq. apply Rabs_pos_lt. destruct S as (H & _). apply Rmult_integral_contrapositive_currified; [|easy].
  apply not_0_IZR. lia.
Qed.
Lemma scos_lt1 y y' k : 0 <= y < ny -> 0 <= y' < ny -> Z.abs k < nx -> (y <> y' \/ k <> 0) -> (scos y y' k < 1)%R.
Proof.
  intros Hy Hy' Hk Hc. rewrite scos_eq. pose proof (Rmult_lt_0_compat _ _ (dec_cos y Hy) (dec_cos y' Hy')) as H3.
  pose proof (COS_bound (IZR k * dra)) as Hcb. pose proof (COS_bound (dec y - dec y')) as H4. pose proof (dec_diff y y' Hy Hy') as H5. pose proof PI_RGT_0.
  destruct Hc as [Hc|Hc].
  - pose proof (dec_ne y y' Hc) as H6. assert (H7 : (cos (dec y - dec y') < 1)%R) by (apply cos_lt1; lra). nra.
  - pose proof (cos_lt1 _ (ra_pos k Hk Hc)). nra.
Qed.

Lemma sphere_cos_scos p q : sphere_cos dec0 ddec dra nx p q = scos (p / nx) (q / nx) (p mod nx - q mod nx).
Proof. reflexivity. Qed.

Lemma sphere_grid : grid_distance ny nx (sphere_distance dec0 ddec dra nx).
Proof.
  split.
  - intros p Hp. unfold sphere_distance. rewrite sphere_cos_scos, scos_eq. rewrite Z.sub_diag, Rmult_0_l, cos_0. unfold Rminus at 2. rewrite Rplus_opp_r, cos_0.
    replace (1 - cos (dec (p / nx)) * cos (dec (p / nx)) * (1 - 1))%R with 1%R by ring. apply acos_1.
  - intros p q Hp Hq Hne. unfold sphere_distance. rewrite sphere_cos_scos.
    destruct (pix_split ny nx p Hnx Hp) as (E1 & Hy1 & Hx1). destruct (pix_split ny nx q Hnx Hq) as (E2 & Hy2 & Hx2).
    rewrite <- acos_1. apply acos_lt; [now apply scos_bound|apply scos_lt1; [easy|easy|lia|]|lra].
    destruct (Z.eq_dec (p / nx) (q / nx)) as [E3|]; [|now left]. right. intros E4. apply Hne. rewrite E1, E2, E3. f_equal. lia.
  - intros p q. unfold sphere_distance. f_equal. rewrite !sphere_cos_scos. unfold scos. replace (q mod nx - p mod nx) with (- (p mod nx - q mod nx)) by lia.
    rewrite opp_IZR. replace (- IZR (p mod nx - q mod nx) * dra)%R with (- (IZR (p mod nx - q mod nx) * dra))%R by ring. rewrite cos_neg. ring.
  - intros p y x Hp Hy Hx Hne. destruct (pix_split ny nx p Hnx Hp) as (E1 & Hpy & Hpx).
    assert (Hgo : exists dy dx, Z.abs dy + Z.abs dx = 1 /\ (scos (p / nx) y (p mod nx - x) < scos (p / nx) (y + dy) (p mod nx - (x + dx)))%R).
    { destruct S as (Hd1 & Hd2 & Hd3 & _). assert (Hda : (0 < Rabs dra)%R) by (now apply Rabs_pos_lt). pose proof PI_RGT_0.
      destruct (Z.eq_dec (p mod nx - x) 0) as [E0|Hk].
      - assert (Hyn : p / nx - y <> 0). { intros E. apply Hne. rewrite E1. f_equal; [f_equal|]; lia. }
        exists (Z.sgn (p / nx - y)), 0. split; [destruct (sgn_cases _ Hyn) as [[? ->]|[? ->]]; lia|]. rewrite Z.add_0_r, E0. rewrite !scos_eq, !Rmult_0_l, cos_0.
        assert (Hr : 0 <= y + Z.sgn (p / nx - y) < ny) by (destruct (sgn_cases _ Hyn) as [[? ->]|[? ->]]; lia).
        assert (Hlt : (cos (dec (p / nx) - dec y) < cos (dec (p / nx) - dec (y + Z.sgn (p / nx - y))))%R).
        { apply cos_in; [apply Rabs_pos| |left; apply dec_diff; [easy|lia]]. rewrite !dec_diff_eq, !Rabs_mult. apply Rmult_lt_compat_r; [now apply Rabs_pos_lt|].
          rewrite <- !abs_IZR. apply IZR_lt. destruct (sgn_cases _ Hyn) as [[? ->]|[? ->]]; lia. }
        lra.
      - assert (Hk' : Z.abs (p mod nx - x) < nx) by lia.
        pose proof (Rmult_lt_0_compat _ _ (dec_cos _ Hpy) (dec_cos y ltac:(lia))) as Hcc.
        assert (Hgo2 : exists dx, Z.abs dx = 1 /\ (cos (IZR (p mod nx - x) * dra) < cos (IZR (p mod nx - (x + dx)) * dra))%R).
        { destruct (Rle_lt_dec (Rabs (IZR (p mod nx - x) * dra)) PI) as [Hle|Hgt].
          - exists (Z.sgn (p mod nx - x)). split; [destruct (sgn_cases _ Hk) as [[? ->]|[? ->]]; lia|]. apply cos_in; [apply Rabs_pos| |easy].
            rewrite !Rabs_mult. apply Rmult_lt_compat_r; [easy|]. rewrite <- !abs_IZR. apply IZR_lt. destruct (sgn_cases _ Hk) as [[? ->]|[? ->]]; lia.
          - exists (- Z.sgn (p mod nx - x)). split; [destruct (sgn_cases _ Hk) as [[? ->]|[? ->]]; lia|]. apply cos_out; [lra| |].
            + rewrite !Rabs_mult. apply Rmult_lt_compat_r; [easy|]. rewrite <- !abs_IZR. apply IZR_lt. destruct (sgn_cases _ Hk) as [[? ->]|[? ->]]; lia.
            + rewrite Rabs_mult, <- abs_IZR. apply Rle_trans with (IZR nx * Rabs dra)%R; [|easy]. apply Rmult_le_compat_r; [lra|]. apply IZR_le.
              destruct (sgn_cases _ Hk) as [[? ->]|[? ->]]; lia. }
        destruct Hgo2 as (dx & Hdx & Hc). exists 0, dx. split; [lia|]. rewrite Z.add_0_r. unfold scos. revert Hc Hcc.
        generalize (cos (dec (p / nx)) * cos (dec y))%R. intros u Hc Hu. nra. }
    destruct Hgo as (dy & dx & Hs & Hlt). exists dy, dx. split; [easy|].
    unfold sphere_distance. rewrite !sphere_cos_scos. rewrite !pix_div, !pix_mod by lia.
    apply acos_lt; [|easy|]; apply scos_bound; lia.
Qed.

Lemma sphere_inner : (IZR nx * Rabs dra <= PI)%R -> inner_step ny nx (sphere_distance dec0 ddec dra nx).
Proof.
  intros Hhalf p y x Hp Hy Hx Hne. destruct (pix_split ny nx p Hnx Hp) as (E1 & Hpy & Hpx).
    assert (Hgo : exists dy dx, Z.abs dy + Z.abs dx = 1 /\ 0 <= y + dy < ny /\ 0 <= x + dx < nx /\ (scos (p / nx) y (p mod nx - x) < scos (p / nx) (y + dy) (p mod nx - (x + dx)))%R).
    { destruct S as (Hd1 & Hd2 & Hd3 & _). assert (Hda : (0 < Rabs dra)%R) by (now apply Rabs_pos_lt). pose proof PI_RGT_0.
      destruct (Z.eq_dec (p mod nx - x) 0) as [E0|Hk].
      - assert (Hyn : p / nx - y <> 0). { intros E. apply Hne. rewrite E1. f_equal; [f_equal|]; lia. }
        assert (Hr : 0 <= y + Z.sgn (p / nx - y) < ny) by (destruct (sgn_cases _ Hyn) as [[? ->]|[? ->]]; lia).
        exists (Z.sgn (p / nx - y)), 0. split; [destruct (sgn_cases _ Hyn) as [[? ->]|[? ->]]; lia|]. split; [easy|]. split; [lia|]. rewrite Z.add_0_r, E0. rewrite !scos_eq, !Rmult_0_l, cos_0.
        assert (Hlt : (cos (dec (p / nx) - dec y) < cos (dec (p / nx) - dec (y + Z.sgn (p / nx - y))))%R).
        { apply cos_in; [apply Rabs_pos| |left; apply dec_diff; [easy|lia]]. rewrite !dec_diff_eq, !Rabs_mult. apply Rmult_lt_compat_r; [now apply Rabs_pos_lt|].
          rewrite <- !abs_IZR. apply IZR_lt. destruct (sgn_cases _ Hyn) as [[? ->]|[? ->]]; lia. }
        lra.
      - pose proof (Rmult_lt_0_compat _ _ (dec_cos _ Hpy) (dec_cos y ltac:(lia))) as Hcc.
        assert (Hle : (Rabs (IZR (p mod nx - x) * dra) <= PI)%R).
        { rewrite Rabs_mult, <- abs_IZR. apply Rle_trans with (IZR nx * Rabs dra)%R; [|easy]. apply Rmult_le_compat_r; [lra|]. apply IZR_le. lia. }
        exists 0, (Z.sgn (p mod nx - x)). split; [destruct (sgn_cases _ Hk) as [[? ->]|[? ->]]; lia|]. split; [lia|]. split; [destruct (sgn_cases _ Hk) as [[? ->]|[? ->]]; lia|]. rewrite Z.add_0_r.
        assert (Hc : (cos (IZR (p mod nx - x) * dra) < cos (IZR (p mod nx - (x + Z.sgn (p mod nx - x))) * dra))%R).
        { apply cos_in; [apply Rabs_pos| |easy].
          rewrite !Rabs_mult. apply Rmult_lt_compat_r; [easy|]. rewrite <- !abs_IZR. apply IZR_lt. destruct (sgn_cases _ Hk) as [[? ->]|[? ->]]; lia. }
        unfold scos. revert Hc Hcc. generalize (cos (dec (p / nx)) * cos (dec y))%R. intros u Hc Hu. nra. }
    destruct Hgo as (dy & dx & Hs & Hry & Hrx & Hlt). exists dy, dx. split; [easy|]. split; [easy|]. split; [easy|].
    unfold sphere_distance. rewrite !sphere_cos_scos. rewrite !pix_div, !pix_mod by lia.
    apply acos_lt; [|easy|]; apply scos_bound; lia.
Qed.
End Sphere.

(* ---- the label found for a labelled pixel is its own ---- *)
Lemma own_label ny nx d (lab : Z -> Z) p e : 1 <= nx -> inner_step ny nx d -> 0 <= p < ny * nx -> 0 <= e < ny * nx -> lab p <> 0 ->
  (forall q, 0 <= q < ny * nx -> (d p q < d p e)%R -> ~ edge_pixel (fun i => negb (lab i =? 0)) (fun k => negb (lab k =? lab q)) ny nx q) -> lab e = lab p.
Proof.
  intros Hnx I Hp He Hl Hne.
  (* beside a labelled pixel that is no edge *)
  assert (Hnb : forall y x dy dx, 0 <= y < ny -> 0 <= x < nx -> 0 <= y + dy < ny -> 0 <= x + dx < nx -> Z.abs dy + Z.abs dx = 1 ->
     (d p ((y + dy)%Z * nx + (x + dx)%Z)%Z < d p e)%R -> lab ((y + dy) * nx + (x + dx)) = lab p -> lab (y * nx + x) = lab p).
  { intros y x dy dx Hy Hx Hy' Hx' Hs Hd El. destruct (Z.eq_dec (lab (y * nx + x)) (lab p)) as [E|E]; [easy|]. exfalso.
    apply (Hne _ (pix_range ny nx _ _ Hy' Hx') Hd). exists (y + dy), (x + dx). split; [easy|]. split; [easy|]. split; [easy|].
    split; [rewrite El; apply Bool.negb_true_iff, Z.eqb_neq; easy|]. do 4 right. exists (- dy), (- dx). split; [lia|].
    replace (y + dy + - dy) with y by lia. replace (x + dx + - dx) with x by lia. rewrite El. apply Bool.negb_true_iff, Z.eqb_neq. easy. }
  assert (Hball : forall q, 0 <= q < ny * nx -> (d p q < d p e)%R -> lab q = lab p).
  { set (W := fun q => if Rlt_dec (d p q) (d p e) then negb (lab q =? lab p) else false).
    destruct (none_or d (ny * nx) W p) as [Hno|(q & Hq & Hw & Hm)].
    - intros q Hq Hd. specialize (Hno q Hq). unfold W in Hno. destruct (Rlt_dec (d p q) (d p e)); [|lra]. apply Bool.negb_false_iff, Z.eqb_eq in Hno. easy.
    - exfalso. unfold W in Hw. destruct (Rlt_dec (d p q) (d p e)) as [Hd|]; [|discriminate]. apply Bool.negb_true_iff, Z.eqb_neq in Hw.
      destruct (pix_split ny nx q Hnx Hq) as (E & Hy & Hx). assert (Hpq : p <> (q / nx) * nx + q mod nx) by (rewrite <- E; congruence).
      destruct (I p _ _ Hp Hy Hx Hpq) as (dy & dx & Hs & Hy' & Hx' & Hlt). rewrite <- E in Hlt.
      assert (Hd' : (d p ((q / nx + dy)%Z * nx + (q mod nx + dx)%Z)%Z < d p e)%R) by lra.
      apply Hw. rewrite E at 1. apply (Hnb _ _ dy dx); try easy.
      destruct (Z.eq_dec (lab ((q / nx + dy) * nx + (q mod nx + dx))) (lab p)) as [|En]; [easy|]. exfalso.
      assert (Hw' : W ((q / nx + dy) * nx + (q mod nx + dx)) = true).
      { unfold W. destruct (Rlt_dec _ _) as [|n]; [|elim n; exact Hd']. apply Bool.negb_true_iff, Z.eqb_neq. easy. }
      specialize (Hm _ (pix_range ny nx _ _ Hy' Hx') Hw'). lra. }
  destruct (Z.eq_dec p e) as [->|Hpe]; [easy|]. destruct (pix_split ny nx e Hnx He) as (E & Hy & Hx).
  assert (Hpq : p <> (e / nx) * nx + e mod nx) by (rewrite <- E; congruence).
  destruct (I p _ _ Hp Hy Hx Hpq) as (dy & dx & Hs & Hy' & Hx' & Hlt). rewrite <- E in Hlt. rewrite E at 1. apply (Hnb _ _ dy dx); try easy.
  apply Hball; [now apply pix_range|easy].
Qed.
