From Coq Require Import List ZArith QArith Qround Qabs Reals Lia Lra Lqa Bool.
From Verif Require Import WindModel HpxSpec HpxModel.
Import ListNotations.
Open Scope Q_scope.
Ltac Zify.zify_post_hook ::= idtac.

Lemma geb_spec a b : geb a b = true <-> (b <= a)%R.
Proof. unfold geb. destruct (Rle_dec b a); split; intros; try congruence; contradiction. Qed.
Lemma ands_map {A} (f g : A -> bool) l : ands (map f l) (map g l) = map (fun x => f x && g x) l.
Proof. induction l as [|x l IH]; [reflexivity|]. cbn in *. now rewrite <- IH. Qed.
Lemma masked_filter {A B} (f : A -> bool) (g : A -> B) l : masked (map f l) (map g l) = map g (filter f l).
Proof. induction l as [|x l IH]; [reflexivity|]. cbn. destruct (f x); cbn; now rewrite IH. Qed.
Definition keep (lo hi : option R) (r : ring) : bool := match lo with Some t => geb (r_theta r) t | None => true end && match hi with Some t => geb t (r_theta r) | None => true end.
Lemma keep_spec lo hi r : keep lo hi r = true <-> within lo hi (r_theta r).
Proof.
  unfold keep, within. destruct lo as [a|]; destruct hi as [b|]; rewrite ?Bool.andb_true_iff, ?geb_spec; split.
  - intros [A B]. split; intros t T; congruence.
  - intros [A B]. split; [now apply A|now apply B].
  - intros [A B]. split; intros t T; congruence.
  - intros [A B]. split; [now apply A|reflexivity].
  - intros [A B]. split; intros t T; congruence.
  - intros [A B]. split; [reflexivity|now apply B].
  - intros _. split; intros t T; congruence.
  - intros _. split; reflexivity.
Qed.
Lemma lim_spec l lo hi : let k := filter (keep lo hi) l in let m := apply_theta_lim (of_list l) lo hi in theta m = map r_theta k /\ nphi m = map r_nphi k /\ phi0 m = map r_phi0 k /\ offsets m = map r_offset l.
Proof.
  cbv zeta. assert (F : forall f : ring -> bool, (forall r, f r = keep lo hi r) -> filter f l = filter (keep lo hi) l) by (intros f E; apply filter_ext; exact E).
  unfold apply_theta_lim, of_list. destruct lo as [a|]; destruct hi as [b|]; cbn [theta nphi phi0 offsets]; rewrite ?map_map, ?ands_map, ?masked_filter; try (rewrite F by (intros r; unfold keep; cbn; rewrite ?andb_true_r; reflexivity); repeat split; reflexivity).
  assert (ALL : filter (keep None None) l = l) by (clear; induction l as [|x l IH]; [reflexivity|]; cbn in *; now rewrite IH). rewrite ALL. repeat split; reflexivity.
Qed.
Lemma filter_selected {A} (f : A -> bool) (P : A -> Prop) l : (forall x, f x = true <-> P x) -> selected P l (filter f l).
Proof.
  intros E. induction l as [|x l IH]; cbn [filter]; [constructor|]. destruct (f x) eqn:F; constructor; try exact IH; [now apply E|]. intros C. apply E in C. congruence.
Qed.
(* C169 angles, numbers and longitudes are those of the rings within the limits *)
Theorem C169_rings_partial l lo hi : exists k, selected (fun r => within lo hi (r_theta r)) l k /\ let m := apply_theta_lim (of_list l) lo hi in theta m = map r_theta k /\ nphi m = map r_nphi k /\ phi0 m = map r_phi0 k.
Proof.
  exists (filter (keep lo hi) l). split; [apply filter_selected; intros r; apply keep_spec|]. destruct (lim_spec l lo hi) as (A & B & C & _). repeat split; assumption.
Qed.
(* if any ring is dropped the starts no longer belong to the rings: there are more of them *)
Theorem C169_offsets_refuted l lo hi r : In r l -> ~ within lo hi (r_theta r) -> let m := apply_theta_lim (of_list l) lo hi in offsets m = map r_offset l /\ (length (theta m) < length (offsets m))%nat /\ forall k, m <> of_list k.
Proof.
  intros I W. cbv zeta. destruct (lim_spec l lo hi) as (A & B & C & D). split; [exact D|]. assert (L : (length (theta (apply_theta_lim (of_list l) lo hi)) < length (offsets (apply_theta_lim (of_list l) lo hi)))%nat).
  { rewrite A, D, !map_length. clear - I W. induction l as [|x l IH]; [destruct I|]. assert (LE : forall q, (length (filter (keep lo hi) q) <= length q)%nat) by (clear; intros q; induction q as [|y q IH]; cbn; [lia|destruct (keep lo hi y); cbn; lia]). destruct I as [->|I]; cbn [filter length].
    - destruct (keep lo hi r) eqn:K; [apply keep_spec in K; contradiction|]. specialize (LE l). lia.
    - specialize (IH I). destruct (keep lo hi x); cbn [length]; lia. }
  split; [exact L|]. intros k E. rewrite E in L. cbn [of_list theta offsets] in L. rewrite !map_length in L. lia.
Qed.
(* C170 longer spectra are padded with zeros *)
Theorem C170_pad_partial ps lmax : (length ps <= lmax + 1)%nat -> exists o, pad_spectrum ps lmax = Some o /\ length o = (lmax + 1)%nat /\ forall l, nth l o 0 = nth l ps 0.
Proof.
  intros L. unfold pad_spectrum. destruct (Nat.leb_spec (length ps) (lmax + 1)); [|lia]. eexists. split; [reflexivity|]. split; [rewrite app_length, repeat_length; lia|]. intros l. destruct (le_lt_dec (length ps) l).
  - rewrite app_nth2 by lia. rewrite (nth_overflow ps) by lia. generalize (l - length ps)%nat. induction (lmax + 1 - length ps)%nat as [|n IH]; intros [|i]; cbn; auto.
  - now rewrite app_nth1 by lia.
Qed.
(* a spectrum that is too long is an error instead of being cut *)
Theorem C170_long_refuted ps lmax : (lmax + 1 < length ps)%nat -> pad_spectrum ps lmax = None.
Proof.
  intros L. unfold pad_spectrum. destruct (Nat.leb_spec (length ps) (lmax + 1)); [lia|]. rewrite firstn_length, repeat_length, Nat.min_r by lia. destruct (Nat.eqb_spec (lmax + 1) (length ps)); [lia|reflexivity].
Qed.

Lemma floor_unique x f : inject_Z f <= x -> x < inject_Z f + 1 -> Qfloor x = f.
Proof.
  intros A B. pose proof (Qfloor_le x) as C. pose proof (Qlt_floor x) as D. rewrite inject_Z_plus in D. change (inject_Z 1) with 1 in D. assert (E1 : inject_Z f < inject_Z (Qfloor x + 1)) by (rewrite inject_Z_plus; change (inject_Z 1) with 1; lra). assert (E2 : inject_Z (Qfloor x) < inject_Z (f + 1)) by (rewrite inject_Z_plus; change (inject_Z 1) with 1; lra). rewrite <- Zlt_Qlt in E1, E2. lia.
Qed.
Lemma round_near x : x - (1 # 2) <= inject_Z (qround x) /\ inject_Z (qround x) <= x + (1 # 2).
Proof.
  unfold qround. pose proof (Qfloor_le (x + (1 # 2))) as C. pose proof (Qlt_floor (x + (1 # 2))) as D. rewrite inject_Z_plus in D. change (inject_Z 1) with 1 in D. destruct (Qeq_bool _ _) eqn:E; cbn [andb]; [|split; lra]. apply Qeq_bool_iff in E. destruct (Z.odd _); [|split; lra]. unfold Z.sub. rewrite inject_Z_plus. change (inject_Z (- (1))) with (- (1)). split; lra.
Qed.
Lemma round_shift x m : ~ half_way x \/ Z.even m = true -> qround (x + inject_Z m) = (qround x + m)%Z.
Proof.
  intros H. unfold qround. set (f := Qfloor (x + (1 # 2))). pose proof (Qfloor_le (x + (1 # 2))) as C. pose proof (Qlt_floor (x + (1 # 2))) as D. fold f in C, D. rewrite inject_Z_plus in D. change (inject_Z 1) with 1 in D. assert (F : Qfloor (x + inject_Z m + (1 # 2)) = (f + m)%Z) by (apply floor_unique; rewrite inject_Z_plus; lra). rewrite F. clearbody f.
  destruct (Qeq_bool (inject_Z f) (x + (1 # 2))) eqn:E.
  - apply Qeq_bool_iff in E. assert (E' : Qeq_bool (inject_Z (f + m)) (x + inject_Z m + (1 # 2)) = true) by (apply Qeq_bool_iff; rewrite inject_Z_plus; lra). rewrite E'. cbn [andb]. destruct H as [H|H].
    + exfalso. apply H. exists (f - 1)%Z. unfold Z.sub. rewrite inject_Z_plus. change (inject_Z (- (1))) with (- (1)). lra.
    + assert (O : Z.odd (f + m) = Z.odd f) by (rewrite Z.odd_add, <- (Z.negb_even m), H; destruct (Z.odd f); reflexivity). rewrite O. destruct (Z.odd f); lia.
  - assert (E' : Qeq_bool (inject_Z (f + m)) (x + inject_Z m + (1 # 2)) = false). { destruct (Qeq_bool (inject_Z (f + m)) _) eqn:G; [|reflexivity]. apply Qeq_bool_iff in G. rewrite inject_Z_plus in G. assert (Qeq_bool (inject_Z f) (x + (1 # 2)) = true) by (apply Qeq_bool_iff; lra). congruence. } rewrite E'. reflexivity.
Qed.
Lemma round_comp x y : x == y -> qround x = qround y.
Proof.
  intros E. unfold qround. assert (F : Qfloor (x + (1 # 2)) = Qfloor (y + (1 # 2))) by (apply Qfloor_comp; rewrite E; reflexivity). rewrite F. assert (G : Qeq_bool (inject_Z (Qfloor (y + (1 # 2)))) (x + (1 # 2)) = Qeq_bool (inject_Z (Qfloor (y + (1 # 2)))) (y + (1 # 2))) by (apply eq_true_iff_eq; rewrite !Qeq_bool_iff, E; reflexivity). now rewrite G.
Qed.
(* C171 the piece has the size wanted, unless the size is odd and the pixel half way *)
Theorem C171_size_partial iy npix N pad a b : cutout iy npix N pad = Some (a, b) -> Z.even npix = true \/ ~ half_way iy -> (b - a = npix)%Z.
Proof.
  intros E H. unfold cutout in E. destruct (_ || _)%bool; [discriminate|]. assert (EO : forall p q : Z * Z, Some p = Some q -> p = q) by congruence. apply EO in E. pose proof (f_equal fst E) as E1. pose proof (f_equal snd E) as E2. cbn [fst snd] in E1, E2. subst a b. set (x := iy - inject_Z npix / 2 + (1 # 2)). assert (S : qround (iy + inject_Z npix / 2 + (1 # 2)) = qround (x + inject_Z npix)) by (apply round_comp; unfold x; field). rewrite S, round_shift; [lia|]. destruct (Z.even npix) eqn:EV; [now right|]. left. destruct H as [H|H]; [discriminate|]. intros [k K]. apply H. assert (OD : exists q, npix = (2 * q + 1)%Z) by (apply Z.odd_spec; rewrite <- Z.negb_even, EV; reflexivity). destruct OD as [q ->]. exists (k + q)%Z. unfold x in K. rewrite !inject_Z_plus, inject_Z_mult in *. change (inject_Z 1) with 1 in *. change (inject_Z 2) with 2 in *. assert (HF : (2 * inject_Z q + 1) / 2 == inject_Z q + (1 # 2)) by field. rewrite HF in K. lra.
Qed.
(* then it can be one too large, or too small *)
Theorem C171_size_refuted : cutout (5 # 2) 1 10 1 = Some (2, 4)%Z /\ cutout (7 # 2) 1 10 1 = Some (4, 4)%Z.
Proof. split; reflexivity. Qed.
(* it lies in the map, and its middle is within half a pixel *)
Theorem C171_inside iy npix N pad a b : (0 <= npix)%Z -> (1 <= pad)%Z -> cutout iy npix N pad = Some (a, b) -> (pad <= a)%Z /\ (b <= N - pad + 1)%Z /\ (b <= N)%Z /\ Qabs ((inject_Z a + inject_Z b - 1) / 2 - iy) <= 1 # 2.
Proof.
  intros NP P E. unfold cutout in E. destruct (Z.ltb_spec (qround (iy - inject_Z npix / 2)) pad) as [|L1]; [discriminate|]. destruct (Z.ltb_spec (N - pad) (qround (iy + inject_Z npix / 2))) as [|L2]; [discriminate|]. cbn [orb] in E. assert (EO : forall p q : Z * Z, Some p = Some q -> p = q) by congruence. apply EO in E. pose proof (f_equal fst E) as E1. pose proof (f_equal snd E) as E2. cbn [fst snd] in E1, E2. clear E EO.
  set (h := inject_Z npix / 2) in *. clearbody h. destruct (round_near (iy - h)) as [A1 A2]. destruct (round_near (iy + h)) as [B1 B2]. destruct (round_near (iy - h + (1 # 2))) as [C1 C2]. destruct (round_near (iy + h + (1 # 2))) as [D1 D2]. rewrite E1 in C1, C2. rewrite E2 in D1, D2. rewrite Zle_Qle in L1, L2.
  assert (X : (pad - 1 < a)%Z). { rewrite Zlt_Qlt. unfold Z.sub. rewrite inject_Z_plus. change (inject_Z (- (1))) with (- (1)). lra. }
  assert (Y : (b < N - pad + 2)%Z). { rewrite Zlt_Qlt, inject_Z_plus. change (inject_Z 2) with 2. lra. }
  split; [lia|]. split; [lia|]. split; [lia|]. apply Qabs_Qle_condition. assert (M : (inject_Z a + inject_Z b - 1) / 2 == (1 # 2) * (inject_Z a + inject_Z b - 1)) by field. rewrite M. split; lra.
Qed.
(* without padding it can reach beyond the end *)
Theorem C171_nopad_refuted : cutout 8 4 10 0 = Some (6, 10)%Z /\ cutout (41 # 5) 4 10 0 = Some (7, 11)%Z.
Proof. split; reflexivity. Qed.
Print Assumptions C169_rings_partial. Print Assumptions C169_offsets_refuted. Print Assumptions C170_pad_partial. Print Assumptions C170_long_refuted. Print Assumptions C171_size_partial. Print Assumptions C171_size_refuted. Print Assumptions C171_inside. Print Assumptions C171_nopad_refuted.
Example C169_ex_hyps : let r t := {| r_theta := t; r_nphi := 4; r_phi0 := 0; r_offset := 7 |} in In (r 1%R) [r 0%R; r 1%R] /\ ~ within (Some 2%R) None (r_theta (r 1%R)).
Proof. cbv zeta. split; [right; now left|]. intros [A _]. specialize (A 2%R eq_refl). cbn in A. Lra.lra. Qed.
Example C170_ex : pad_spectrum [3; 4] 3 = Some [3; 4; 0; 0] /\ pad_spectrum [3; 4] 0 = None.
Proof. split; reflexivity. Qed.
Example C171_ex : cutout (53 # 10) 4 10 1 = Some (4, 8)%Z /\ cutout (53 # 10) 3 10 1 = Some (4, 7)%Z /\ cutout 1 4 10 1 = None.
Proof. repeat split; reflexivity. Qed.
