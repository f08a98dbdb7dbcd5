From Coq Require Import List Arith QArith Qabs Bool Lia Lqa Sorted.
From Verif Require Import FswSpec FswModel.
Import ListNotations.
Open Scope nat_scope.
Ltac Zify.zify_post_hook ::= idtac.

Lemma Qltb_iff a b : Qltb a b = true <-> (a < b)%Q.
Proof. unfold Qltb. rewrite negb_true_iff. destruct (Qle_bool b a) eqn:E; [apply Qle_bool_iff in E; split; [discriminate|intros; lra]|]. split; [intros _|reflexivity]. apply Qnot_le_lt. intros H. apply Qle_bool_iff in H. congruence. Qed.
Lemma Qltb_no a b : Qltb a b = false <-> (b <= a)%Q.
Proof. unfold Qltb. rewrite negb_false_iff. apply Qle_bool_iff. Qed.
Lemma lmin_spec : forall l m, (lmin m l <= m)%Q /\ (forall x, In x l -> (lmin m l <= x)%Q) /\ (lmin m l = m \/ In (lmin m l) l).
Proof.
  induction l as [|y l IH]; intros m; cbn [lmin]; [split; [lra|split; [intros x []|now left]]|]. destruct (IH (if Qltb y m then y else m)) as (A & B & C). destruct (Qltb y m) eqn:E; [apply Qltb_iff in E|apply Qltb_no in E].
  - split; [lra|]. split; [intros x [<-|X]; [exact A|now apply B]|]. right. destruct C as [C|C]; [left; now symmetry|now right].
  - split; [exact A|]. split; [intros x [<-|X]; [lra|now apply B]|]. destruct C as [C|C]; [now left|right; now right].
Qed.
Lemma lmax_spec : forall l m, (m <= lmax m l)%Q /\ (forall x, In x l -> (x <= lmax m l)%Q) /\ (lmax m l = m \/ In (lmax m l) l).
Proof.
  induction l as [|y l IH]; intros m; cbn [lmax]; [split; [lra|split; [intros x []|now left]]|]. destruct (IH (if Qltb m y then y else m)) as (A & B & C). destruct (Qltb m y) eqn:E; [apply Qltb_iff in E|apply Qltb_no in E].
  - split; [lra|]. split; [intros x [<-|X]; [exact A|now apply B]|]. right. destruct C as [C|C]; [left; now symmetry|now right].
  - split; [exact A|]. split; [intros x [<-|X]; [lra|now apply B]|]. destruct C as [C|C]; [now left|right; now right].
Qed.
Lemma lowest_lmin a l : lowest (a :: l) (lmin a l).
Proof.
  destruct (lmin_spec l a) as (A & B & C). split.
  - destruct C as [C|C]; [exists 0; split; [cbn; lia|unfold sample; cbn; rewrite C; reflexivity]|]. destruct (In_nth _ _ 0%Q C) as (i & I & E). exists (S i). split; [cbn; lia|]. unfold sample. cbn. rewrite E. reflexivity.
  - intros [|i] I; unfold sample; cbn [nth]; [exact A|]. apply B, nth_In. cbn in I. lia.
Qed.
Lemma highest_lmax a l : highest (a :: l) (lmax a l).
Proof.
  destruct (lmax_spec l a) as (A & B & C). split.
  - destruct C as [C|C]; [exists 0; split; [cbn; lia|unfold sample; cbn; rewrite C; reflexivity]|]. destruct (In_nth _ _ 0%Q C) as (i & I & E). exists (S i). split; [cbn; lia|]. unfold sample. cbn. rewrite E. reflexivity.
  - intros [|i] I; unfold sample; cbn [nth]; [exact A|]. apply B, nth_In. cbn in I. lia.
Qed.

(* one pass over marked values *)
Section Scan.
Variable tie : nat -> nat -> bool.
Variable L : list (bool * Q).
Definition on i := i < length L /\ fst (nth i L (false, 0%Q)) = true.
Definition val i := snd (nth i L (false, 0%Q)).
Definition run i j := forall k, Nat.min i j <= k <= Nat.max i j -> on k.
Definition good t := on t /\ forall j, run t j -> (val j <= val t)%Q.
Definition apart a b := a < b /\ exists k, a < k < b /\ ~ on k.
Definition state (i : nat) (cur : option (nat * Q)) (lo : nat) : Prop :=
  match cur with
  | None => lo = i /\ (i = 0 \/ ~ on (i - 1))
  | Some (p, m) => lo <= p < i /\ (forall k, lo <= k < i -> on k) /\ (lo = 0 \/ ~ on (lo - 1)) /\ m = val p /\ forall k, lo <= k < i -> (val k <= m)%Q
  end.
Lemma scan_spec : forall l i cur lo, l = skipn i L -> i <= length L -> state i cur lo ->
  let ts := scan tie i cur l in Forall (fun t => good t /\ lo <= t) ts /\ StronglySorted apart ts /\ forall j, on j -> lo <= j -> exists t, In t ts /\ run t j.
Proof.
  induction l as [|[b v] l IH]; intros i cur lo E I ST; cbn zeta.
  - assert (i = length L) as EI. { assert (length (skipn i L) = 0) as Z by (rewrite <- E; reflexivity). rewrite skipn_length in Z. lia. } cbn [scan]. destruct cur as [[p m]|].
    + destruct ST as (P & K & LO & M & MX). split; [|split].
      * constructor; [|constructor]. split; [|lia]. split; [apply K; lia|]. intros j R. subst m. apply MX. split.
        -- destruct (le_lt_dec lo j); [assumption|]. exfalso. destruct LO as [LO|LO]; [lia|]. apply LO, R. lia.
        -- assert (on j) as [OJ _] by (apply R; lia). lia.
      * constructor; constructor.
      * intros j OJ LJ. exists p. split; [now left|]. intros k KK. destruct OJ as [OJ _]. apply K. lia.
    + destruct ST as [-> _]. split; [constructor|]. split; [constructor|]. intros j [OJ _] LJ. lia.
  - assert (IL : i < length L). { destruct (le_lt_dec (length L) i); [rewrite skipn_all2 in E by assumption; discriminate|assumption]. }
    assert (NI : nth i L (false, 0%Q) = (b, v)). { rewrite <- (firstn_skipn i L), <- E. rewrite app_nth2; rewrite firstn_length; [|lia]. replace (i - Nat.min i (length L)) with 0 by lia. reflexivity. }
    assert (E' : l = skipn (S i) L). { clear -E. revert i E. induction L as [|y L' IHL]; intros [|i] E; cbn in *; try discriminate; [now injection E|]. apply IHL, E. }
    assert (VI : val i = v) by (unfold val; now rewrite NI). destruct b; cbn [scan].
    + assert (OI : on i) by (split; [exact IL|now rewrite NI]). apply (IH (S i) _ lo E' ltac:(lia)). destruct cur as [[p m]|].
      * destruct ST as (P & K & LO & M & MX). assert (K' : forall k, lo <= k < S i -> on k) by (intros k KK; destruct (Nat.eq_dec k i); [now subst|apply K; lia]).
        destruct (Qltb m v || (Qeq_bool m v && tie p i)) eqn:C; cbn [state].
        -- split; [lia|]. split; [exact K'|]. split; [exact LO|]. split; [now symmetry|]. assert (m <= v)%Q. { apply orb_true_iff in C. destruct C as [C|C]; [apply Qltb_iff in C; lra|]. apply andb_true_iff in C. destruct C as [C _]. apply Qeq_bool_iff in C. lra. }
           intros k KK. destruct (Nat.eq_dec k i); [subst k; rewrite VI; lra|]. specialize (MX k ltac:(lia)). lra.
        -- apply orb_false_iff in C. destruct C as [C _]. apply Qltb_no in C. split; [lia|]. split; [exact K'|]. split; [exact LO|]. split; [exact M|]. intros k KK. destruct (Nat.eq_dec k i); [subst k; rewrite VI; exact C|apply MX; lia].
      * destruct ST as [-> LO]. cbn [state]. split; [lia|]. split; [intros k KK; replace k with i by lia; exact OI|]. split; [exact LO|]. split; [now symmetry|]. intros k KK. replace k with i by lia. rewrite VI. lra.
    + assert (OI : ~ on i) by (intros [_ Q]; rewrite NI in Q; discriminate). assert (NX : state (S i) None (S i)) by (split; [reflexivity|right; now replace (S i - 1) with i by lia]).
      destruct (IH (S i) None (S i) E' ltac:(lia) NX) as (F & SO & CV). destruct cur as [[p m]|].
      * destruct ST as (P & K & LO & M & MX). split; [|split].
        -- constructor.
           ++ split; [|lia]. split; [apply K; lia|]. intros j R. subst m. apply MX. split.
              ** destruct (le_lt_dec lo j); [assumption|]. exfalso. destruct LO as [LO|LO]; [lia|]. apply LO, R. lia.
              ** destruct (le_lt_dec i j); [exfalso; apply OI, R; lia|assumption].
           ++ eapply Forall_impl; [|exact F]. intros t [G T]. split; [exact G|lia].
        -- constructor; [exact SO|]. eapply Forall_impl; [|exact F]. intros t [G T]. split; [lia|]. exists i. split; [lia|exact OI].
        -- intros j OJ LJ. destruct (le_lt_dec (S i) j) as [J|J]; [destruct (CV j OJ J) as (t & T & R); exists t; split; [now right|exact R]|]. exists p. split; [now left|]. assert (j <> i) by (intros ->; now apply OI). intros k KK. apply K. lia.
      * destruct ST as [-> LO]. split; [eapply Forall_impl; [|exact F]; intros t [G T]; split; [exact G|lia]|]. split; [exact SO|]. intros j OJ LJ. assert (j <> i) by (intros ->; now apply OI). apply CV; [exact OJ|lia].
Qed.
End Scan.
Lemma insert_spec x : forall l, StronglySorted lt l -> StronglySorted lt (insert x l) /\ forall y, In y (insert x l) <-> y = x \/ In y l.
Proof.
  induction l as [|z l IH]; intros S; cbn [insert]; [split; [constructor; constructor|cbn; intros; intuition]|]. inversion S as [|z' l' S' F]; subst. destruct (Nat.ltb_spec x z); [|destruct (Nat.eqb_spec x z)].
  - split; [|cbn; intros; intuition]. constructor; [exact S|]. constructor; [assumption|]. eapply Forall_impl; [|exact F]. cbn. intros; lia.
  - subst. split; [exact S|]. cbn. intros; intuition.
  - destruct (IH S') as [A B]. split; [|intros y; cbn; rewrite B; intuition]. constructor; [exact A|]. apply Forall_forall. intros y Y. apply B in Y. destruct Y as [->|Y]; [lia|]. rewrite Forall_forall in F. now apply F.
Qed.
Lemma unique_spec l : StronglySorted lt (unique l) /\ forall y, In y (unique l) <-> In y l.
Proof. induction l as [|x l [A B]]; cbn [unique fold_right]; [split; [constructor|reflexivity]|]. destruct (insert_spec x (unique l) A) as [C D]. split; [exact C|]. intros y. unfold unique in *. rewrite D, B. cbn. intuition. Qed.
Lemma tiles_sorted n : forall l a, StronglySorted lt (a :: l) -> last (a :: l) 0 = n -> tiles a n (combine (removelast (a :: l)) l).
Proof.
  induction l as [|b l IH]; intros a S E; [cbn in *; exact E|]. inversion S as [|a' l' S' F]; subst a' l'. change (removelast (a :: b :: l)) with (a :: removelast (b :: l)). cbn [combine tiles]. split; [reflexivity|]. split; [now inversion F|]. apply IH; [exact S'|exact E].
Qed.
Lemma last_max : forall l a, StronglySorted lt (a :: l) -> forall y, In y (a :: l) -> y <= last (a :: l) 0.
Proof.
  induction l as [|b l IH]; intros a S y Y; [destruct Y as [->|[]]; cbn; lia|]. inversion S as [|a' l' S' F]; subst a' l'. change (last (a :: b :: l) 0) with (last (b :: l) 0). destruct Y as [<-|Y]; [|now apply IH]. inversion F; subst. specialize (IH b S' b (or_introl eq_refl)). lia.
Qed.
Lemma last_in : forall l (a : nat), In (last (a :: l) 0) (a :: l).
Proof. induction l as [|b l IH]; intros a; [now left|]. right. apply IH. Qed.
Lemma starts_sorted : forall (l : list nat) (a : nat), map fst (combine (removelast (a :: l)) l) = removelast (a :: l).
Proof. induction l as [|b l IH]; intros a; [reflexivity|]. change (removelast (a :: b :: l)) with (a :: removelast (b :: l)). cbn [combine map fst]. f_equal. apply IH. Qed.
Lemma removelast_in : forall l (a : nat), StronglySorted lt (a :: l) -> forall y, In y (removelast (a :: l)) <-> In y (a :: l) /\ y <> last (a :: l) 0.
Proof.
  induction l as [|b l IH]; intros a S y; [cbn; intuition|]. inversion S as [|a' l' S' F]; subst a' l'. change (removelast (a :: b :: l)) with (a :: removelast (b :: l)). change (last (a :: b :: l) 0) with (last (b :: l) 0). cbn [In]. rewrite (IH b S' y). cbn [In].
  assert (a <> last (b :: l) 0). { pose proof (last_in l b) as LI. rewrite Forall_forall in F. specialize (F _ LI). lia. } intuition; subst; intuition.
Qed.

Section Sweeps.
Variable tie : nat -> nat -> bool.
Variable tol : Q.
Variables (a : Q) (rest : list Q).
Let az := a :: rest.
Let lo := lmin a rest.
Let hi := lmax a rest.
Let L := map (fun v => (Qltb ((hi - lo) / 2 * (1 - tol))%Q v, v)) (map (fun x => Qabs (x - (hi + lo) / 2)) az).
Lemma L_len : length L = length az. Proof. unfold L. now rewrite !map_length. Qed.
Lemma L_nth i : i < length az -> nth i L (false, 0%Q) = (Qltb ((hi - lo) / 2 * (1 - tol))%Q (off az lo hi i), off az lo hi i).
Proof.
  intros I. unfold L. rewrite map_map. set (f := fun x => (Qltb ((hi - lo) / 2 * (1 - tol))%Q (Qabs (x - (hi + lo) / 2)), Qabs (x - (hi + lo) / 2))). rewrite (nth_indep _ (false, 0%Q) (f 0%Q)) by (rewrite map_length; exact I). rewrite (map_nth f). reflexivity.
Qed.
Lemma on_near i : on L i <-> near az tol lo hi i.
Proof.
  unfold on, near. rewrite L_len. split; intros [I H]; (split; [exact I|]); rewrite L_nth in * by exact I; cbn [fst] in *; now apply Qltb_iff.
Qed.
Lemma val_off i : i < length az -> val L i = off az lo hi i.
Proof. intros I. unfold val. now rewrite L_nth. Qed.
Lemma sweeps_form : find_sweeps tie tol az = match scan tie 0 None L with [] => None | _ => let turns := unique ([0] ++ scan tie 0 None L ++ [length az]) in Some (combine (removelast turns) (tl turns)) end.
Proof. unfold find_sweeps, az. fold az. cbv zeta. fold lo hi. fold L. destruct (scan tie 0 None L); reflexivity. Qed.
Lemma scan_facts : Forall (good L) (scan tie 0 None L) /\ StronglySorted (apart L) (scan tie 0 None L) /\ forall j, on L j -> exists t, In t (scan tie 0 None L) /\ run L t j.
Proof.
  destruct (scan_spec tie L L 0 None 0 eq_refl ltac:(lia) (conj eq_refl (or_introl eq_refl))) as (F & S & C). split; [eapply Forall_impl; [|exact F]; cbn; tauto|]. split; [exact S|]. intros j J. apply C; [exact J|lia].
Qed.
Lemma sweeps_shape sw : find_sweeps tie tol az = Some sw -> tiles 0 (length az) sw /\ forall t, In t (map fst sw) <-> (t = 0 \/ In t (scan tie 0 None L)).
Proof.
  rewrite sweeps_form. destruct scan_facts as (F & _ & _). remember (scan tie 0 None L) as ts. destruct ts as [|t0 ts0] eqn:ET; [discriminate|]. rewrite <- ET in *. cbv zeta. intros E0. remember (unique ([0] ++ ts ++ [length az])) as u eqn:DU. assert (E : sw = combine (removelast u) (tl u)) by congruence. clear E0. subst sw.
  destruct (unique_spec ([0] ++ ts ++ [length az])) as [US UI]. rewrite <- DU in US, UI. clear DU.
  assert (LT : forall t, In t ts -> t < length az). { intros t T. rewrite Forall_forall in F. destruct (F t T) as [[O _] _]. rewrite L_len in O. exact O. }
  assert (AZ : 0 < length az) by (cbn; lia). destruct u as [|x l] eqn:EU; [exfalso; apply (proj2 (UI 0)); now left|]. rewrite <- EU in UI.
  assert (X : x = 0). { assert (In 0 (x :: l)) as [X|X] by (rewrite <- EU; apply UI; now left); [exact X|]. inversion US as [|x' l' S' FF]; subst x' l'. rewrite Forall_forall in FF. specialize (FF 0 X). lia. } subst x.
  assert (LA : last (0 :: l) 0 = length az).
  { apply Nat.le_antisymm.
    - pose proof (last_in l 0) as LI. rewrite <- EU in LI at 2. apply UI in LI. apply in_app_or in LI. destruct LI as [[LI|[]]|LI]; [lia|]. apply in_app_or in LI. destruct LI as [LI|[LI|[]]]; [specialize (LT _ LI); lia|lia].
    - apply last_max; [exact US|]. rewrite <- EU. apply UI. apply in_or_app. right. apply in_or_app. right. now left. }
  cbn [tl]. split; [apply tiles_sorted; [exact US|exact LA]|]. intros t. rewrite starts_sorted, (removelast_in l 0 US t), LA, <- EU, UI. rewrite !in_app_iff. cbn [In]. split.
  - intros [[[T|[]]|[T|[T|[]]]] N]; [left; lia|now right|lia].
  - intros [->|T]; [split; [left; now left|lia]|]. split; [right; now left|]. specialize (LT t T). lia.
Qed.
End Sweeps.
Lemma run_together tol a rest i j : run (map (fun v => (Qltb ((lmax a rest - lmin a rest) / 2 * (1 - tol))%Q v, v)) (map (fun x => Qabs (x - (lmax a rest + lmin a rest) / 2)) (a :: rest))) i j <-> together (a :: rest) tol (lmin a rest) (lmax a rest) i j.
Proof. unfold run, together. split; intros H k K; apply on_near; now apply H. Qed.

(* C138 the sweeps follow each other from the first sample to the end *)
Theorem C138_tiles tie tol az sw : find_sweeps tie tol az = Some sw -> tiles 0 (length az) sw.
Proof. destruct az as [|a rest]; [discriminate|]. intros H. now apply (sweeps_shape tie tol a rest sw). Qed.
Print Assumptions C138_tiles.
(* a sweep that does not start at 0 starts near an end of the range, at a sample that no other in the same stretch exceeds *)
Theorem C138_turns tie tol az sw : find_sweeps tie tol az = Some sw -> exists lo hi, lowest az lo /\ highest az hi /\ forall t, In t (map fst sw) -> t <> 0 ->
  near az tol lo hi t /\ forall j, together az tol lo hi t j -> (off az lo hi j <= off az lo hi t)%Q.
Proof.
  destruct az as [|a rest]; [discriminate|]. intros H. exists (lmin a rest), (lmax a rest). split; [apply lowest_lmin|]. split; [apply highest_lmax|]. intros t T N. destruct (sweeps_shape tie tol a rest sw H) as [_ S]. apply S in T. destruct T as [T|T]; [contradiction|].
  destruct (scan_facts tie tol a rest) as (F & _ & _). rewrite Forall_forall in F. destruct (F t T) as [O M]. apply on_near in O. split; [exact O|]. intros j J. rewrite <- !val_off with (tol := tol).
  - apply M. now apply run_together.
  - apply O.
  - assert (near (a :: rest) tol (lmin a rest) (lmax a rest) j) as [X _] by (apply J; lia). exact X.
Qed.
Print Assumptions C138_turns.
(* and every stretch near an end has a start of a sweep in it, and only one besides 0 *)
Theorem C138_each tie tol az sw : find_sweeps tie tol az = Some sw -> exists lo hi, lowest az lo /\ highest az hi /\
  (forall j, near az tol lo hi j -> exists t, In t (map fst sw) /\ together az tol lo hi t j) /\
  (forall t t', In t (map fst sw) -> In t' (map fst sw) -> t <> 0 -> t' <> 0 -> together az tol lo hi t t' -> t = t').
Proof.
  destruct az as [|a rest]; [discriminate|]. intros H. exists (lmin a rest), (lmax a rest). split; [apply lowest_lmin|]. split; [apply highest_lmax|]. destruct (sweeps_shape tie tol a rest sw H) as [_ S]. destruct (scan_facts tie tol a rest) as (F & SO & C). split.
  - intros j J. apply on_near in J. destruct (C j J) as (t & T & R). exists t. split; [apply S; now right|]. now apply run_together.
  - intros t t' T T' N N' R. apply S in T, T'. destruct T as [T|T]; [contradiction|]. destruct T' as [T'|T']; [contradiction|]. apply run_together in R.
    set (ts := scan _ _ _ _) in *. clearbody ts. clear -SO T T' R. induction SO as [|x ts SO IH FX]; [contradiction|]. rewrite Forall_forall in FX.
    destruct T as [<-|T], T' as [<-|T']; [reflexivity| | |now apply IH].
    + destruct (FX t' T') as (LT & k & K & NK). exfalso. apply NK, R. lia.
    + destruct (FX t T) as (LT & k & K & NK). exfalso. apply NK, R. lia.
Qed.
Print Assumptions C138_each.
Lemma Qhalf_amp (lo hi x : Q) : (x == hi)%Q -> (lo <= hi)%Q -> (Qabs (x - (hi + lo) / 2) == (hi - lo) / 2)%Q.
Proof. intros E H. rewrite Qabs_pos; [rewrite E; field|]. rewrite E. setoid_replace (hi - (hi + lo) / 2)%Q with ((hi - lo) * (1 # 2))%Q by field. lra. Qed.
(* there is an answer for every scan that moves at all, for any positive tolerance *)
Theorem C138_total tie tol az i j : (0 < tol)%Q -> i < length az -> j < length az -> ~ (sample az i == sample az j)%Q -> find_sweeps tie tol az <> None.
Proof.
  intros T I J NE. destruct az as [|a rest]; [cbn in I; lia|]. rewrite sweeps_form. destruct (scan_facts tie tol a rest) as (_ & _ & C). pose proof (lowest_lmin a rest) as [_ LO]. pose proof (highest_lmax a rest) as [(h & HI & HE) HM]. set (lo := lmin a rest) in *. set (hi := lmax a rest) in *.
  assert (LT : (lo < hi)%Q). { pose proof (LO i I). pose proof (LO j J). pose proof (HM i I). pose proof (HM j J). apply Qnot_le_lt. intros Q. apply NE. lra. }
  assert (NH : near (a :: rest) tol lo hi h). { split; [exact HI|]. unfold off. rewrite (Qhalf_amp lo hi) by (try exact HE; lra). setoid_replace ((hi - lo) / 2 * (1 - tol))%Q with ((hi - lo) * (1 # 2) - (hi - lo) * tol * (1 # 2))%Q by field. setoid_replace ((hi - lo) / 2)%Q with ((hi - lo) * (1 # 2))%Q by field. assert (0 < (hi - lo) * tol)%Q by (apply Qmult_lt_0_compat; lra). lra. }
  apply on_near in NH. destruct (C h NH) as (t & IN & _). fold lo hi in IN. cbv zeta. destruct (scan _ _ _ _); [contradiction|discriminate].
Qed.
Print Assumptions C138_total.
(* but none for a scan that stands still *)
Theorem C138_still tie tol az : (forall i, i < length az -> (sample az i == sample az 0)%Q) -> find_sweeps tie tol az = None.
Proof.
  destruct az as [|a rest]; [reflexivity|]. intros H. rewrite sweeps_form. destruct (scan_facts tie tol a rest) as (F & _ & _). cbv zeta. destruct (scan _ _ _ _) as [|t ts] eqn:E; [reflexivity|]. exfalso. inversion F as [|t' ts' G _]; subst. destruct G as [O _]. apply on_near in O. destruct O as [TI O].
  pose proof (lowest_lmin a rest) as [(l & LI & LE) _]. pose proof (highest_lmax a rest) as [(h & HI & HE) _]. set (lo := lmin a rest) in *. set (hi := lmax a rest) in *. pose proof (H l LI) as HL. pose proof (H h HI) as HH. pose proof (H t TI) as HT.
  unfold off in O. assert (Z : (sample (a :: rest) t - (hi + lo) / 2 == 0)%Q). { rewrite HT, <- HE, <- LE, HL, HH. field. } rewrite Z in O. assert (Y : (hi - lo == 0)%Q) by lra. unfold Qdiv in O. rewrite Y in O. change (Qabs 0) with 0%Q in O. lra.
Qed.
Print Assumptions C138_still.
Definition zigzag : list Q := [0; 1; 2; 3; 2; 1; 0; 1; 2; 3; 2]%Q.
Example C138_ex : find_sweeps (fun _ _ => true) (1 # 5) zigzag = Some [(0, 3); (3, 6); (6, 9); (9, 11)].
Proof. reflexivity. Qed.
Example C138_ex_hyps : (0 < 1 # 5)%Q /\ 0 < length zigzag /\ 3 < length zigzag /\ ~ (sample zigzag 0 == sample zigzag 3)%Q.
Proof. repeat split; cbn; try lia. discriminate. Qed.
