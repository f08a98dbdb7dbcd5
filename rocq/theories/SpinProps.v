(* C16: component grouping by spin. *)
From Verif Require Import Base SpinSpec IterSpec IterModel IterLemmas SpinModel SpinLemmas.

(* For every non-empty spin list and every n, the loop ends, normally or with the exception. If normally, the groups
   cover 0..n-1 each exactly once in order, with the cyclic spins and their sizes. It raises only if there is no such
   grouping (with at least one group), and what it has yielded by then is correct. *)
Theorem C16_spin_helper : forall spin n fuel, spin <> [] -> Z.max 1 (n + 1) <= Z.of_nat fuel ->
  let '(gs, e) := spin_helper fuel spin n in
  well_grouped spin gs /\
  (e = Done /\ covered gs = zrange 0 n \/
   e = Raised /\ (exists m, m <= Z.max 0 n /\ covered gs = zrange 0 m) /\
   forall gs', gs' <> [] -> well_grouped spin gs' -> covered gs' <> zrange 0 n).
Proof.
  intros spin n fuel Hs Hf. pose proof (spin_helper_spec spin n fuel Hs Hf) as H. destruct (spin_helper fuel spin n) as [gs e].
  destruct H as (W & (m & C & Cm & D) & [-> | ->] & R); (split; [exact W|]).
  - left. rewrite (D eq_refl) in C. auto.
  - right. split; [reflexivity|]. split; [exists m; auto|]. apply R. reflexivity.
Qed.
Print Assumptions C16_spin_helper.

(* With leading dimensions: every (index tuple, component) appears exactly once. Guard: positive leading dimensions,
   since nditer is wrong for the others (C26_zero_axis_refuted). *)
Theorem C16_spin_pre_helper : forall spin dims n fuel gs, spin <> [] -> (forall d, In d dims -> 0 < d) ->
  Z.max 1 (n + 1) <= Z.of_nat fuel -> (length (index_tuples (map Some dims)) <= fuel)%nat ->
  spin_pre_helper fuel spin (dims ++ [n]) = (gs, Done) ->
  NoDup (flat_map (fun o => map (pair (fst o)) (covered [snd o])) gs) /\
  forall I c, In (I, c) (flat_map (fun o => map (pair (fst o)) (covered [snd o])) gs) <-> Forall2 index_ok (map Some dims) I /\ 0 <= c < n.
Proof.
  intros spin dims n fuel gs Hs Hd Hf Hl H. unfold spin_pre_helper in H. rewrite removelast_last, last_last in H.
  pose proof (select_all 0 dims) as Sel. cbn [Nat.add] in Sel.
  rewrite (nditer_spec dims None fuel Logic.I) in H; [|rewrite Sel; intros d Hi; apply in_map_iff in Hi as (d' & E & Hi); apply Some_inj in E; subst; auto|rewrite Sel; exact Hl].
  rewrite Sel in H. pose proof (spin_helper_spec spin n fuel Hs Hf) as P. unfold spin_helper in P. destruct (spin_loop fuel spin n 0 0) as [g e].
  destruct P as (W & (m & C & Cm & D) & Oe & R).
  set (T := index_tuples (map Some dims)) in *.
  assert (NE : T <> []).
  { assert (X : In (map (fun _ => Some 0) dims) T). { apply index_tuples_In. clear - Hd. induction dims as [|d r IH]; cbn; constructor; [cbn; specialize (Hd d (or_introl eq_refl)); lia|apply IH; intros d' Hi; apply Hd; right; exact Hi]. } intros E. rewrite E in X. exact X. }
  destruct Oe as [-> | ->]; [|destruct T; [contradiction|discriminate]].
  rewrite over_pre_done in H. injection H as <-. rewrite (D eq_refl) in C.
  assert (F : flat_map (fun o : list (option Z) * (Z * Z * Z) => map (pair (fst o)) (covered [snd o])) (list_prod T g) = list_prod T (zrange 0 n)).
  { clear - C. induction T as [|t r IH]; [reflexivity|]. cbn [list_prod]. rewrite flat_map_app, IH, covered_tag, C. reflexivity. }
  rewrite F. split.
  - apply NoDup_prod; [apply index_tuples_NoDup|apply zrange_NoDup].
  - intros I c. rewrite in_prod_iff, zrange_In. unfold T. rewrite index_tuples_In. reflexivity.
Qed.
Print Assumptions C16_spin_pre_helper.

(* When the components do not fit, the error comes while the first tuple is being handled, after the groups spin_helper
   gives for it. *)
Theorem C16_spin_pre_raised : forall spin dims n fuel gs, spin <> [] -> (forall d, In d dims -> 0 < d) ->
  Z.max 1 (n + 1) <= Z.of_nat fuel -> (length (index_tuples (map Some dims)) <= fuel)%nat ->
  spin_pre_helper fuel spin (dims ++ [n]) = (gs, Raised) ->
  exists I0 gs1, hd_error (index_tuples (map Some dims)) = Some I0 /\ spin_helper fuel spin n = (gs1, Raised) /\ gs = map (pair I0) gs1.
Proof.
  intros spin dims n fuel gs Hs Hd Hf Hl H. unfold spin_pre_helper in H. rewrite removelast_last, last_last in H.
  pose proof (select_all 0 dims) as Sel. cbn [Nat.add] in Sel.
  rewrite (nditer_spec dims None fuel Logic.I) in H; [|rewrite Sel; intros d Hi; apply in_map_iff in Hi as (d' & E & Hi); apply Some_inj in E; subst; auto|rewrite Sel; exact Hl].
  rewrite Sel in H. pose proof (spin_helper_spec spin n fuel Hs Hf) as P. unfold spin_helper in *. destruct (spin_loop fuel spin n 0 0) as [g e].
  destruct P as (_ & _ & Oe & _). set (T := index_tuples (map Some dims)) in *.
  destruct Oe as [E|E]; subst e; [rewrite over_pre_done in H; discriminate H|].
  destruct T as [|I0 r]; [discriminate H|]. cbn in H. injection H as H. exists I0, g. auto.
Qed.
Print Assumptions C16_spin_pre_raised.

Example C16_ex : spin_helper 10 [0; 2] 5 = ([(0, 0, 1); (2, 1, 3); (0, 3, 4)], Raised) /\ spin_helper 10 [0; 2] 6 = ([(0, 0, 1); (2, 1, 3); (0, 3, 4); (2, 4, 6)], Done) /\
  spin_helper 10 [0; 2] 1 = ([(0, 0, 1)], Done).
Proof. vm_compute. auto. Qed.
Example C16_ex_pre : snd (spin_pre_helper 10 [0; 2] [2; 3]) = Done /\ length (fst (spin_pre_helper 10 [0; 2] [2; 3])) = 4%nat.
Proof. vm_compute. auto. Qed.
Example C16_ex_raised : spin_pre_helper 10 [0; 2] [2; 5] = (map (pair [Some 0]) [(0, 0, 1); (2, 1, 3); (0, 3, 4)], Raised).
Proof. vm_compute. reflexivity. Qed.
