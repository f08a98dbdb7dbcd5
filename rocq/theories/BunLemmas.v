(* Proof machinery for bunch.py. *)
From Coq Require Import List Ascii String ZArith QArith Qround Bool Arith Lia Permutation Sorted.
From Verif Require Import BunSpec BunModel.
Import ListNotations.
Local Open Scope string_scope.
Local Open Scope list_scope.
Ltac Zify.zify_post_hook ::= idtac.

(* ---- dictionaries against the ideal bunch ---- *)
Definition rel (d : dict) (b : ideal) : Prop :=
  NoDup (map fst d) /\ names b = map fst d /\ forall k, dget d k = at_name b k.

Lemma dget_In : forall d k, dget d k <> None <-> In k (map fst d).
Proof.
  induction d as [|[a v] d IH]; intros k; cbn; [intuition|].
  destruct (string_dec a k); [split; intros; [left; auto|discriminate]|].
  rewrite IH. intuition.
Qed.

Lemma dget_dset : forall d k v k', dget (dset d k v) k' = if string_dec k k' then Some v else dget d k'.
Proof.
  induction d as [|[a x] d IH]; intros k v k'; cbn.
  - destruct (string_dec k k'); reflexivity.
  - destruct (string_dec a k); cbn.
    + subst. destruct (string_dec k k'); reflexivity.
    + rewrite IH. destruct (string_dec a k'); destruct (string_dec k k'); congruence.
Qed.

Lemma keys_dset : forall d k v,
    map fst (dset d k v) = match dget d k with Some _ => map fst d | None => map fst d ++ [k] end.
Proof.
  induction d as [|[a x] d IH]; intros k v; cbn; [reflexivity|].
  destruct (string_dec a k); cbn; [reflexivity|].
  rewrite IH. destruct (dget d k); reflexivity.
Qed.

Lemma NoDup_snoc : forall (l : list string) k, NoDup l -> ~ In k l -> NoDup (l ++ [k]).
Proof.
  intros l k H1 H2. apply (Permutation_NoDup (l := k :: l)).
  - apply Permutation_cons_append.
  - constructor; assumption.
Qed.

Lemma rel_store : forall d b k v, rel d b -> rel (dset d k v) (store b k v).
Proof.
  intros d b k v [H1 [H2 H3]]. split; [|split].
  - rewrite keys_dset. destruct (dget d k) eqn:E; [exact H1|].
    apply NoDup_snoc; [exact H1|]. intros HI. apply dget_In in HI. congruence.
  - cbn. rewrite keys_dset, <- H3, H2. reflexivity.
  - intros k'. cbn. rewrite dget_dset, H3. reflexivity.
Qed.

Lemma dget_ddel : forall d k k', NoDup (map fst d) ->
    dget (ddel d k) k' = if string_dec k k' then None else dget d k'.
Proof.
  induction d as [|[a x] d IH]; intros k k' H; cbn.
  - destruct (string_dec k k'); reflexivity.
  - cbn in H. inversion H as [|? ? N D]; subst.
    destruct (string_dec a k); cbn.
    + subst. destruct (string_dec k k'); [|reflexivity].
      subst. destruct (dget d k') eqn:E; [|reflexivity].
      exfalso. apply N. apply dget_In. congruence.
    + rewrite IH by exact D. destruct (string_dec a k'); destruct (string_dec k k'); congruence.
Qed.

Lemma filter_out : forall (l : list string) k, ~ In k l ->
    filter (fun k' => if string_dec k k' then false else true) l = l.
Proof.
  induction l as [|a l IH]; intros k H; cbn; [reflexivity|].
  destruct (string_dec k a); [exfalso; apply H; left; auto|].
  rewrite IH; [reflexivity|]. intros HI; apply H; right; exact HI.
Qed.

Lemma keys_ddel : forall d k, NoDup (map fst d) ->
    map fst (ddel d k) = filter (fun k' => if string_dec k k' then false else true) (map fst d).
Proof.
  induction d as [|[a x] d IH]; intros k H; cbn; [reflexivity|].
  cbn in H. inversion H as [|? ? N D]; subst.
  destruct (string_dec a k); cbn.
  - subst. destruct (string_dec k k); [|congruence].
    rewrite filter_out; auto.
  - destruct (string_dec k a); [congruence|]. rewrite IH; auto.
Qed.

Lemma rel_erase : forall d b k, rel d b -> rel (ddel d k) (erase b k).
Proof.
  intros d b k [H1 [H2 H3]]. split; [|split].
  - rewrite keys_ddel by exact H1. apply NoDup_filter. exact H1.
  - cbn. rewrite keys_ddel by exact H1. rewrite H2. reflexivity.
  - intros k'. cbn. rewrite dget_ddel by exact H1. rewrite H3. reflexivity.
Qed.

Lemma rel_empty : rel [] empty.
Proof. split; [constructor|]. split; [reflexivity|]. intros k; reflexivity. Qed.

Lemma rel_update_all : forall l d b, rel d b -> rel (dupdate d l) (store_all l b).
Proof.
  induction l as [|[k v] l IH]; intros d b H; [exact H|].
  cbn. apply IH. apply rel_store. exact H.
Qed.

Lemma dget_first : forall d k v, NoDup (map fst d) -> In (k, v) d -> dget d k = Some v.
Proof.
  induction d as [|[a x] d IH]; intros k v H HI; [contradiction|].
  cbn in *. inversion H as [|? ? N D]; subst. destruct HI as [E|HI].
  - inversion E; subst. destruct (string_dec k k); congruence.
  - destruct (string_dec a k); [|auto].
    subst. exfalso. apply N. apply in_map_iff. exists (k, v). auto.
Qed.

Lemma rel_update : forall e c d b, rel e c -> rel d b -> rel (dupdate d e) (store_from c b).
Proof.
  intros e c d b [E1 [E2 E3]] H. unfold store_from. rewrite E2.
  assert (G : forall l, (forall kv, In kv l -> In kv e) -> forall d b, rel d b ->
    rel (dupdate d l)
      (fold_left (fun b k => match at_name c k with Some v => store b k v | None => b end) (map fst l) b)).
  { induction l as [|[k v] l IH]; intros HI d0 b0 H0; [exact H0|].
    cbn. assert (A : at_name c k = Some v).
    { rewrite <- E3. apply dget_first; [exact E1|]. apply HI. left; reflexivity. }
    rewrite A. apply IH; [intros; apply HI; right; assumption|]. apply rel_store. exact H0. }
  apply G; [auto|exact H].
Qed.

(* updating an empty dictionary copies *)
Lemma dset_new : forall d k v, ~ In k (map fst d) -> dset d k v = d ++ [(k, v)].
Proof.
  induction d as [|[a x] d IH]; intros k v H; cbn; [reflexivity|].
  destruct (string_dec a k); [exfalso; apply H; left; auto|].
  rewrite IH; [reflexivity|]. intros HI; apply H; right; exact HI.
Qed.
Lemma dupdate_app : forall e d, NoDup (map fst (d ++ e)) -> dupdate d e = d ++ e.
Proof.
  induction e as [|[k v] e IH]; intros d H; [symmetry; apply app_nil_r|].
  change (dupdate d ((k, v) :: e)) with (dupdate (dset d k v) e). rewrite dset_new.
  - rewrite IH; rewrite <- app_assoc; [reflexivity|exact H].
  - rewrite map_app in H. cbn in H. apply NoDup_remove_2 in H.
    intros HI; apply H; apply in_or_app; left; exact HI.
Qed.
Lemma dupdate_copy : forall d, NoDup (map fst d) -> dupdate [] d = d.
Proof. intros d H. rewrite dupdate_app; [reflexivity|exact H]. Qed.

(* ---- the heap against the world ---- *)
Definition orel (o : obj) (b : ideal) : Prop := exists d, o = Some d /\ rel d b.
Definition hrel (h : heap) (w : world) : Prop := Forall2 orel h w.

Lemma hrel_len : forall h w, hrel h w -> List.length h = List.length w.
Proof. intros h w H. induction H; cbn; congruence. Qed.

Lemma hrel_nth : forall h w i, hrel h w -> (i < List.length w)%nat ->
    exists d, nth_error h i = Some (Some d) /\ rel d (nth i w empty).
Proof.
  intros h w i H. revert i. induction H as [|o b h w [d [E R]] _ IH]; intros i L; cbn in L; [lia|].
  destruct i as [|i]; cbn.
  - exists d. subst. auto.
  - apply IH. lia.
Qed.

Lemma hrel_dict : forall h w i, hrel h w -> (i < List.length w)%nat ->
    exists d, dict_of h i = Ok d /\ rel d (nth i w empty).
Proof.
  intros h w i H L. destruct (hrel_nth h w i H L) as [d [E R]].
  exists d. unfold dict_of. rewrite E. auto.
Qed.

Lemma change_out : forall l f m i, (m + List.length l <= i)%nat \/ (i < m)%nat ->
    map (fun ib : nat * ideal => if Nat.eqb (fst ib) i then f (snd ib) else snd ib)
        (combine (seq m (List.length l)) l) = l.
Proof.
  induction l as [|b l IH]; intros f m i H; [reflexivity|].
  cbn [List.length seq combine map fst snd]. cbn [List.length] in H.
  destruct (Nat.eqb_spec m i); [lia|]. rewrite IH by lia. reflexivity.
Qed.

Lemma change_at : forall l f m i, (i < List.length l)%nat ->
    map (fun ib : nat * ideal => if Nat.eqb (fst ib) (m + i) then f (snd ib) else snd ib)
        (combine (seq m (List.length l)) l)
    = firstn i l ++ [f (nth i l empty)] ++ skipn (S i) l.
Proof.
  induction l as [|b l IH]; intros f m i H; cbn [List.length] in H; [lia|].
  cbn [List.length seq combine map fst snd]. destruct i as [|i].
  - rewrite Nat.add_0_r, Nat.eqb_refl. rewrite change_out by lia. reflexivity.
  - destruct (Nat.eqb_spec m (m + S i)); [lia|].
    replace (m + S i)%nat with (S m + i)%nat by lia. rewrite IH by lia. reflexivity.
Qed.

Lemma change_eq : forall w f i, (i < List.length w)%nat ->
    change w i f = firstn i w ++ [f (nth i w empty)] ++ skipn (S i) w.
Proof. intros w f i H. unfold change. exact (change_at w f 0 i H). Qed.

Lemma Forall2_firstn : forall {A B} (R : A -> B -> Prop) l m n,
    Forall2 R l m -> Forall2 R (firstn n l) (firstn n m).
Proof.
  intros A B R l m n H. revert n. induction H; intros [|n]; cbn; constructor; auto.
Qed.
Lemma Forall2_skipn : forall {A B} (R : A -> B -> Prop) l m n,
    Forall2 R l m -> Forall2 R (skipn n l) (skipn n m).
Proof.
  intros A B R l m n H. revert n. induction H; intros [|n]; cbn; try constructor; auto.
Qed.

Lemma hrel_set : forall h w i d f, hrel h w -> (i < List.length w)%nat ->
    rel d (f (nth i w empty)) -> hrel (set_obj h i (Some d)) (change w i f).
Proof.
  intros h w i d f H L R. rewrite change_eq by exact L. unfold set_obj, hrel.
  apply Forall2_app; [apply Forall2_firstn; exact H|].
  apply Forall2_app; [|apply Forall2_skipn; exact H].
  constructor; [exists d; auto|constructor].
Qed.

Lemma init_rel : forall h w, hrel h w -> forall from d b, rel d b ->
    Forall (fun j => (j < List.length w)%nat) from ->
    exists d', init h d from = Ok d' /\
               rel d' (fold_left (fun b j => store_from (nth j w empty) b) from b).
Proof.
  intros h w H. induction from as [|j from IH]; intros d b R F; cbn.
  - exists d; auto.
  - inversion F; subst. destruct (hrel_dict h w j H) as [e [E1 E2]]; [assumption|].
    rewrite E1. apply IH; [|assumption]. apply rel_update; assumption.
Qed.

Lemma step_rel : forall h w o, hrel h w -> works w o ->
    exists h', step h o = Ok h' /\ hrel h' (ideal_step w o).
Proof.
  intros h w o H W. destruct o as [from kw|i k v|i k v|i k|i k|i j|i]; cbn in W |- *.
  - destruct (init_rel h w H from [] empty rel_empty W) as [d [E R]]. rewrite E.
    eexists; split; [reflexivity|]. apply Forall2_app; [exact H|].
    constructor; [|constructor]. exists (dupdate d kw). split; [reflexivity|].
    apply rel_update_all. exact R.
  - unfold setattr. destruct (hrel_dict h w i H W) as [d [E R]]. rewrite E.
    eexists; split; [reflexivity|]. apply hrel_set; auto. apply rel_store; exact R.
  - unfold setitem. destruct (hrel_dict h w i H W) as [d [E R]]. rewrite E.
    eexists; split; [reflexivity|]. apply hrel_set; auto. apply rel_store; exact R.
  - unfold delattr. destruct W as [W1 W2]. destruct (hrel_dict h w i H W1) as [d [E R]]. rewrite E.
    destruct R as [R1 [R2 R3]]. rewrite <- R3 in W2. destruct (dget d k) eqn:G; [|congruence].
    eexists; split; [reflexivity|]. apply hrel_set; auto. apply rel_erase. split; auto.
  - unfold delitem, delattr. destruct W as [W1 W2]. destruct (hrel_dict h w i H W1) as [d [E R]]. rewrite E.
    destruct R as [R1 [R2 R3]]. rewrite <- R3 in W2. destruct (dget d k) eqn:G; [|congruence].
    eexists; split; [reflexivity|]. apply hrel_set; auto. apply rel_erase. split; auto.
  - destruct W as [W1 W2]. destruct (hrel_dict h w i H W1) as [d [E R]].
    destruct (hrel_dict h w j H W2) as [e [E' R']]. rewrite E, E'.
    eexists; split; [reflexivity|]. apply hrel_set; auto. apply rel_update; assumption.
  - destruct (hrel_dict h w i H W) as [d [E R]]. rewrite E.
    eexists; split; [reflexivity|]. apply Forall2_app; [exact H|].
    constructor; [|constructor]. exists (dupdate [] d). split; [reflexivity|].
    rewrite dupdate_copy; [exact R|]. destruct R; assumption.
Qed.

Lemma run_rel : forall l h w, hrel h w -> all_work w l ->
    exists h', run h l = Ok h' /\ hrel h' (fold_left ideal_step l w).
Proof.
  induction l as [|o l IH]; intros h w H W; cbn.
  - exists h; auto.
  - destruct W as [W1 W2]. destruct (step_rel h w o H W1) as [h' [E R]]. rewrite E.
    apply IH; assumption.
Qed.

(* ---- the model's own frame ---- *)
Lemma set_other : forall (h : heap) i o j, j <> i -> (j < List.length h)%nat ->
    nth_error (set_obj h i o) j = nth_error h j.
Proof.
  intros h i o j N L. unfold set_obj.
  destruct (Nat.lt_ge_cases i (List.length h)) as [Li|Li].
  - destruct (Nat.lt_ge_cases j i).
    + rewrite nth_error_app1 by (rewrite firstn_length; lia).
      clear -H. revert h j H. induction i as [|i IH]; intros h j H; [lia|].
      destruct h as [|a h]; [destruct j; reflexivity|]. destruct j as [|j]; [reflexivity|].
      cbn. apply IH. lia.
    + rewrite nth_error_app2 by (rewrite firstn_length; lia).
      rewrite firstn_length, Nat.min_l by lia.
      destruct (j - i)%nat eqn:E; [lia|]. cbn [List.app nth_error].
      assert (G : forall m n (l : heap), nth_error (skipn m l) n = nth_error l (m + n)).
      { clear. induction m as [|m IH]; intros n l; [reflexivity|].
        destruct l as [|a l]; cbn; [destruct n; reflexivity|]. apply IH. }
      rewrite G. f_equal. lia.
  - rewrite firstn_all2 by exact Li. rewrite nth_error_app1 by exact L. reflexivity.
Qed.
Lemma set_len : forall (h : heap) i o, (i < List.length h)%nat ->
    List.length (set_obj h i o) = List.length h.
Proof.
  intros h i o L. unfold set_obj. rewrite app_length, firstn_length, app_length, skipn_length.
  cbn. lia.
Qed.
Lemma dict_lt : forall h i d, dict_of h i = Ok d -> (i < List.length h)%nat.
Proof.
  intros h i d H. unfold dict_of in H. apply nth_error_Some. destruct (nth_error h i); congruence.
Qed.

Lemma step_frame : forall h o h' i, step h o = Ok h' -> target o <> Some i ->
    (i < List.length h)%nat -> nth_error h' i = nth_error h i /\ (List.length h <= List.length h')%nat.
Proof.
  intros h o h' i S T L.
  assert (A : forall j d, dict_of h j = Ok d -> j <> i -> forall o',
    nth_error (set_obj h j o') i = nth_error h i /\ (List.length h <= List.length (set_obj h j o'))%nat).
  { intros j d D N o'. split.
    - apply set_other; auto.
    - rewrite set_len; [lia|]. eapply dict_lt; exact D. }
  destruct o as [from kw|j k v|j k v|j k|j k|j j'|j]; cbn in S, T;
    unfold setattr, setitem, delitem, delattr in S.
  - destruct (init h [] from); inversion S; subst.
    rewrite nth_error_app1 by exact L. rewrite app_length; split; [reflexivity|lia].
  - destruct (dict_of h j) eqn:D; inversion S; subst. apply (A _ _ D); congruence.
  - destruct (dict_of h j) eqn:D; inversion S; subst. apply (A _ _ D); congruence.
  - destruct (dict_of h j) eqn:D; [|inversion S].
    destruct (dget a k); [|destruct (string_dec k "_dict")]; inversion S; subst; apply (A _ _ D); congruence.
  - destruct (dict_of h j) eqn:D; [|inversion S].
    destruct (dget a k); [|destruct (string_dec k "_dict")]; inversion S; subst; apply (A _ _ D); congruence.
  - destruct (dict_of h j) eqn:D; [|inversion S]. destruct (dict_of h j') eqn:D'; inversion S; subst.
    apply (A _ _ D); congruence.
  - destruct (dict_of h j) eqn:D; inversion S; subst.
    rewrite nth_error_app1 by exact L. rewrite app_length; split; [reflexivity|lia].
Qed.

Lemma run_frame : forall l h h' i, run h l = Ok h' -> Forall (fun o => target o <> Some i) l ->
    (i < List.length h)%nat -> nth_error h' i = nth_error h i.
Proof.
  induction l as [|o l IH]; intros h h' i R F L; cbn in R.
  - inversion R; subst; reflexivity.
  - destruct (step h o) eqn:S; [|discriminate]. inversion F; subst.
    destruct (step_frame h o a i S) as [E1 E2]; auto.
    rewrite <- E1. apply IH; auto. lia.
Qed.

(* ---- strings and paths ---- *)
Lemma split_noslash : forall s, has_char slash s = false -> split_slash s = [s].
Proof.
  induction s as [|c s IH]; intros H; [reflexivity|].
  cbn in H |- *. destruct (ascii_dec c slash); [discriminate|].
  rewrite IH by exact H. reflexivity.
Qed.

Lemma split_nonnil : forall s, split_slash s <> [].
Proof.
  destruct s as [|c s]; cbn; [discriminate|].
  destruct (ascii_dec c slash); [discriminate|]. destruct (split_slash s); discriminate.
Qed.

Lemma split_cons : forall s t, has_char slash s = false ->
    split_slash (s ++ "/" ++ t)%string = s :: split_slash t.
Proof.
  induction s as [|c s IH]; intros t H.
  - cbn. destruct (ascii_dec "/"%char slash); [reflexivity|exfalso; apply n; reflexivity].
  - cbn [append has_char split_slash] in *. destruct (ascii_dec c slash); [discriminate|].
    rewrite IH by exact H. reflexivity.
Qed.

Lemma split_join : forall l, l <> [] -> Forall (fun s => has_char slash s = false) l ->
    split_slash (join l) = l.
Proof.
  induction l as [|s l IH]; intros N F; [congruence|].
  inversion F; subst. destruct l as [|s' l]; [apply split_noslash; assumption|].
  change (join (s :: s' :: l)) with (s ++ "/" ++ join (s' :: l))%string.
  rewrite split_cons by assumption. f_equal. apply IH; [discriminate|assumption].
Qed.

Lemma join_split : forall s, join (split_slash s) = s.
Proof.
  induction s as [|c s IH]; [reflexivity|].
  cbn. destruct (ascii_dec c slash) as [E|E].
  - pose proof (split_nonnil s). destruct (split_slash s) as [|t ts] eqn:F; [congruence|].
    change (join ("" :: t :: ts)) with ("" ++ "/" ++ join (t :: ts))%string.
    rewrite IH. subst c. reflexivity.
  - pose proof (split_nonnil s). destruct (split_slash s) as [|t ts] eqn:F; [congruence|].
    destruct ts as [|t' ts].
    + cbn in IH |- *. subst. reflexivity.
    + change (join (String c t :: t' :: ts)) with (String c (t ++ "/" ++ join (t' :: ts)))%string.
      f_equal. rewrite <- IH. reflexivity.
Qed.

Lemma split_clean : forall s, Forall (fun t => has_char slash t = false) (split_slash s).
Proof.
  induction s as [|c s IH]; cbn; [repeat constructor|].
  destruct (ascii_dec c slash) as [E|E]; [constructor; [reflexivity|exact IH]|].
  destruct (split_slash s) as [|t ts].
  - constructor; [|constructor]. cbn. destruct (ascii_dec c slash); [congruence|reflexivity].
  - inversion IH; subst. constructor; [|assumption].
    cbn. destruct (ascii_dec c slash); [congruence|assumption].
Qed.

Lemma join_app : forall a b, a <> [] -> b <> [] -> join (a ++ b) = (join a ++ "/" ++ join b)%string.
Proof.
  induction a as [|s a IH]; intros b Na Nb; [congruence|].
  destruct a as [|s' a].
  - cbn. destruct b; [congruence|reflexivity].
  - change (join ((s :: s' :: a) ++ b)) with (s ++ "/" ++ join ((s' :: a) ++ b))%string.
    rewrite IH by (discriminate || assumption).
    change (join (s :: s' :: a)) with (s ++ "/" ++ join (s' :: a))%string.
    assert (A : forall x y z, (x ++ y ++ z = (x ++ y) ++ z)%string).
    { induction x as [|c x I]; intros y z; cbn; [reflexivity|]. f_equal. apply I. }
    rewrite !A. reflexivity.
Qed.

Lemma steps_plain : forall k, plain_name k -> steps k = [k].
Proof.
  intros k [H1 [H2 H3]]. unfold steps. rewrite split_noslash by exact H3. cbn.
  destruct (String.eqb_spec k ""); [congruence|]. destruct (String.eqb_spec k "."); [congruence|].
  reflexivity.
Qed.

Lemma steps_join : forall l, l <> [] -> Forall plain_name l -> steps (join l) = l.
Proof.
  intros l N F. unfold steps. rewrite split_join.
  - clear N. induction F as [|k l [H1 [H2 H3]] F IH]; [reflexivity|]. cbn.
    destruct (String.eqb_spec k ""); [congruence|]. destruct (String.eqb_spec k "."); [congruence|].
    cbn. rewrite IH. reflexivity.
  - exact N.
  - eapply Forall_impl; [|exact F]. intros k [_ [_ H]]; exact H.
Qed.

Lemma last_such_some : forall P n i, last_such P n = Some i ->
    (i < n)%nat /\ P i = true /\ forall j, (i < j < n)%nat -> P j = false.
Proof.
  induction n as [|n IH]; intros i H; [discriminate|]. cbn in H.
  destruct (P n) eqn:E.
  - inversion H; subst. split; [lia|]. split; [exact E|]. intros; lia.
  - destruct (IH i H) as [A [B C]]. split; [lia|]. split; [exact B|].
    intros j Hj. destruct (Nat.eq_dec j n); [subst; exact E|apply C; lia].
Qed.
Lemma last_such_none : forall P n, last_such P n = None <-> forall j, (j < n)%nat -> P j = false.
Proof.
  induction n as [|n IH]; cbn; [split; [intros; lia|reflexivity]|].
  destruct (P n) eqn:E.
  - split; [discriminate|]. intros H. rewrite H in E by lia. discriminate.
  - rewrite IH. split; intros H j Hj; [|apply H; lia].
    destruct (Nat.eq_dec j n); [subst; exact E|apply H; lia].
Qed.
Lemma last_such_is : forall P n i, (i < n)%nat -> P i = true ->
    (forall j, (i < j < n)%nat -> P j = false) -> last_such P n = Some i.
Proof.
  intros P n i H1 H2 H3. destruct (last_such P n) as [k|] eqn:E.
  - destruct (last_such_some P n k E) as [A [B C]]. f_equal.
    destruct (lt_eq_lt_dec i k) as [[L|L]|L]; [|auto|].
    + rewrite H3 in B by lia. discriminate.
    + rewrite C in H2 by lia. discriminate.
  - rewrite last_such_none in E. rewrite E in H2 by exact H1. discriminate.
Qed.
Lemma last_such_ext : forall P Q n, (forall i, (i < n)%nat -> P i = Q i) -> last_such P n = last_such Q n.
Proof.
  induction n as [|n IH]; intros H; [reflexivity|]. cbn. rewrite H by lia.
  rewrite IH; [reflexivity|]. intros; apply H; lia.
Qed.

(* ---- trees in files ---- *)
Fixpoint enc (t : tree) : hdf :=
  match t with
  | Leaf v => HData v
  | Node kids => HGroup (map (fun kt => (fst kt, enc (snd kt))) kids)
  end.

Section TreeInd.
  Variable P : tree -> Prop.
  Hypothesis HL : forall v, P (Leaf v).
  Hypothesis HN : forall kids, Forall P (map snd kids) -> P (Node kids).
  Fixpoint tree_ind2 (t : tree) : P t :=
    match t with
    | Leaf v => HL v
    | Node kids =>
        HN kids ((fix all l : Forall P (map snd l) :=
                    match l with
                    | [] => Forall_nil P
                    | kt :: l' => Forall_cons (snd kt) (tree_ind2 (snd kt)) (all l')
                    end) kids)
    end.
End TreeInd.

Lemma hget_In : forall kids k, hget kids k <> None <-> In k (map fst kids).
Proof.
  induction kids as [|[a v] d IH]; intros k; cbn; [intuition|].
  destruct (string_dec a k); [split; intros; [left; auto|discriminate]|].
  rewrite IH. intuition.
Qed.
Lemma hset_new : forall kids k x, hget kids k = None -> hset kids k x = kids ++ [(k, x)].
Proof.
  induction kids as [|[a v] d IH]; intros k x H; cbn in *; [reflexivity|].
  destruct (string_dec a k); [discriminate|]. rewrite IH by exact H. reflexivity.
Qed.
Lemma hset_last : forall kids k x y, hget kids k = None -> hset (kids ++ [(k, x)]) k y = kids ++ [(k, y)].
Proof.
  induction kids as [|[a v] d IH]; intros k x y H; cbn in *.
  - destruct (string_dec k k); congruence.
  - destruct (string_dec a k); [discriminate|]. rewrite IH by exact H. reflexivity.
Qed.
Lemma hget_last : forall kids k x, hget kids k = None -> hget (kids ++ [(k, x)]) k = Some x.
Proof.
  induction kids as [|[a v] d IH]; intros k x H; cbn in *.
  - destruct (string_dec k k); congruence.
  - destruct (string_dec a k); [discriminate|]. apply IH; exact H.
Qed.

(* the loop over the names of a bunch *)
Fixpoint each (kids : list (string * tree)) (g : hdf) : option hdf :=
  match kids with
  | [] => Some g
  | (k, sub) :: kids' =>
      match sub with
      | Leaf v =>
          match hput g (steps k) (HData v) with
          | Some g' => each kids' g'
          | None => None
          end
      | Node _ =>
          match hput g (steps k) (HGroup []) with
          | Some g' =>
              match hfind g' (steps k) with
              | Some s =>
                  match write_rec sub s with
                  | Some s' => each kids' (hmod g' (steps k) s')
                  | None => None
                  end
              | None => None
              end
          | None => None
          end
      end
  end.
Lemma write_node : forall kids g, write_rec (Node kids) g = each kids g.
Proof.
  induction kids as [|[k sub] kids IH]; intros g; [reflexivity|].
  cbn [each]. destruct sub as [v|sk].
  - change (write_rec (Node ((k, Leaf v) :: kids)) g) with
      (match hput g (steps k) (HData v) with
       | Some g' => write_rec (Node kids) g' | None => None end).
    destruct (hput g (steps k) (HData v)); [apply IH|reflexivity].
  - change (write_rec (Node ((k, Node sk) :: kids)) g) with
      (match hput g (steps k) (HGroup []) with
       | Some g' => match hfind g' (steps k) with
                    | Some s => match write_rec (Node sk) s with
                                | Some s' => write_rec (Node kids) (hmod g' (steps k) s')
                                | None => None end
                    | None => None end
       | None => None end).
    destruct (hput g (steps k) (HGroup [])); [|reflexivity].
    destruct (hfind h (steps k)); [|reflexivity].
    destruct (write_rec (Node sk) h0); [apply IH|reflexivity].
Qed.

Lemma write_enc : forall t, plain t -> match t with
  | Leaf _ => True
  | Node kids => forall ks0, (forall k, In k (map fst kids) -> hget ks0 k = None) ->
      write_rec t (HGroup ks0) = Some (HGroup (ks0 ++ map (fun kt => (fst kt, enc (snd kt))) kids))
  end.
Proof.
  induction t as [v|kids IH] using tree_ind2; intros PT; [exact I|].
  inversion PT as [|? ND PN PK]; subst. intros ks0 D. rewrite write_node.
  revert ks0 D. induction kids as [|[k sub] kids IHk]; intros ks0 D.
  - cbn. rewrite app_nil_r. reflexivity.
  - cbn [map fst snd] in *. inversion ND as [|? ? N1 N2]; subst. inversion PN as [|? ? P1 P2]; subst.
    inversion PK as [|? ? K1 K2]; subst. inversion IH as [|? ? I1 I2]; subst.
    assert (G : hget ks0 k = None) by (apply D; left; reflexivity).
    assert (Next : forall x, each kids (HGroup (ks0 ++ [(k, x)]))
       = Some (HGroup ((ks0 ++ [(k, x)]) ++ map (fun kt => (fst kt, enc (snd kt))) kids))).
    { intros x. apply IHk; auto.
      - constructor; assumption.
      - intros k' HI. destruct (hget (ks0 ++ [(k, x)]) k') eqn:E; [|reflexivity].
        exfalso. assert (In k' (map fst (ks0 ++ [(k, x)]))) by (apply hget_In; congruence).
        rewrite map_app in H. apply in_app_or in H. destruct H as [H|[H|[]]].
        + apply hget_In in H. apply H. apply D. right; exact HI.
        + cbn in H. subst. contradiction. }
    cbn [each]. rewrite steps_plain by exact P1. destruct sub as [v|sk].
    + cbn [hput]. rewrite G, hset_new by exact G. rewrite Next, <- app_assoc. reflexivity.
    + cbn [hput]. rewrite G, hset_new by exact G. cbn [hfind hmod].
      rewrite hget_last by exact G. 
      assert (I3 : write_rec (Node sk) (HGroup [])
                   = Some (HGroup ([] ++ map (fun kt => (fst kt, enc (snd kt))) sk)))
        by exact (I1 K1 [] (fun _ _ => eq_refl)).
      rewrite I3.
      rewrite hset_last by exact G. cbn [List.app]. rewrite Next, <- app_assoc. reflexivity.
Qed.

Lemma write_top : forall kids, plain (Node kids) -> write_rec (Node kids) (HGroup []) = Some (enc (Node kids)).
Proof. intros kids H. apply (write_enc (Node kids) H []). reflexivity. Qed.

(* ---- reading ---- *)
Lemma insert_perm : forall {A} (kx : string * A) l, Permutation (kx :: l) (insert kx l).
Proof.
  induction l as [|ky l IH]; cbn; [constructor; constructor|].
  destruct (String.leb (fst kx) (fst ky)); [apply Permutation_refl|].
  eapply Permutation_trans; [apply perm_swap|]. constructor. exact IH.
Qed.
Lemma by_name_perm : forall {A} (l : list (string * A)), Permutation l (by_name l).
Proof.
  induction l as [|kx l IH]; cbn; [constructor|].
  eapply Permutation_trans; [|apply insert_perm]. constructor. exact IH.
Qed.
Lemma leb_total : forall a b, String.leb a b = true \/ String.leb b a = true.
Proof. intros a b. exact (String.leb_total a b). Qed.

Definition le_name (a b : string) : Prop := String.leb a b = true.
Lemma insert_sorted : forall {A} (kx : string * A) l,
    Sorted le_name (map fst l) -> Sorted le_name (map fst (insert kx l)).
Proof.
  induction l as [|ky l IH]; intros S; cbn; [repeat constructor|].
  destruct (String.leb (fst kx) (fst ky)) eqn:E.
  - cbn. constructor; [exact S|]. constructor. exact E.
  - cbn in S |- *. inversion S as [|? ? S1 S2]; subst. constructor; [apply IH; exact S1|].
    destruct l as [|kz l]; cbn.
    + constructor. destruct (leb_total (fst kx) (fst ky)); [congruence|assumption].
    + cbn in S2. destruct (String.leb (fst kx) (fst kz)); cbn; constructor.
      * destruct (leb_total (fst kx) (fst ky)); [congruence|assumption].
      * inversion S2; assumption.
Qed.
Lemma by_name_sorted : forall {A} (l : list (string * A)), Sorted le_name (map fst (by_name l)).
Proof. induction l as [|kx l IH]; cbn; [constructor|]. apply insert_sorted. exact IH. Qed.

Lemma tset_new : forall kids k x, ~ In k (map fst kids) -> tset kids k x = kids ++ [(k, x)].
Proof.
  induction kids as [|[a v] d IH]; intros k x H; cbn in *; [reflexivity|].
  destruct (string_dec a k); [exfalso; apply H; left; assumption|].
  rewrite IH; [reflexivity|]. intros HI; apply H; right; exact HI.
Qed.
Lemma fold_tset : forall l acc, NoDup (map fst (acc ++ l)) ->
    fold_left (fun b kt => tset b (fst kt) (snd kt)) l acc = acc ++ l.
Proof.
  induction l as [|[k t] l IH]; intros acc H; cbn; [symmetry; apply app_nil_r|].
  rewrite tset_new.
  - rewrite IH; rewrite <- app_assoc; [reflexivity|exact H].
  - rewrite map_app in H. cbn in H. apply NoDup_remove_2 in H.
    intros HI; apply H; apply in_or_app; left; exact HI.
Qed.

Definition lookup (kids : list (string * tree)) (k : string) : option (string * tree) :=
  find (fun kt => if string_dec (fst kt) k then true else false) kids.
Lemma lookup_cons : forall a v d k,
    lookup ((a, v) :: d) k = if string_dec a k then Some (a, v) else lookup d k.
Proof. intros a v d k. unfold lookup. cbn [find fst]. destruct (string_dec a k); reflexivity. Qed.
Lemma lookup_some : forall kids k kt, NoDup (map fst kids) ->
    (lookup kids k = Some kt <-> In kt kids /\ fst kt = k).
Proof.
  induction kids as [|[a v] d IH]; intros k kt ND.
  - cbn. intuition; discriminate.
  - inversion ND as [|? ? N1 N2]; subst. rewrite lookup_cons. cbn [In]. destruct (string_dec a k) as [E|E].
    + subst. split.
      * intros F; injection F as <-. split; [left; reflexivity|reflexivity].
      * intros [[F|HI] F']; [congruence|]. exfalso. apply N1. apply in_map_iff. exists kt; auto.
    + rewrite IH by exact N2. split.
      * intros [A B]; auto.
      * intros [[F|HI] F']; [|auto]. subst kt. cbn in F'. congruence.
Qed.
Lemma lookup_perm : forall l m k, Permutation l m -> NoDup (map fst l) -> lookup l k = lookup m k.
Proof.
  intros l m k PM ND.
  assert (ND' : NoDup (map fst m)) by (eapply Permutation_NoDup; [apply Permutation_map; exact PM|exact ND]).
  destruct (lookup l k) as [kt|] eqn:E; destruct (lookup m k) as [kt'|] eqn:F; auto.
  - apply lookup_some in E; [|exact ND]. destruct E as [A B].
    assert (G : lookup m k = Some kt) by (apply lookup_some; [exact ND'|]; split; [|exact B];
      eapply Permutation_in; [exact PM|exact A]). congruence.
  - apply lookup_some in E; [|exact ND]. destruct E as [A B].
    assert (G : lookup m k = Some kt) by (apply lookup_some; [exact ND'|]; split; [|exact B];
      eapply Permutation_in; [exact PM|exact A]). congruence.
  - apply lookup_some in F; [|exact ND']. destruct F as [A B].
    assert (G : lookup l k = Some kt') by (apply lookup_some; [exact ND|]; split; [|exact B];
      eapply Permutation_in; [apply Permutation_sym; exact PM|exact A]). congruence.
Qed.

Lemma read_node : forall kids, NoDup (map fst kids) ->
    read_rec (enc (Node kids)) = Node (by_name (map (fun kt => (fst kt, read_rec (enc (snd kt)))) kids)).
Proof.
  intros kids ND. cbn. rewrite map_map. cbn. rewrite fold_tset; [reflexivity|].
  cbn. eapply Permutation_NoDup; [apply Permutation_map; apply by_name_perm|].
  rewrite map_map. cbn. exact ND.
Qed.

Lemma lookup_map : forall (f : tree -> tree) kids k,
    lookup (map (fun kt => (fst kt, f (snd kt))) kids) k
    = option_map (fun kt => (fst kt, f (snd kt))) (lookup kids k).
Proof.
  induction kids as [|[a v] d IH]; intros k; [reflexivity|].
  cbn [map fst snd]. rewrite !lookup_cons. destruct (string_dec a k); [reflexivity|]. apply IH.
Qed.

Lemma follow_node : forall kids k path, follow (Node kids) (k :: path) =
    match lookup kids k with Some kt => follow (snd kt) path | None => None end.
Proof. reflexivity. Qed.

Lemma read_follow : forall t, plain t -> forall path, follow (read_rec (enc t)) path = follow t path.
Proof.
  induction t as [v|kids IH] using tree_ind2; intros PT path; [reflexivity|].
  inversion PT as [|? ND PN PK]; subst. rewrite read_node by exact ND.
  destruct path as [|k path]; [reflexivity|]. rewrite !follow_node.
  rewrite <- (lookup_perm _ _ k (by_name_perm _)) by (rewrite map_map; cbn; exact ND).
  rewrite (lookup_map (fun t => read_rec (enc t))).
  destruct (lookup kids k) as [kt|] eqn:E; [|reflexivity]. cbn.
  apply lookup_some in E; [|exact ND]. destruct E as [HI _].
  rewrite Forall_forall in IH, PK. apply IH.
  - apply in_map; exact HI.
  - apply PK. apply in_map; exact HI.
Qed.

(* ---- groups inside files ---- *)
Lemma hput_deep : forall k k' p x, hput (HGroup []) (k :: k' :: p) x =
    match hput (HGroup []) (k' :: p) x with
    | Some s' => Some (HGroup [(k, s')])
    | None => None
    end.
Proof. reflexivity. Qed.
Lemma hput_nest : forall p r x, p <> [] -> hput (HGroup []) p (HGroup []) = Some r ->
    hfind (hmod r p x) p = Some x.
Proof.
  induction p as [|k p IH]; intros r x N H; [congruence|].
  destruct p as [|k' p].
  - cbn [hput hget hset] in H. injection H as <-. cbn [hmod hget]. destruct (string_dec k k) as [_|n]; [|exfalso; apply n; reflexivity].
    cbn [hset]. destruct (string_dec k k) as [_|n]; [|exfalso; apply n; reflexivity]. cbn [hfind hget].
    destruct (string_dec k k) as [_|n]; [reflexivity|exfalso; apply n; reflexivity].
  - rewrite hput_deep in H. destruct (hput (HGroup []) (k' :: p) (HGroup [])) as [s|] eqn:E; [|discriminate].
    injection H as <-. cbn [hmod hget].
    destruct (string_dec k k) as [_|n]; [|exfalso; apply n; reflexivity]. cbn [hset].
    destruct (string_dec k k) as [_|n]; [|exfalso; apply n; reflexivity]. cbn [hfind hget].
    destruct (string_dec k k) as [_|n]; [|exfalso; apply n; reflexivity]. apply (IH s x); [discriminate|reflexivity].
Qed.
Lemma hput_ok : forall p, p <> [] -> exists r, hput (HGroup []) p (HGroup []) = Some r.
Proof.
  induction p as [|k p IH]; intros N; [congruence|].
  destruct p as [|k' p]; [eexists; reflexivity|].
  destruct IH as [r E]; [discriminate|]. rewrite hput_deep, E. eexists; reflexivity.
Qed.

Lemma place_ext : forall (i1 i2 : string -> bool) fname group m,
    (forall s, i1 s = i2 s) -> place i1 fname group m = place i2 fname group m.
Proof.
  intros i1 i2 fname [g|] m H; [reflexivity|]. unfold place, split_hdf_path.
  destruct m; try reflexivity.
  rewrite (last_such_ext (fun i => i1 (join (firstn (S i) (split_slash fname))))
                         (fun i => i2 (join (firstn (S i) (split_slash fname))))); [reflexivity|].
  intros; apply H.
Qed.

(* ---- concatenate ---- *)
Lemma column_spec : forall bs k l, column bs k = Some l ->
    List.length l = List.length bs /\
    forall n, (n < List.length bs)%nat -> nget (nth n bs []) k = Some (nth n l (NInt 0)).
Proof.
  induction bs as [|b bs IH]; intros k l H; cbn in H.
  - inversion H; subst. split; [reflexivity|]. cbn. intros; lia.
  - destruct (nget b k) eqn:E; [|discriminate]. destruct (column bs k) eqn:F; [|discriminate].
    inversion H; subst. destruct (IH k l0 F) as [A B]. split; [cbn; congruence|].
    intros [|m] L; cbn; [exact E|]. apply B. cbn in L. lia.
Qed.
Lemma column_some : forall bs k, (forall b, In b bs -> nget b k <> None) -> exists l, column bs k = Some l.
Proof.
  induction bs as [|b bs IH]; intros k H; cbn.
  - eexists; reflexivity.
  - destruct (IH k) as [l E]; [intros; apply H; right; assumption|]. rewrite E.
    destruct (nget b k) eqn:G; [eexists; reflexivity|]. exfalso. apply (H b); [left; reflexivity|exact G].
Qed.
Definition fill (l : list num) : list num := match l with [] => [] | first :: _ => map (cast first) l end.
Lemma columns_some : forall bs ks, (forall k, In k ks -> forall b, In b bs -> nget b k <> None) ->
    exists r, columns bs ks = Some r.
Proof.
  induction ks as [|k ks IH]; intros H; cbn; [eexists; reflexivity|].
  destruct (column_some bs k) as [l E]; [apply H; left; reflexivity|].
  destruct IH as [r F]; [intros; apply H; [right|]; assumption|]. rewrite E, F. eexists; reflexivity.
Qed.
Lemma columns_spec : forall bs ks r, columns bs ks = Some r ->
    map fst r = ks /\
    forall k l, In (k, l) r -> exists l0, column bs k = Some l0 /\ l = fill l0.
Proof.
  induction ks as [|k ks IH]; intros r H; cbn in H.
  - inversion H; subst. split; [reflexivity|]. intros k l [].
  - destruct (column bs k) eqn:E; [|discriminate]. destruct (columns bs ks) eqn:F; [|discriminate].
    inversion H; subst. destruct (IH l0 eq_refl) as [A B]. split; [cbn; congruence|].
    intros k' l' [G|G]; [|auto]. inversion G; subst. exists l. auto.
Qed.
