From Coq Require Import ZArith List Ascii Bool Arith Lia.
From Verif Require Import Base StrSpec StrModel.
Import ListNotations.
Local Open Scope nat_scope.
Ltac Zify.zify_post_hook ::= idtac.

Lemma find_char_some s c k : find_char s c = Some k <-> nth_error s k = Some c /\ forall j, j < k -> nth_error s j <> Some c.
Proof.
  revert k. induction s as [|x s IH]; intros k; cbn.
  - split; [discriminate|]. intros [H _]. destruct k; discriminate.
  - destruct (Ascii.eqb_spec x c) as [->|N].
    + split.
      * intros [= <-]. split; [reflexivity|]. intros j Hj. lia.
      * intros [H K]. destruct k as [|k]; [reflexivity|]. exfalso. apply (K 0); [lia|reflexivity].
    + destruct (find_char s c) as [i|] eqn:F; cbn.
      * split.
        -- intros [= <-]. destruct (proj1 (IH i) eq_refl) as [A B]. split; [exact A|]. intros [|j] Hj; cbn; [congruence|]. apply B. lia.
        -- intros [H K]. destruct k as [|k]; [cbn in H; congruence|]. f_equal. f_equal. apply eq_add_S. f_equal. assert (E : Some i = Some k); [|congruence]. apply IH. split; [exact H|].
           intros j Hj. apply (K (S j)). lia.
      * split; [discriminate|]. intros [H K]. destruct k as [|k]; [cbn in H; congruence|]. exfalso. assert (E : None = Some k); [|discriminate]. apply IH. split; [exact H|].
        intros j Hj. apply (K (S j)). lia.
Qed.
Lemma find_char_none s c : find_char s c = None <-> ~ In c s.
Proof.
  induction s as [|x s IH]; cbn; [tauto|]. destruct (Ascii.eqb_spec x c) as [->|N].
  - split; [discriminate|]. intros H. exfalso. apply H. left. reflexivity.
  - destruct (find_char s c) as [k|]; cbn; split; try discriminate; intros H.
    + exfalso. apply H. right. destruct (in_dec Ascii.ascii_dec c s) as [I|I]; [exact I|]. apply IH in I. discriminate.
    + intros [E|I]; [congruence|]. apply (proj1 IH eq_refl I).
    + reflexivity.
Qed.
Lemma level_app o c s t : level o c (s ++ t) = (level o c s + level o c t)%Z.
Proof. induction s as [|x s IH]; cbn; [reflexivity|]. rewrite IH. lia. Qed.
Lemma snoc_split {A} (g : list A) x p q : g ++ [x] = p ++ q -> q <> [] -> exists q', q = q' ++ [x] /\ g = p ++ q'.
Proof.
  intros E N. destruct (exists_last N) as (q' & y & ->). rewrite app_assoc in E. apply app_inj_tail in E. destruct E as [-> ->]. exists q'. split; reflexivity.
Qed.

Section Groups.
  Context (start end_ : str) (Len : length start <= length end_).
  (* the inside of a running group of kind k with n levels open *)
  Definition running (k n : nat) (h : str) : Prop :=
    exists o c h', nth_error start k = Some o /\ nth_error end_ k = Some c /\ (forall j, j < k -> nth_error start j <> Some o) /\ h = o :: h' /\
      level o c h = Z.of_nat n /\ 0 < n /\ forall p q, h = p ++ q -> p <> [] -> (0 < level o c p)%Z.
  Definition plain (t : str) : Prop := forall x, In x t -> ~ In x start.
  Inductive laid : bool -> list str -> Prop :=
  | laid_nil b : laid b []
  | laid_text t l : plain t -> laid false l -> laid true (t :: l)
  | laid_group b g l : is_group start end_ g -> laid true l -> laid b (g :: l)
  | laid_open b g : is_unfinished start end_ g -> laid b [g].
  Lemma laid_weaken l : laid false l -> laid true l.
  Proof. intros H. inversion H; subst; [constructor|apply laid_group; assumption|apply laid_open; assumption]. Qed.

  Lemma running_open k n h : running k n h -> is_unfinished start end_ h.
  Proof. intros (o & c & h' & A & B & F & E & L & N & P). exists o, c, h'. split; [exists k; tauto|]. split; [exact E|exact P]. Qed.
  Lemma running_start k c : find_char start c = Some k -> running k 1 [c].
  Proof.
    intros H. apply find_char_some in H. destruct H as [A B]. destruct (nth_error end_ k) as [e|] eqn:E.
    2: { exfalso. apply nth_error_None in E. assert (k < length start) by (apply nth_error_Some; congruence). lia. }
    exists c, e, []. split; [exact A|]. split; [exact E|]. split; [exact B|]. split; [reflexivity|]. cbn. rewrite Ascii.eqb_refl. split; [reflexivity|]. split; [lia|].
    intros [|x [|y p]] q Eq Np; [contradiction| |discriminate]. cbn in Eq. injection Eq as <- _. cbn. rewrite Ascii.eqb_refl. lia.
  Qed.
  (* one more character in a group *)
  Lemma running_more k n h c d : running k n h -> (forall o e, nth_error start k = Some o -> nth_error end_ k = Some e -> level o e [c] = d) ->
    (0 < Z.of_nat n + d)%Z -> running k (Z.to_nat (Z.of_nat n + d)) (h ++ [c]).
  Proof.
    intros (o & e & h' & A & B & F & E & L & N & P) D H. specialize (D o e A B). exists o, e, (h' ++ [c]). split; [exact A|]. split; [exact B|]. split; [exact F|]. split; [rewrite E; reflexivity|].
    rewrite level_app, L, D. split; [lia|]. split; [lia|]. intros p q Eq Np. destruct q as [|y q].
    - rewrite app_nil_r in Eq. subst p. rewrite level_app, L, D. lia.
    - destruct (snoc_split h c p (y :: q) Eq ltac:(discriminate)) as (q' & _ & ->). apply (P p q'); [reflexivity|exact Np].
  Qed.
  Lemma running_close k h c : running k 1 h -> (forall o e, nth_error start k = Some o -> nth_error end_ k = Some e -> level o e [c] = (-1)%Z) -> is_group start end_ (h ++ [c]).
  Proof.
    intros (o & e & h' & A & B & F & E & L & N & P) D. specialize (D o e A B). exists o, e, (h' ++ [c]). split; [exists k; tauto|]. split; [rewrite E; reflexivity|].
    split; [rewrite level_app, L, D; reflexivity|]. intros p q Eq Np Nq. destruct (snoc_split h c p q Eq Nq) as (q' & _ & ->). apply (P p q'); [reflexivity|exact Np].
  Qed.

  Lemma gloop_ok s : forall tl h ind n,
    (exists segs st, gloop start end_ {| g_res := h :: tl; g_ind := ind; g_n := 0; g_new := true |} s = Some st /\ rev (g_res st) = rev (h :: tl) ++ segs /\ concat segs = s /\ laid true segs) /\
    (plain h -> exists segs st, gloop start end_ {| g_res := h :: tl; g_ind := ind; g_n := 0; g_new := false |} s = Some st /\ rev (g_res st) = rev tl ++ segs /\ concat segs = h ++ s /\ laid true segs) /\
    (running ind n h -> exists segs st, gloop start end_ {| g_res := h :: tl; g_ind := ind; g_n := n; g_new := false |} s = Some st /\ rev (g_res st) = rev tl ++ segs /\ concat segs = h ++ s /\ laid false segs).
  Proof.
    induction s as [|c s IH]; intros tl h ind n.
    - split; [|split].
      + exists [], {| g_res := h :: tl; g_ind := ind; g_n := 0; g_new := true |}. split; [reflexivity|]. cbn. rewrite app_nil_r. split; [reflexivity|]. split; [reflexivity|constructor].
      + intros Hp. exists [h]. eexists. split; [reflexivity|]. cbn. split; [reflexivity|]. split; [rewrite !app_nil_r; reflexivity|]. constructor; [exact Hp|constructor].
      + intros Hr. exists [h]. eexists. split; [reflexivity|]. cbn. split; [reflexivity|]. split; [rewrite !app_nil_r; reflexivity|]. apply laid_open. apply (running_open ind n). exact Hr.
    - split; [|split].
      + cbn [gloop]. unfold gstep. cbn [g_new g_res g_n g_ind Nat.eqb]. destruct (find_char start c) as [k|] eqn:F; cbn [add_last app].
        * destruct (IH ([] :: h :: tl) [c] k 1) as (_ & _ & H). destruct (H (running_start k c F)) as (segs & st & E & R & C & L). exists ([] :: segs), st.
          split; [exact E|]. split; [rewrite R; cbn; rewrite <- !app_assoc; reflexivity|]. split; [exact C|]. constructor; [intros x []|exact L].
        * destruct (IH (h :: tl) [c] ind 0) as (_ & H & _). destruct H as (segs & st & E & R & C & L). { intros x [<-|[]]. apply find_char_none. exact F. }
          exists segs, st. split; [exact E|]. split; [exact R|]. split; [exact C|exact L].
      + intros Hp. cbn [gloop]. unfold gstep. cbn [g_new g_res g_n g_ind Nat.eqb]. destruct (find_char start c) as [k|] eqn:F; cbn [add_last app].
        * destruct (IH (h :: tl) [c] k 1) as (_ & _ & H). destruct (H (running_start k c F)) as (segs & st & E & R & C & L). exists (h :: segs), st.
          split; [exact E|]. split; [rewrite R; cbn; rewrite <- !app_assoc; reflexivity|]. split; [cbn; rewrite C; reflexivity|]. constructor; [exact Hp|exact L].
        * destruct (IH tl (h ++ [c]) ind 0) as (_ & H & _). destruct H as (segs & st & E & R & C & L).
          { intros x Hx. apply in_app_iff in Hx. destruct Hx as [Hx|[<-|[]]]; [apply Hp; exact Hx|]. apply find_char_none. exact F. }
          exists segs, st. split; [exact E|]. split; [exact R|]. split; [rewrite C, <- app_assoc; reflexivity|exact L].
      + intros Hr. pose proof Hr as (o & e & h' & A & B & F & E0 & L0 & N0 & P0). cbn [gloop]. unfold gstep. cbn [g_new g_res g_n g_ind].
        destruct n as [|n]; [lia|]. cbn [Nat.eqb]. rewrite A. destruct (Ascii.eqb_spec o c) as [Eo|No].
        * cbn [add_last]. destruct (IH tl (h ++ [c]) ind (S (S n))) as (_ & _ & H). destruct H as (segs & st & E & R & C & L).
          { replace (S (S n)) with (Z.to_nat (Z.of_nat (S n) + 1)) by lia. apply running_more; [exact Hr| |lia]. intros o' e' A' B'. rewrite A in A'. injection A' as <-. cbn. rewrite Eo, Ascii.eqb_refl. reflexivity. }
          exists segs, st. split; [exact E|]. split; [exact R|]. split; [rewrite C, <- app_assoc; reflexivity|exact L].
        * assert (Nc : Ascii.eqb c o = false) by (apply Ascii.eqb_neq; congruence). rewrite B. destruct (Ascii.eqb_spec e c) as [Ee|Ne].
          -- cbn [pred add_last]. assert (D : forall o' e', nth_error start ind = Some o' -> nth_error end_ ind = Some e' -> level o' e' [c] = (-1)%Z).
             { intros o' e' A' B'. rewrite A in A'. injection A' as <-. rewrite B in B'. injection B' as <-. cbn. rewrite Nc, Ee, Ascii.eqb_refl. reflexivity. }
             destruct n as [|n].
             ++ cbn [Nat.eqb]. destruct (IH tl (h ++ [c]) ind 0) as (H & _ & _). destruct H as (segs & st & E & R & C & L). exists ((h ++ [c]) :: segs), st.
                split; [exact E|]. split; [rewrite R; cbn; rewrite <- !app_assoc; reflexivity|]. split; [cbn; rewrite C, <- app_assoc; reflexivity|].
                apply laid_group; [|exact L]. apply (running_close ind); assumption.
             ++ cbn [Nat.eqb]. destruct (IH tl (h ++ [c]) ind (S n)) as (_ & _ & H). destruct H as (segs & st & E & R & C & L).
                { replace (S n) with (Z.to_nat (Z.of_nat (S (S n)) + -1)) by lia. apply running_more; [exact Hr|exact D|lia]. }
                exists segs, st. split; [exact E|]. split; [exact R|]. split; [rewrite C, <- app_assoc; reflexivity|exact L].
          -- cbn [add_last]. destruct (IH tl (h ++ [c]) ind (S n)) as (_ & _ & H). destruct H as (segs & st & E & R & C & L).
             { replace (S n) with (Z.to_nat (Z.of_nat (S n) + 0)) by lia. apply running_more; [exact Hr| |lia]. intros o' e' A' B'. rewrite A in A'. injection A' as <-. rewrite B in B'. injection B' as <-.
               cbn. rewrite Nc. rewrite (proj2 (Ascii.eqb_neq c e)) by congruence. reflexivity. }
             exists segs, st. split; [exact E|]. split; [exact R|]. split; [rewrite C, <- app_assoc; reflexivity|exact L].
  Qed.
  Lemma sbg_ok a : exists segs, split_by_group a start end_ = Some segs /\ concat segs = a /\ laid true segs.
  Proof.
    unfold split_by_group. destruct a as [|c a].
    - exists []. split; [reflexivity|]. split; [reflexivity|constructor].
    - cbn [gloop]. unfold gstep. cbn [g_new g_res g_n g_ind Nat.eqb]. destruct (find_char start c) as [k|] eqn:F; cbn [add_last app].
      + destruct (gloop_ok a [[]] [c] k 1) as (_ & _ & H). destruct (H (running_start k c F)) as (segs & st & E & R & C & L). rewrite E. exists ([] :: segs).
        cbn [option_map]. rewrite R. split; [reflexivity|]. split; [exact C|]. constructor; [intros x []|exact L].
      + destruct (gloop_ok a [] [c] 0 0) as (_ & H & _). destruct H as (segs & st & E & R & C & L). { intros x [<-|[]]. apply find_char_none. exact F. }
        rewrite E. exists segs. cbn [option_map]. rewrite R. split; [reflexivity|]. split; [exact C|exact L].
  Qed.
End Groups.

(* str.split *)
Lemma strip_some p s r : strip p s = Some r -> s = p ++ r.
Proof.
  revert s. induction p as [|x p IH]; intros [|y s]; cbn; try discriminate; try (intros [= ->]; reflexivity). destruct (Ascii.eqb_spec x y) as [->|N]; [|discriminate].
  intros H. f_equal. apply IH. exact H.
Qed.
Lemma strip_none p s : strip p s = None -> forall q, s <> p ++ q.
Proof.
  revert s. induction p as [|x p IH]; intros [|y s]; cbn; try discriminate. destruct (Ascii.eqb_spec x y) as [->|N].
  - intros H q E. injection E as E. apply (IH s H q E).
  - intros _ q E. injection E as E _. congruence.
Qed.
Lemma strip_app p r : strip p (p ++ r) = Some r.
Proof. induction p as [|x p IH]; cbn; [reflexivity|]. rewrite Ascii.eqb_refl. exact IH. Qed.
Lemma split_aux_head f sep cur s : exists t toks, split_aux f sep cur s = (cur ++ t) :: toks /\ (forall cur', split_aux f sep cur' s = (cur' ++ t) :: toks).
Proof.
  revert cur s. induction f as [|f IH]; intros cur s; cbn.
  - exists [], []. split; [rewrite app_nil_r; reflexivity|]. intros cur'. rewrite app_nil_r. reflexivity.
  - destruct (strip sep s) as [r|].
    + exists [], (split_aux f sep [] r). split; [rewrite app_nil_r; reflexivity|]. intros cur'. rewrite app_nil_r. reflexivity.
    + destruct s as [|c s].
      * exists [], []. split; [rewrite app_nil_r; reflexivity|]. intros cur'. rewrite app_nil_r. reflexivity.
      * destruct (IH (cur ++ [c]) s) as (t & toks & E & G). exists (c :: t), toks. split; [rewrite E, <- app_assoc; reflexivity|]. intros cur'. rewrite G, <- app_assoc. reflexivity.
Qed.
Lemma join_cons {A} (sep x : list A) l : l <> [] -> join sep (x :: l) = x ++ sep ++ join sep l.
Proof. destruct l; [contradiction|reflexivity]. Qed.
Lemma split_aux_ok f sep : sep <> [] -> forall s, length s < f -> exists t toks, split_aux f sep [] s = t :: toks /\ join sep (t :: toks) = s /\ Forall (fun x => ~ occurs sep x) (t :: toks).
Proof.
  intros Ns. induction f as [|f IH]; intros s Hs; [lia|]. cbn [split_aux]. destruct (strip sep s) as [r|] eqn:S.
  - apply strip_some in S. destruct (IH r) as (t & toks & E & J & F). { subst s. rewrite app_length in Hs. destruct sep; [contradiction|]. cbn in Hs. lia. }
    exists [], (split_aux f sep [] r). split; [reflexivity|]. rewrite E. split; [rewrite join_cons by discriminate; rewrite J, S; reflexivity|]. constructor; [|exact F].
    intros (p & q & O). destruct p; [|discriminate]. destruct sep; [contradiction|discriminate].
  - destruct s as [|c s].
    + exists [], []. split; [reflexivity|]. split; [reflexivity|]. constructor; [|constructor]. intros (p & q & O). destruct p; [|discriminate]. destruct sep; [contradiction|discriminate].
    + destruct (IH s) as (t & toks & E & J & F); [cbn in Hs; lia|]. destruct (split_aux_head f sep [] s) as (t' & toks' & E' & G). rewrite E in E'. cbn in E'. injection E' as <- <-.
      cbn [app]. rewrite (G [c]). cbn [app]. exists (c :: t), toks. split; [reflexivity|]. split.
      * destruct toks; cbn in *; rewrite J; reflexivity.
      * inversion F as [|? ? F1 F2]. constructor; [|exact F2]. intros (p & q & O). destruct p as [|y p].
        -- cbn in O. destruct toks as [|t2 toks].
           ++ cbn in J. subst t. apply (strip_none _ _ S q). exact O.
           ++ rewrite join_cons in J by discriminate. apply (strip_none _ _ S (q ++ sep ++ join sep (t2 :: toks))). rewrite app_assoc, <- O. cbn. f_equal. symmetry. exact J.
        -- injection O as _ O. apply F1. exists p, q. exact O.
Qed.
Lemma py_split_ok s sep : sep <> [] -> exists t toks, py_split s sep = Some (t :: toks) /\ join sep (t :: toks) = s /\ Forall (fun x => ~ occurs sep x) (t :: toks).
Proof.
  intros Ns. destruct (split_aux_ok (S (length s)) sep Ns s ltac:(lia)) as (t & toks & E & J & F). exists t, toks. unfold py_split. rewrite E. destruct sep; [contradiction|]. tauto.
Qed.

(* masks *)
Section Outer.
  Context (start end_ : str) (Len : length start <= length end_).
  (* masks of strings in which all groups end *)
  Inductive closed : str -> list (option ascii) -> Prop :=
  | closed_nil : closed [] []
  | closed_char x s m : ~ In x start -> closed s m -> closed (x :: s) (Some x :: m)
  | closed_group g s m : is_group start end_ g -> closed s m -> closed (g ++ s) (repeat None (length g) ++ m).
  Lemma closed_app s m t n : closed s m -> closed t n -> closed (s ++ t) (m ++ n).
  Proof.
    induction 1 as [|x s m Hx Hs IH|g s m Hg Hs IH]; intros Ht; cbn; [exact Ht|constructor; auto|]. rewrite <- !app_assoc. constructor; auto.
  Qed.
  Lemma closed_outer s m t n : closed s m -> outer start end_ t n -> outer start end_ (s ++ t) (m ++ n).
  Proof.
    induction 1 as [|x s m Hx Hs IH|g s m Hg Hs IH]; intros Ht; cbn; [exact Ht|constructor; auto|]. rewrite <- !app_assoc. apply outer_group; auto.
  Qed.
  Lemma closed_is_outer s m : closed s m -> outer start end_ s m.
  Proof. intros H. rewrite <- (app_nil_r s), <- (app_nil_r m). apply closed_outer; [exact H|constructor]. Qed.
  Lemma closed_text t : plain start t -> closed t (map Some t).
  Proof. induction t as [|x t IH]; intros H; cbn; constructor; [apply H; left; reflexivity|]. apply IH. intros y Hy. apply H. right. exact Hy. Qed.
  Lemma closed_one g : is_group start end_ g -> closed g (repeat None (length g)).
  Proof. intros H. rewrite <- (app_nil_r g) at 1. rewrite <- (app_nil_r (repeat None (length g))). constructor; [exact H|constructor]. Qed.

  (* a mask that ends in a group, or is empty *)
  Definition ends_blank (m : list (option ascii)) : Prop := m = [] \/ exists m', m = m' ++ [None].
  Lemma occurs_split_none {A} (x : list (option A)) m n : (forall y, In y x -> y <> None) -> x <> [] -> (m = [] \/ exists m', m = m' ++ [None]) ->
    occurs x (m ++ n) -> occurs x m \/ occurs x n.
  Proof.
    intros Hx Nx Hm (p & q & E). destruct Hm as [->|(m' & ->)]; [right; exists p, q; exact E|].
    rewrite <- app_assoc in E. cbn in E. destruct (le_lt_dec (length p) (length m')) as [Lp|Lp].
    - (* x begins in m': it must end there *)
      destruct (le_lt_dec (length p + length x) (length m')) as [Lx|Lx].
      + left. assert (Em : m' = p ++ x ++ firstn (length m' - (length p + length x)) q).
        { apply (f_equal (firstn (length m'))) in E. rewrite firstn_app, Nat.sub_diag, firstn_O, app_nil_r, firstn_all in E. rewrite E at 1.
          rewrite firstn_app, (firstn_all2 p) by lia. f_equal. rewrite firstn_app, (firstn_all2 x) by lia. f_equal. f_equal. lia. }
        exists p, (firstn (length m' - (length p + length x)) q ++ [None]). rewrite Em at 1. rewrite <- !app_assoc. reflexivity.
      + exfalso. assert (K : nth_error (m' ++ None :: n) (length m') = Some None) by (rewrite nth_error_app2, Nat.sub_diag by lia; reflexivity).
        rewrite E, nth_error_app2, nth_error_app1 in K by lia. apply nth_error_In in K. apply (Hx _ K). reflexivity.
    - right. assert (En : n = skipn (S (length m')) p ++ x ++ q).
      { apply (f_equal (skipn (S (length m')))) in E. rewrite skipn_app, skipn_all2 in E by lia. replace (S (length m') - length m') with 1 in E by lia. rewrite app_nil_l in E. change (skipn 1 (None :: n)) with n in E.
        transitivity (skipn (S (length m')) (p ++ x ++ q)); [exact E|]. rewrite skipn_app. f_equal. replace (S (length m') - length p) with 0 by lia. reflexivity. }
      exists (skipn (S (length m')) p), q. exact En.
  Qed.
  Lemma occurs_blank {A} (x : list (option A)) m k : (forall y, In y x -> y <> None) -> x <> [] -> occurs x (m ++ repeat None k) -> occurs x m.
  Proof.
    intros Hx Nx. induction k as [|k IH].
    - cbn. rewrite app_nil_r. tauto.
    - intros (p & q & E). apply IH. change (repeat (@None A) (S k)) with (None :: repeat (@None A) k) in E. rewrite repeat_cons, app_assoc in E. destruct q as [|y q] using rev_ind.
      + exfalso. rewrite app_nil_r in E. destruct (exists_last Nx) as (x' & z & Ez). rewrite Ez, app_assoc in E. apply app_inj_tail in E. destruct E as [_ E]. apply (Hx z); [rewrite Ez; apply in_app_iff; right; left; reflexivity|congruence].
      + exists p, q. rewrite !app_assoc in E. apply app_inj_tail in E. destruct E as [E _]. rewrite E. rewrite <- !app_assoc. reflexivity.
  Qed.
  Lemma occurs_map (x t : str) : occurs (map Some x) (map Some t) -> occurs x t.
  Proof.
    intros (p & q & E). exists (firstn (length p) t), (skipn (length p + length x) t). revert t E. induction p as [|y p IH]; intros t E.
    - cbn in *. revert t E. induction x as [|z x IHx]; intros t E; cbn in *; [reflexivity|]. destruct t as [|w t]; [discriminate|]. cbn in *. injection E as -> E. f_equal. apply IHx. exact E.
    - destruct t as [|w t]; [discriminate|]. cbn in *. injection E as _ E. f_equal. apply IH. exact E.
  Qed.
  Lemma join_app_last {A} (sep : list A) l x y : join sep (l ++ [x ++ y]) = join sep (l ++ [x]) ++ y.
  Proof.
    induction l as [|z l IH]; [reflexivity|]. cbn [app]. rewrite !join_cons by (destruct l; discriminate). rewrite IH, <- !app_assoc. reflexivity.
  Qed.
  Lemma join_app_more {A} (sep : list A) l x t : t <> [] -> join sep (l ++ x :: t) = join sep (l ++ [x]) ++ sep ++ join sep t.
  Proof.
    intros N. induction l as [|z l IH]; [cbn [app]; rewrite join_cons by exact N; reflexivity|]. cbn [app]. rewrite !join_cons by (destruct l; discriminate). rewrite IH, <- !app_assoc. reflexivity.
  Qed.
  Lemma join_split {A} (sep : list A) l p x toks : join sep (l ++ (p ++ x) :: toks) = join sep (l ++ [p]) ++ join sep (x :: toks).
  Proof.
    destruct toks as [|y toks]; [cbn [join]; apply join_app_last|]. rewrite join_app_more by discriminate. rewrite join_app_last. rewrite (join_cons sep x) by discriminate. rewrite <- !app_assoc. reflexivity.
  Qed.
  Lemma Forall2_snoc {A B} (P : A -> B -> Prop) l m x y : Forall2 P l m -> P x y -> Forall2 P (l ++ [x]) (m ++ [y]).
  Proof. intros H K. apply Forall2_app; [exact H|]. constructor; [exact K|constructor]. Qed.
  Lemma join_map {A B} (f : A -> B) sep l : map f (join sep l) = join (map f sep) (map (map f) l).
  Proof. induction l as [|x [|y l] IH]; [reflexivity|reflexivity|]. cbn [map] in *. rewrite !join_cons by discriminate. rewrite !map_app. rewrite IH. reflexivity. Qed.

  (* the pieces so far, in order: all but the last are closed and free of separators; the last is p with mask m *)
  Lemma oloop_ok sep : sep <> [] -> forall b segs, laid start end_ b segs -> forall (ps : list str) ms p m,
    Forall2 closed ps ms -> closed p m -> Forall (fun m => ~ occurs (map Some sep) m) (ms ++ [m]) -> (b = true -> ends_blank m) ->
    exists ps' ms', oloop sep start (p :: rev ps) segs = Some (rev ps') /\ Forall2 (outer start end_) ps' ms' /\
      join sep ps' = join sep (ps ++ [p]) ++ concat segs /\ Forall (fun m => ~ occurs (map Some sep) m) ms' /\
      exists mr, outer start end_ (concat segs) mr /\ join (map Some sep) ms' = join (map Some sep) (ms ++ [m]) ++ mr.
  Proof.
    intros Ns. assert (Hsome : forall y, In y (map (@Some ascii) sep) -> y <> None). { intros y Hy. apply in_map_iff in Hy. destruct Hy as (z & <- & _). discriminate. }
    assert (Ns' : map (@Some ascii) sep <> []) by (destruct sep; [contradiction|discriminate]).
    intros b segs L. induction L as [b|t l Ht Hl IH|b g l Hg Hl IH|b g Hg]; intros ps ms p m HC Hp HF Hb.
    - exists (ps ++ [p]), (ms ++ [m]). cbn [oloop concat]. rewrite rev_app_distr. split; [reflexivity|]. split.
      { apply Forall2_snoc; [|apply closed_is_outer; exact Hp]. clear - HC. induction HC; constructor; [apply closed_is_outer; assumption|assumption]. }
      rewrite !app_nil_r. split; [reflexivity|]. split; [exact HF|]. exists []. split; [constructor|rewrite app_nil_r; reflexivity].
    - destruct t as [|c t].
      + cbn [oloop concat app]. destruct (IH ps ms p m HC Hp HF ltac:(discriminate)) as (ps' & ms' & K). exists ps', ms'. exact K.
      + cbn [oloop]. rewrite (proj2 (find_char_none start c)) by (apply Ht; left; reflexivity).
        destruct (py_split_ok (c :: t) sep Ns) as (x & toks & E & J & F). rewrite E. cbn [add_last]. set (tx := c :: t) in *.
        (* the tokens as the last piece *)
        assert (Hpl : forall w, In w (x :: toks) -> plain start w).
        { intros w Hw y Hy. apply Ht. fold tx. rewrite <- J. clear - Hw Hy. revert w Hw Hy. generalize (x :: toks) as l. induction l as [|z l IH]; intros w Hw Hy; [destruct Hw|].
          destruct Hw as [->|Hw]; [destruct l; cbn; [exact Hy|apply in_app_iff; left; exact Hy]|]. destruct l as [|z' l]; [destruct Hw|]. rewrite join_cons by discriminate.
          apply in_app_iff. right. apply in_app_iff. right. apply (IH w); assumption. }
        assert (Hfirst : ~ occurs (map Some sep) (m ++ map Some x)).
        { intros O. apply occurs_split_none in O; [|exact Hsome|exact Ns'|apply Hb; reflexivity]. destruct O as [O|O].
          - rewrite Forall_app in HF. destruct HF as [_ HF]. inversion HF; subst. contradiction.
          - apply occurs_map in O. inversion F; subst. contradiction. }
        destruct (exists_last (l := (p ++ x) :: toks) ltac:(discriminate)) as (pre & lst & El).
        destruct (exists_last (l := (m ++ map Some x) :: map (map Some) toks) ltac:(discriminate)) as (mpre & mlst & Em).
        assert (C2 : Forall2 closed ((p ++ x) :: toks) ((m ++ map Some x) :: map (map Some) toks)).
        { constructor; [apply closed_app; [exact Hp|apply closed_text; apply Hpl; left; reflexivity]|]. assert (Hpl' : forall w, In w toks -> plain start w) by (intros w Hw; apply Hpl; right; exact Hw).
          clear - Hpl'. induction toks as [|z toks IH]; constructor; [apply closed_text; apply Hpl'; left; reflexivity|]. apply IH. intros w Hw. apply Hpl'. right. exact Hw. }
        assert (C3 : Forall (fun m => ~ occurs (map Some sep) m) ((m ++ map Some x) :: map (map Some) toks)).
        { constructor; [exact Hfirst|]. inversion F as [|? ? _ F2]; subst. clear - F2. induction F2 as [|w toks Hw _ IH]; constructor; [|exact IH]. intros O. apply Hw. apply occurs_map. exact O. }
        rewrite El, Em in C2. rewrite Em in C3. apply Forall2_app_inv_l in C2. destruct C2 as (m1 & m2 & Hpre & Hlst & Emm). inversion Hlst as [|? ml ? mr2 Hml Hnil]; subst. inversion Hnil; subst.
        apply app_inj_tail in Emm. destruct Emm as [<- <-]. rewrite Forall_app in C3. destruct C3 as [C3a C3b]. rewrite Forall_app in HF. destruct HF as [HFa HFb].
        destruct (IH (ps ++ pre) (ms ++ mpre) lst mlst) as (ps' & ms' & R & O2 & J2 & F2 & mr & Om & Jm).
        { apply Forall2_app; assumption. } { exact Hml. } { rewrite <- app_assoc, Forall_app. split; [exact HFa|]. apply Forall_app. split; assumption. } { discriminate. }
        exists ps', ms'. split.
        { rewrite <- R. f_equal. rewrite rev_app_distr. change (rev toks ++ (p ++ x) :: rev ps) with (rev toks ++ [p ++ x] ++ rev ps). rewrite app_assoc. change (rev toks ++ [p ++ x]) with (rev ((p ++ x) :: toks)).
          rewrite El, rev_app_distr. reflexivity. }
        split; [exact O2|]. split.
        { rewrite J2. rewrite <- app_assoc, <- El. rewrite join_split, J. cbn [concat]. rewrite <- app_assoc. reflexivity. }
        split; [exact F2|]. exists (map Some tx ++ mr). split; [cbn [concat]; apply closed_outer; [apply closed_text; exact Ht|exact Om]|].
        rewrite Jm. rewrite <- app_assoc, <- Em. rewrite join_split. rewrite <- app_assoc. f_equal. f_equal. change (map Some x :: map (map Some) toks) with (map (map (@Some ascii)) (x :: toks)). rewrite <- join_map, J. reflexivity.
    - pose proof Hg as (o & e & g' & (k & K1 & K2 & K3) & Eg & _ & _). rewrite Eg. cbn [oloop]. rewrite (proj2 (find_char_some start o k)) by (split; assumption). cbn [add_last]. rewrite <- Eg.
      destruct (IH ps ms (p ++ g) (m ++ repeat None (length g))) as (ps' & ms' & R & O2 & J2 & F2 & mr & Om & Jm).
      { exact HC. } { apply closed_app; [exact Hp|apply closed_one; exact Hg]. }
      { rewrite Forall_app in *. destruct HF as [HFa HFb]. split; [exact HFa|]. inversion HFb; subst. constructor; [|constructor]. intros O. apply occurs_blank in O; [contradiction|exact Hsome|exact Ns']. }
      { intros _. right. exists (m ++ repeat None (length g')). rewrite Eg. cbn [length]. change (repeat (@None ascii) (S (length g'))) with (None :: repeat (@None ascii) (length g')). rewrite repeat_cons, app_assoc. reflexivity. }
      exists ps', ms'. split; [exact R|]. split; [exact O2|]. cbn [concat]. split; [rewrite J2, join_app_last, <- app_assoc; reflexivity|]. split; [exact F2|].
      exists (repeat None (length g) ++ mr). split; [apply outer_group; assumption|]. rewrite Jm, join_app_last, <- app_assoc. reflexivity.
    - pose proof Hg as (o & e & g' & (k & K1 & K2 & K3) & Eg & _). rewrite Eg. cbn [oloop]. rewrite (proj2 (find_char_some start o k)) by (split; assumption). cbn [add_last]. rewrite <- Eg.
      exists (ps ++ [p ++ g]), (ms ++ [m ++ repeat None (length g)]). split; [rewrite rev_app_distr; reflexivity|]. split.
      { apply Forall2_snoc; [|apply closed_outer; [exact Hp|apply outer_unfinished; exact Hg]]. clear - HC. induction HC; constructor; [apply closed_is_outer; assumption|assumption]. }
      cbn [concat]. rewrite app_nil_r. split; [apply join_app_last|]. split.
      { rewrite Forall_app in *. destruct HF as [HFa HFb]. split; [exact HFa|]. inversion HFb; subst. constructor; [|constructor]. intros O. apply occurs_blank in O; [contradiction|exact Hsome|exact Ns']. }
      exists (repeat None (length g)). split; [apply outer_unfinished; exact Hg|apply join_app_last].
  Qed.
  (* masks are unique *)
  Lemma is_group_head g : is_group start end_ g -> exists o g', g = o :: g' /\ In o start.
  Proof. intros (o & c & g' & (k & A & _) & E & _). exists o, g'. split; [exact E|]. apply nth_error_In with k. exact A. Qed.
  Lemma pair_fun o c c' : pair_of start end_ o c -> pair_of start end_ o c' -> c = c'.
  Proof.
    intros (k & A & B & C) (k' & A' & B' & C'). assert (k = k'); [|congruence]. destruct (Nat.lt_trichotomy k k') as [H|[H|H]]; [|exact H|].
    - exfalso. apply (C' k H A).
    - exfalso. apply (C k' H A').
  Qed.
  Lemma app_le_split {A} (g h s t : list A) : g ++ s = h ++ t -> length g <= length h -> exists r, h = g ++ r.
  Proof.
    revert h. induction g as [|x g IH]; intros h E L; [exists h; reflexivity|]. destruct h as [|y h]; [cbn in L; lia|]. cbn in E. injection E as -> E. destruct (IH h E ltac:(cbn in L; lia)) as (r & ->). exists r. reflexivity.
  Qed.
  Lemma group_prefix g h r : is_group start end_ g -> h = g ++ r -> (is_group start end_ h -> r = []) /\ ~ is_unfinished start end_ h.
  Proof.
    intros (o & c & g' & P & E & L & Q) Eh. split.
    - intros (o2 & c2 & h' & P2 & E2 & L2 & Q2). destruct r as [|z r]; [reflexivity|]. exfalso. assert (o = o2) by (subst; cbn in *; congruence). subst o2. assert (c = c2) by (apply (pair_fun o); assumption). subst c2.
      specialize (Q2 g (z :: r) Eh ltac:(rewrite E; discriminate) ltac:(discriminate)). lia.
    - intros (o2 & c2 & h' & P2 & E2 & Q2). assert (o = o2) by (subst; cbn in *; congruence). subst o2. assert (c = c2) by (apply (pair_fun o); assumption). subst c2.
      specialize (Q2 g r Eh ltac:(rewrite E; discriminate)). lia.
  Qed.
  Lemma outer_fun s m : outer start end_ s m -> forall n, outer start end_ s n -> m = n.
  Proof.
    induction 1 as [|x s m Hx Hs IH|g s m Hg Hs IH|g Hg]; intros n Hn.
    - inversion Hn as [|?|g s m Hg Hs E1 E2|g Hg E1 E2]; subst; [reflexivity| |].
      + destruct (is_group_head g Hg) as (o & g' & -> & _). discriminate.
      + destruct Hg as (o & c & g' & _ & E & _). discriminate.
    - inversion Hn as [|? s' m' Hx' Hs' E1 E2|g s' m' Hg Hs' E1 E2|g Hg E1 E2]; subst.
      + f_equal. apply IH. assumption.
      + exfalso. destruct (is_group_head g Hg) as (o & g' & -> & I). cbn in E1. injection E1 as -> _. contradiction.
      + exfalso. destruct Hg as (o & c & g' & (k & A & _) & E & _). injection E as -> _. apply Hx. apply nth_error_In with k. exact A.
    - remember (g ++ s) as gs eqn:Egs. revert Egs. inversion Hn as [|x s' m' Hx' Hs' E1 E2|h s' m' Hh Hs' E1 E2|h Hh E1 E2]; subst; intros Egs.
      + destruct (is_group_head g Hg) as (o & g' & -> & _). discriminate.
      + exfalso. destruct (is_group_head g Hg) as (o & g' & -> & I). cbn in Egs. injection Egs as -> _. contradiction.
      + assert (g = h). { destruct (le_lt_dec (length h) (length g)) as [L|L].
          - destruct (app_le_split h g s' s Egs L) as (r & Er). destruct (group_prefix h g r Hh Er) as [K _]. rewrite (K Hg), app_nil_r in Er. exact Er.
          - destruct (app_le_split g h s s' (eq_sym Egs) ltac:(lia)) as (r & Er). destruct (group_prefix g h r Hg Er) as [K _]. rewrite (K Hh), app_nil_r in Er. congruence. }
        subst h. apply app_inv_head in Egs. subst s'. f_equal. apply IH. exact Hs'.
      + exfalso. apply (proj2 (group_prefix g (g ++ s) s Hg eq_refl)). rewrite <- Egs. exact Hh.
    - inversion Hn as [|x s' m' Hx' Hs' E1 E2|h s' m' Hh Hs' E1 E2|h Hh E1 E2]; subst.
      + reflexivity.
      + exfalso. destruct Hg as (o & c & g' & (k & A & _) & E & _). injection E as -> _. apply Hx'. apply nth_error_In with k. exact A.
      + exfalso. apply (proj2 (group_prefix h (h ++ s') s' Hh eq_refl)). exact Hg.
      + reflexivity.
  Qed.
End Outer.
