From Coq Require Import List Arith Reals Lia Lra.
From Verif Require Import Base SkyrModel RotSpec RotModel RotLemmas RotProps XmtSpec XmtModel.
Import ListNotations.
Open Scope R_scope.
Ltac Zify.zify_post_hook ::= idtac.

Lemma ang2rect_dir a : ang2rect false a = dir false a.
Proof. destruct a as [p t]. reflexivity. Qed.
Lemma dir_one a : dot (dir false a) (dir false a) = 1.
Proof. destruct a as [p t]. unfold dir, dot. cbn [fst snd]. pose proof (sin2_cos2 p) as P. pose proof (sin2_cos2 t) as T. unfold Rsqr in *. replace 1 with (cos t * cos t * (sin p * sin p + cos p * cos p) + sin t * sin t) by (rewrite P; lra). ring. Qed.
Lemma apart_unique a b d e : apart a b d -> apart a b e -> d = e.
Proof. intros [D1 D2] [E1 E2]. apply cos_inj; [lra|lra|congruence]. Qed.
Lemma vec_apart a b : apart a b (vec_angdist (ang2rect false a) (ang2rect false b)).
Proof.
  rewrite !ang2rect_dir. unfold apart. assert (N : forall c, norm (dir false c) = 1) by (intros c; unfold norm; rewrite dir_one; apply sqrt_1). destruct (C95_vec (dir false a) (dir false b)) as [A B]; [rewrite N; lra|rewrite N; lra|]. rewrite !N in B. split; [exact A|lra].
Qed.
(* the straight distance is at most the angle *)
Lemma chord a b d : apart a b d -> len3 (sub3 (ang2rect false a) (ang2rect false b)) <= d.
Proof.
  intros [D C]. rewrite !ang2rect_dir, len3_norm. unfold norm. assert (E : dot (sub3 (dir false a) (dir false b)) (sub3 (dir false a) (dir false b)) = 2 - 2 * cos d).
  { rewrite C. transitivity (dot (dir false a) (dir false a) + dot (dir false b) (dir false b) - 2 * dot (dir false a) (dir false b)); [unfold sub3, dot; cbn [fst snd]; ring|]. rewrite !dir_one. ring. }
  rewrite E. replace (2 - 2 * cos d) with ((2 * sin (d / 2)) ^ 2).
  - rewrite <- Rsqr_pow2. rewrite sqrt_Rsqr.
    + destruct (Req_dec d 0) as [->|H]; [replace (0 / 2) with 0 by field; rewrite sin_0; lra|]. pose proof (sin_lt_x (d / 2) ltac:(lra)). lra.
    + pose proof (sin_ge_0 (d / 2) ltac:(lra) ltac:(lra)). lra.
  - replace (cos d) with (cos (2 * (d / 2))) by (f_equal; field). rewrite cos_2a_sin. ring.
Qed.
Lemma argmin_spec : forall l best, In (argmin best l) (best :: l) /\ forall e, In e (best :: l) -> snd (argmin best l) <= snd e.
Proof.
  induction l as [|e l IH]; intros best; cbn [argmin]; [split; [now left|intros e [<-|[]]; lra]|]. destruct (IH (if Rlt_dec (snd e) (snd best) then e else best)) as [A B]. split.
  - destruct A as [A|A]; [|right; now right]. rewrite <- A. destruct (Rlt_dec (snd e) (snd best)); [right; now left|now left].
  - intros f F. assert (K : snd (argmin (if Rlt_dec (snd e) (snd best) then e else best) l) <= snd (if Rlt_dec (snd e) (snd best) then e else best)) by (apply B; now left). destruct F as [<-|[<-|F]]; [| |apply B; now right]; destruct (Rlt_dec (snd e) (snd best)); lra.
Qed.
Lemma nth_vec srcs j b : nth_error srcs j = Some b -> nth j (map (ang2rect false) srcs) ((0, 0), 0) = ang2rect false b /\ nth_error (map (ang2rect false) srcs) j = Some (ang2rect false b).
Proof. intros H. assert (E : nth_error (map (ang2rect false) srcs) j = Some (ang2rect false b)) by (rewrite nth_error_map, H; reflexivity). split; [|exact E]. now apply nth_error_nth. Qed.
(* one source: the answer is a closest source of the whole catalogue, and there is one whenever some source is within the tolerance *)
Lemma one_spec srcs2 tol safety a group : 0 <= tol -> 1 <= safety -> ball (map (ang2rect false) srcs2) (ang2rect false a) (tol * safety) group ->
  match match_one (map (ang2rect false) srcs2) tol (ang2rect false a) group with
  | Some j => closest srcs2 tol a j
  | None => forall k c d, nth_error srcs2 k = Some c -> apart a c d -> tol < d
  end.
Proof.
  intros T S [ND B]. unfold match_one. assert (NEAR : forall k c d, nth_error srcs2 k = Some c -> apart a c d -> d <= tol -> In k group).
  { intros k c d K A L. apply B. exists (ang2rect false c). split; [now apply nth_vec|]. pose proof (chord a c d A). pose proof (Rmult_le_compat_l tol 1 safety T S). lra. }
  assert (MEM : forall j, In j group -> exists b, nth_error srcs2 j = Some b). { intros j J. apply B in J. destruct J as (w & W & _). rewrite nth_error_map in W. destruct (nth_error srcs2 j) as [b|]; [now exists b|discriminate]. }
  destruct (map _ group) as [|e l] eqn:M.
  - destruct group; [|discriminate]. intros k c d K A. apply Rnot_le_lt. intros L. exact (NEAR k c d K A L).
  - cbv zeta. destruct (argmin_spec l e) as [I LE]. rewrite <- M in I, LE. apply in_map_iff in I. destruct I as (j & J & JG). destruct (MEM j JG) as [b JB]. set (best := argmin e l) in *. clearbody best. subst best. cbn [fst snd] in *. rewrite (proj1 (nth_vec srcs2 j b JB)) in *. pose proof (vec_apart a b) as AB. set (d := vec_angdist _ _) in *. clearbody d.
    assert (LG : forall k c f, In k group -> nth_error srcs2 k = Some c -> apart a c f -> d <= f).
    { intros k c f K KC AC. specialize (LE (k, vec_angdist (ang2rect false a) (nth k (map (ang2rect false) srcs2) ((0, 0), 0)))). cbn [snd] in LE. rewrite (proj1 (nth_vec srcs2 k c KC)) in LE. rewrite (apart_unique a c f _ AC (vec_apart a c)). apply LE. apply in_map_iff. exists k. split; [rewrite (proj1 (nth_vec srcs2 k c KC)); reflexivity|exact K]. }
    destruct (Rlt_dec tol d) as [G|G].
    + intros k c f K A. apply Rnot_le_lt. intros L. pose proof (LG k c f (NEAR k c f K A L) K A). lra.
    + exists d, b. split; [exact JB|]. split; [exact AB|]. split; [lra|]. intros k c f K A. destruct (Rle_dec f tol) as [L|L]; [exact (LG k c f (NEAR k c f K A L) K A)|lra].
Qed.
Lemma all_spec srcs2 tol safety : 0 <= tol -> 1 <= safety -> forall srcs1 groups gi, Forall2 (fun v g => ball (map (ang2rect false) srcs2) v (tol * safety) g) (map (ang2rect false) srcs1) groups ->
  let m := match_all (map (ang2rect false) srcs2) tol gi (map (ang2rect false) srcs1) groups in
  (forall i j, In (i, j) m -> exists a, (gi <= i)%nat /\ nth_error srcs1 (i - gi) = Some a /\ closest srcs2 tol a j) /\
  (forall i a, nth_error srcs1 i = Some a -> (exists j, In ((gi + i)%nat, j) m) \/ forall k c d, nth_error srcs2 k = Some c -> apart a c d -> tol < d) /\
  NoDup (map fst m).
Proof.
  intros T S. induction srcs1 as [|a srcs1 IH]; intros groups gi F; cbn [map] in F; inversion F as [|v g vs gs BG FR]; subst; cbn [map match_all].
  - split; [intros i j []|]. split; [intros [|i] a H; discriminate|constructor].
  - pose proof (one_spec srcs2 tol safety a g T S BG) as O. destruct (IH gs (Datatypes.S gi) FR) as (A & B & C). set (m := match_all _ tol (Datatypes.S gi) _ gs) in *. clearbody m.
    assert (NI : ~ In gi (map fst m)). { intros I. apply in_map_iff in I. destruct I as ([i j] & E & I). cbn in E. subst i. destruct (A gi j I) as (_ & L & _). lia. }
    assert (A' : forall i j, In (i, j) m -> exists a0, (gi <= i)%nat /\ nth_error (a :: srcs1) (i - gi) = Some a0 /\ closest srcs2 tol a0 j). { intros i j I. destruct (A i j I) as (a0 & L & N & K). exists a0. split; [lia|]. replace (i - gi)%nat with (Datatypes.S (i - Datatypes.S gi)) by lia. split; [exact N|exact K]. }
    assert (B' : forall i a0, nth_error srcs1 i = Some a0 -> (exists j, In ((gi + Datatypes.S i)%nat, j) m) \/ forall k c d, nth_error srcs2 k = Some c -> apart a0 c d -> tol < d). { intros i a0 N. replace (gi + Datatypes.S i)%nat with (Datatypes.S gi + i)%nat by lia. now apply B. }
    destruct (match_one _ tol (ang2rect false a) g) as [j|].
    + cbn [app map fst]. split; [|split].
      * intros i j' [E|I]; [|now apply A']. injection E as <- <-. exists a. split; [lia|]. rewrite Nat.sub_diag. split; [reflexivity|exact O].
      * intros [|i] a0 N; [left; exists j; left; f_equal; lia|]. destruct (B' i a0 N) as [[j' J]|K]; [left; exists j'; now right|now right].
      * constructor; assumption.
    + cbn [app]. split; [exact A'|]. split; [|exact C]. intros [|i] a0 N; [|now apply B']. cbn in N. injection N as <-. now right.
Qed.
(* C147 every pair is a source of the first catalogue and a closest source to it in the second, within the tolerance *)
Theorem C147_closest srcs1 srcs2 tol safety m i j : 0 <= tol -> 1 <= safety -> crossmatch srcs1 srcs2 tol safety m -> In (i, j) m -> exists a, nth_error srcs1 i = Some a /\ closest srcs2 tol a j.
Proof.
  intros T S (groups & F & ->) I. destruct (all_spec srcs2 tol safety T S srcs1 groups 0 F) as (A & _). destruct (A i j I) as (a & _ & N & C). rewrite Nat.sub_0_r in N. now exists a.
Qed.
(* a source is matched, once, if and only if some source is within the tolerance, however small the margin of the search *)
Theorem C147_complete srcs1 srcs2 tol safety m i a : 0 <= tol -> 1 <= safety -> crossmatch srcs1 srcs2 tol safety m -> nth_error srcs1 i = Some a ->
  ((exists j, In (i, j) m) <-> exists k c d, nth_error srcs2 k = Some c /\ apart a c d /\ d <= tol) /\ NoDup (map fst m).
Proof.
  intros T S (groups & F & E) N. destruct (all_spec srcs2 tol safety T S srcs1 groups 0 F) as (A & B & C). rewrite <- E in *. split; [|exact C]. split.
  - intros [j J]. destruct (A i j J) as (a' & _ & N' & d & b & JB & AB & L & _). rewrite Nat.sub_0_r, N in N'. injection N' as <-. exists j, b, d. auto.
  - intros (k & c & d & K & AC & L). destruct (B i a N) as [[j J]|H]; [exists j; exact J|]. specialize (H k c d K AC). lra.
Qed.
(* the search always has an answer *)
Theorem C147_total srcs1 srcs2 tol safety : exists m, crossmatch srcs1 srcs2 tol safety m.
Proof.
  assert (G : forall v, exists g, ball (map (ang2rect false) srcs2) v (tol * safety) g).
  { intros v. set (vecs := map _ srcs2). set (r := tol * safety). exists (filter (fun j => match nth_error vecs j with Some w => if Rle_dec (len3 (sub3 v w)) r then true else false | None => false end) (seq 0 (length vecs))). split; [apply NoDup_filter, seq_NoDup|]. intros j. rewrite filter_In, in_seq. split.
    - intros [_ H]. destruct (nth_error vecs j) as [w|]; [|discriminate]. exists w. split; [reflexivity|]. destruct (Rle_dec _ r); [assumption|discriminate].
    - intros (w & W & L). rewrite W. split; [pose proof (proj1 (nth_error_Some vecs j) ltac:(congruence)); lia|]. destruct (Rle_dec _ r); [reflexivity|contradiction]. }
  assert (F : forall vs, exists groups, Forall2 (fun v g => ball (map (ang2rect false) srcs2) v (tol * safety) g) vs groups).
  { induction vs as [|v vs [gs H]]; [exists []; constructor|]. destruct (G v) as [g B]. exists (g :: gs). now constructor. }
  destruct (F (map (ang2rect false) srcs1)) as [groups H]. exists (match_all (map (ang2rect false) srcs2) tol 0 (map (ang2rect false) srcs1) groups). exists groups. split; [exact H|reflexivity].
Qed.
(* the result has two columns if there is a match *)
Theorem C147_shape_partial m : m <> [] -> result_shape m = [length m; 2%nat].
Proof. destruct m; [contradiction|reflexivity]. Qed.
(* but not if there is none *)
Theorem C147_shape_refuted : exists srcs1 srcs2 tol safety m, 0 <= tol /\ 1 <= safety /\ crossmatch srcs1 srcs2 tol safety m /\ result_shape m <> [length m; 2%nat].
Proof. exists [], [], 1, 4, []. split; [lra|]. split; [lra|]. split; [exists []; split; [constructor|reflexivity]|discriminate]. Qed.
(* matches are one way only: two sources can be matched with the same one *)
Theorem C147_shared a tol safety m : 0 <= tol -> 1 <= safety -> crossmatch [a; a] [a] tol safety m -> In (0%nat, 0%nat) m /\ In (1%nat, 0%nat) m.
Proof.
  intros T S C. assert (AA : apart a a 0) by (split; [pose proof PI_RGT_0; lra|rewrite cos_0, dir_one; reflexivity]).
  assert (H : forall i, nth_error [a; a] i = Some a -> In (i, 0%nat) m).
  { intros i N. destruct (proj2 (proj1 (C147_complete _ _ tol safety m i a T S C N))) as [j J]; [exists 0%nat, a, 0; cbn; auto|]. destruct (C147_closest _ _ tol safety m i j T S C J) as (a' & _ & d & b & JB & _). destruct j as [|j]; [exact J|]. destruct j; discriminate. }
  split; apply H; reflexivity.
Qed.
Print Assumptions C147_closest. Print Assumptions C147_complete. Print Assumptions C147_total. Print Assumptions C147_shape_partial. Print Assumptions C147_shape_refuted. Print Assumptions C147_shared.
Example C147_ex_hyps : exists m, crossmatch [(0, 0); (0, 0)] [(0, 0)] (1 / 100) 4 m /\ In (1%nat, 0%nat) m.
Proof. destruct (C147_total [(0, 0); (0, 0)] [(0, 0)] (1 / 100) 4) as [m C]. exists m. split; [exact C|]. apply (C147_shared (0, 0) (1 / 100) 4 m); [lra|lra|exact C]. Qed.
