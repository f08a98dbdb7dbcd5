From Coq Require Import List Arith ZArith Reals Lia Lra.
From Verif Require Import MspSpec MspModel.
Import ListNotations.
Open Scope R_scope.
Ltac Zify.zify_post_hook ::= idtac.

Lemma sumn_ext n f g : (forall i, (i < n)%nat -> f i = g i) -> sumn n f = sumn n g.
Proof. induction n as [|n IH]; intros H; cbn [sumn]; [reflexivity|]. rewrite IH by (intros; apply H; lia). now rewrite H by lia. Qed.
Lemma sumn_zero n f : (forall i, (i < n)%nat -> f i = 0) -> sumn n f = 0.
Proof. induction n as [|n IH]; intros H; cbn [sumn]; [reflexivity|]. rewrite IH by (intros; apply H; lia). rewrite H by lia. lra. Qed.
Lemma sumn_cut m n f : (m <= n)%nat -> (forall i, (m <= i < n)%nat -> f i = 0) -> sumn n f = sumn m f.
Proof.
  intros M. induction n as [|n IH]; intros H; [now replace m with 0%nat by lia|]. destruct (Nat.eq_dec m (S n)) as [->|N]; [reflexivity|]. cbn [sumn]. rewrite IH, H by (try lia; intros; apply H; lia). lra.
Qed.
Lemma square_cut m n f : (m <= n)%nat -> (forall i j, (i < n)%nat -> (j < n)%nat -> (m <= i \/ m <= j)%nat -> f i j = 0) -> sumn n (fun i => sumn n (fun j => f i j)) = sumn m (fun i => sumn m (fun j => f i j)).
Proof.
  intros M H. rewrite (sumn_cut m n); [|exact M|].
  - apply sumn_ext. intros i I. apply sumn_cut; [exact M|]. intros j J. apply H; lia.
  - intros i I. apply sumn_zero. intros j J. apply H; lia.
Qed.
Lemma shape3 cov s rest : length rest <> 1%nat -> forall n c, (cov = Matrix n c \/ (n = 1%nat /\ exists x, cov = Single x /\ c = fun _ _ => x)) ->
  massage_spectrum cov (s :: rest) = Some (Matrix s (fun i j => if (Nat.ltb i (Nat.min n s) && Nat.ltb j (Nat.min n s))%bool then c i j else 0)).
Proof.
  intros L n c [->|(-> & x & -> & ->)]; unfold massage_spectrum; cbn [length]; (destruct (Nat.eqb_spec (S (length rest)) 2); [lia|reflexivity]).
Qed.
(* C166 the entries that exist are kept, others are zero *)
Theorem C166_entries n c s ny nx : exists o, massage_spectrum (Matrix n c) [s; ny; nx] = Some (Matrix s o) /\ forall i j, (i < s)%nat -> (j < s)%nat -> ((i < n)%nat /\ (j < n)%nat -> o i j = c i j) /\ ((n <= i \/ n <= j)%nat -> o i j = 0).
Proof.
  rewrite (shape3 (Matrix n c) s [ny; nx] ltac:(cbn; lia) n c (or_introl eq_refl)). eexists. split; [reflexivity|]. intros i j I J. cbv beta. destruct (Nat.ltb_spec i (Nat.min n s)); destruct (Nat.ltb_spec j (Nat.min n s)); cbn [andb]; split; intros; try reflexivity; lia.
Qed.
(* a single spectrum goes to the first component *)
Theorem C166_single x s ny nx : exists o, massage_spectrum (Single x) [s; ny; nx] = Some (Matrix s o) /\ forall i j, (i < s)%nat -> (j < s)%nat -> o i j = if (Nat.eqb i 0 && Nat.eqb j 0)%bool then x else 0.
Proof.
  rewrite (shape3 (Single x) s [ny; nx] ltac:(cbn; lia) 1%nat (fun _ _ => x)) by (right; split; [reflexivity|now exists x]). eexists. split; [reflexivity|]. intros i j I J. cbv beta. rewrite Nat.min_l by lia. destruct i; destruct j; reflexivity.
Qed.
(* a map of a single component gets the first spectrum *)
Theorem C166_scalar n c x ny nx : (0 < n)%nat -> massage_spectrum (Matrix n c) [ny; nx] = Some (Single (c 0%nat 0%nat)) /\ massage_spectrum (Single x) [ny; nx] = Some (Single x).
Proof. intros N. unfold massage_spectrum. cbn [length Nat.eqb]. destruct (Nat.eqb_spec n 0); [lia|]. split; reflexivity. Qed.
(* what is a covariance stays one *)
Theorem C166_covariance n c s ny nx o : covariance n c -> massage_spectrum (Matrix n c) [s; ny; nx] = Some (Matrix s o) -> covariance s o.
Proof.
  intros [S P] E. destruct (C166_entries n c s ny nx) as (o' & E' & H). rewrite E' in E. injection E as ->. split.
  - intros i j I J. destruct (H i j I J) as [H1 H2]. destruct (H j i J I) as [H3 H4]. destruct (le_lt_dec n i); [rewrite H2, H4 by lia; reflexivity|]. destruct (le_lt_dec n j); [rewrite H2, H4 by lia; reflexivity|]. rewrite H1, H3 by lia. apply S; assumption.
  - intros v. set (m := Nat.min n s). pose (w := fun i => if Nat.ltb i m then v i else 0). specialize (P w). assert (A : sumn n (fun i => sumn n (fun j => w i * c i j * w j)) = sumn m (fun i => sumn m (fun j => w i * c i j * w j))).
    { apply square_cut; [lia|]. intros i j I J [K|K]; unfold w; [destruct (Nat.ltb_spec i m); [lia|ring]|destruct (Nat.ltb_spec j m); [lia|ring]]. }
    assert (B : sumn s (fun i => sumn s (fun j => v i * o i j * v j)) = sumn m (fun i => sumn m (fun j => v i * o i j * v j))).
    { apply square_cut; [lia|]. intros i j I J K. rewrite (proj2 (H i j I J)) by lia. ring. }
    rewrite B. rewrite A in P. replace (sumn m (fun i => sumn m (fun j => v i * o i j * v j))) with (sumn m (fun i => sumn m (fun j => w i * c i j * w j))); [exact P|]. apply sumn_ext. intros i I. apply sumn_ext. intros j J. unfold w. destruct (Nat.ltb_spec i m); [|lia]. destruct (Nat.ltb_spec j m); [|lia]. rewrite (proj1 (H i j ltac:(lia) ltac:(lia))) by lia. reflexivity.
Qed.
Open Scope Z_scope.
(* C167 a geometry of a shape and a wcs, and its parts *)
Theorem C167_parts_partial {W} pre ny nx (w : W) : exists g, Geometry (Shape (pre ++ [ny; nx])) (Some w) = Some g /\ g = (pre ++ [ny; nx], w) /\ npix g = ny * nx /\ nopre g = Some ([ny; nx], w) /\ forall pre', with_pre g pre' = Some (pre' ++ [ny; nx], w).
Proof.
  eexists. split; [reflexivity|]. split; [reflexivity|]. assert (L : last2 (pre ++ [ny; nx]) = [ny; nx]). { unfold last2. rewrite app_length. cbn [length]. replace (length pre + 2 - 2)%nat with (length pre) by lia. rewrite skipn_app, skipn_all, Nat.sub_diag. reflexivity. } unfold npix, nopre, with_pre. cbn [fst snd]. rewrite L. split; [|split; [reflexivity|intros pre'; reflexivity]]. rewrite app_length. cbn [length]. rewrite !app_nth2 by lia. replace (length pre + 2 - 2 - length pre)%nat with 0%nat by lia. replace (length pre + 2 - 1 - length pre)%nat with 1%nat by lia. reflexivity.
Qed.
(* a geometry cannot be made from another one or from a map *)
Theorem C167_object_refuted {W} shape (w : W) : Geometry (Object shape w) None = None.
Proof. reflexivity. Qed.
(* C168 a single resolution becomes two of opposite signs, two stay, exchanged if flipped *)
Theorem C168_expand r a b flip : expand_res [r] flip = Some [- r; r] /\ expand_res [a; b] flip = Some (if flip then [b; a] else [a; b]).
Proof. destruct flip; cbn; split; try reflexivity; do 2 f_equal; destruct r; reflexivity. Qed.
Print Assumptions C166_entries. Print Assumptions C166_single. Print Assumptions C166_scalar. Print Assumptions C166_covariance. Print Assumptions C167_parts_partial. Print Assumptions C167_object_refuted. Print Assumptions C168_expand.
Example C166_ex_hyps : covariance 2 (fun i j => if Nat.eqb i j then 2 else 1)%R.
Proof. split; [intros i j _ _; rewrite Nat.eqb_sym; reflexivity|]. intros v. cbn. pose proof (Rle_0_sqr (v 0%nat + v 1%nat)). pose proof (Rle_0_sqr (v 0%nat)). pose proof (Rle_0_sqr (v 1%nat)). unfold Rsqr in *. lra. Qed.
Example C167_ex : npix ([3; 10; 20], tt) = 200 /\ with_pre ([3; 10; 20], tt) [4; 5] = Some ([4; 5; 10; 20], tt).
Proof. split; reflexivity. Qed.
Example C168_ex : expand_res [3] true = Some [-3; 3] /\ expand_res [-2; 1] true = Some [1; -2].
Proof. split; reflexivity. Qed.
