From Coq Require Import List ZArith Lia.
From Verif Require Import NdfSpec NdfModel.
Import ListNotations.
Open Scope Z_scope.
Ltac Zify.zify_post_hook ::= idtac.

Lemma size_app a b : size (a ++ b) = size a * size b.
Proof. induction a as [|x a IH]; cbn [size app]; [now destruct (size b)|]. rewrite IH. ring. Qed.
Lemma place_app a b i j : length i = length a -> place (a ++ b) (i ++ j) = place a i * size b + place b j.
Proof.
  revert i. induction a as [|x a IH]; intros [|k i] L; cbn in L; try lia; cbn [app place]; [ring|]. rewrite IH by lia. rewrite size_app. ring.
Qed.
Lemma merged_intro pre mid post : merged pre mid post (pre ++ size mid :: post).
Proof.
  split; [reflexivity|]. intros ip im iq P M. rewrite !place_app by assumption. cbn [size place]. rewrite size_app. ring.
Qed.
Lemma reshape_m1_mid pre mid post : size pre <> 0 -> size post <> 0 -> reshape_m1 (size (pre ++ mid ++ post)) pre post = Some (pre ++ size mid :: post).
Proof.
  intros A B. unfold reshape_m1. assert (K : size pre * size post <> 0) by nia. destruct (Z.eqb_spec (size pre * size post) 0); [lia|]. rewrite !size_app. replace (size pre * (size mid * size post)) with (size mid * (size pre * size post)) by ring. rewrite Z.mod_mul, Z.div_mul by exact K. reflexivity.
Qed.
Lemma from_nat l k : (k <= length l)%nat -> from l (Z.of_nat k) = skipn k l.
Proof. intros K. unfold from, clip. destruct (Z.ltb_spec (Z.of_nat k) 0); [lia|]. f_equal. lia. Qed.
Lemma upto_nat l k : (k <= length l)%nat -> upto l (Z.of_nat k) = firstn k l.
Proof. intros K. unfold upto, clip. destruct (Z.ltb_spec (Z.of_nat k) 0); [lia|]. f_equal. lia. Qed.
Lemma skipn_pre {A} (a b : list A) : skipn (length a) (a ++ b) = b.
Proof. rewrite skipn_app, skipn_all, Nat.sub_diag. reflexivity. Qed.
Lemma firstn_pre {A} (a b : list A) : firstn (length a) (a ++ b) = a.
Proof. rewrite firstn_app, firstn_all, Nat.sub_diag. cbn [firstn]. apply app_nil_r. Qed.
(* C159 the first or last axes are merged *)
Theorem C159_preflat_partial mid post : size post <> 0 -> exists out, preflat (mid ++ post) (Z.of_nat (length mid)) = Some out /\ merged [] mid post out.
Proof.
  intros P. exists (size mid :: post). split; [|apply (merged_intro [])]. unfold preflat. destruct (Z.ltb_spec (Z.of_nat (length mid)) 0); [lia|]. rewrite from_nat by (rewrite app_length; lia). rewrite skipn_pre. apply (reshape_m1_mid []); [cbn; lia|exact P].
Qed.
Theorem C159_postflat_partial pre mid : size pre <> 0 -> exists out, postflat (pre ++ mid) (Z.of_nat (length mid)) = Some out /\ merged pre mid [] out.
Proof.
  intros P. exists (pre ++ [size mid]). split; [|apply merged_intro]. unfold postflat. destruct (Z.ltb_spec (Z.of_nat (length mid)) 0); [lia|]. replace (Z.of_nat (length (pre ++ mid)) - Z.of_nat (length mid)) with (Z.of_nat (length pre)) by (rewrite app_length; lia). rewrite upto_nat by (rewrite app_length; lia). rewrite firstn_pre. pose proof (reshape_m1_mid pre mid [] P ltac:(cbn; lia)) as R. rewrite app_nil_r in R. exact R.
Qed.
(* a negative number flattens everything instead of leaving that many axes *)
Theorem C159_preflat_negative_refuted shape n : n < 0 -> preflat shape n = Some [size shape].
Proof.
  intros N. unfold preflat. destruct (Z.ltb_spec n 0); [|lia]. assert (F : from shape (Z.of_nat (length shape) - n) = []). { unfold from, clip. destruct (Z.ltb_spec (Z.of_nat (length shape) - n) 0); [lia|]. rewrite Z.min_l by lia. rewrite Z.max_r, Nat2Z.id by lia. apply skipn_all. } rewrite F. pose proof (reshape_m1_mid [] shape [] ltac:(cbn; lia) ltac:(cbn; lia)) as R. rewrite app_nil_r in R. exact R.
Qed.
(* and for the last axes it flattens that many, just like the positive number *)
Theorem C159_postflat_negative_refuted pre mid : size pre <> 0 -> mid <> [] -> postflat (pre ++ mid) (- Z.of_nat (length mid)) = postflat (pre ++ mid) (Z.of_nat (length mid)).
Proof.
  intros P M. destruct (C159_postflat_partial pre mid P) as (out & E & [S _]). rewrite E, S. assert (L : (0 < length mid)%nat) by (destruct mid; [congruence|cbn; lia]). unfold postflat. destruct (Z.ltb_spec (- Z.of_nat (length mid)) 0); [|lia]. rewrite app_length. replace (Z.of_nat (length pre + length mid) - (Z.of_nat (length pre + length mid) - - Z.of_nat (length mid))) with (- Z.of_nat (length mid)) by lia.
  assert (U : upto (pre ++ mid) (- Z.of_nat (length mid)) = pre). { unfold upto, clip. rewrite app_length. destruct (Z.ltb_spec (- Z.of_nat (length mid)) 0); [|lia]. replace (Z.to_nat _) with (length pre) by lia. apply firstn_pre. }
  rewrite U. pose proof (reshape_m1_mid pre mid [] P ltac:(cbn; lia)) as R. rewrite app_nil_r in R. exact R.
Qed.
Lemma size_ones k : size (repeat 1 k) = 1.
Proof. induction k as [|k IH]; cbn [repeat size]; lia. Qed.
(* C160 with more axes wanted, axes of length one come in front of the given axis, or behind the one counted from the end *)
Theorem C160_more pre post k : let shape := pre ++ post in let n := Z.of_nat (length shape + k) in
  to_Nd shape n (Z.of_nat (length pre)) = Some (pre ++ repeat 1 k ++ post) /\ to_Nd shape n (- Z.of_nat (length post) - 1) = Some (pre ++ repeat 1 k ++ post).
Proof.
  cbv zeta. assert (A : to_Nd (pre ++ post) (Z.of_nat (length (pre ++ post) + k)) (Z.of_nat (length pre)) = Some (pre ++ repeat 1 k ++ post)).
  { unfold to_Nd. destruct (Z.leb_spec (Z.of_nat (length (pre ++ post))) (Z.of_nat (length (pre ++ post) + k))); [|lia]. destruct (Z.ltb_spec (Z.of_nat (length pre)) 0); [lia|]. rewrite upto_nat, from_nat by (rewrite app_length; lia). rewrite firstn_pre, skipn_pre. replace (Z.to_nat _) with k by lia. unfold reshape. rewrite !size_app, size_ones, Z.mul_1_l, Z.eqb_refl. reflexivity. }
  split; [exact A|]. rewrite <- A. unfold to_Nd. destruct (Z.leb_spec (Z.of_nat (length (pre ++ post))) (Z.of_nat (length (pre ++ post) + k))); [|lia]. destruct (Z.ltb_spec (- Z.of_nat (length post) - 1) 0); [|lia]. destruct (Z.ltb_spec (Z.of_nat (length pre)) 0); [lia|]. replace (Z.of_nat (length (pre ++ post)) + 1 + (- Z.of_nat (length post) - 1)) with (Z.of_nat (length pre)) by (rewrite app_length; lia). reflexivity.
Qed.
(* with fewer, the given axis and those after it are merged as needed *)
Theorem C160_fewer pre mid post : (1 < length mid)%nat -> size pre <> 0 -> size post <> 0 -> let shape := pre ++ mid ++ post in let n := Z.of_nat (length pre + 1 + length post) in
  exists out, to_Nd shape n (Z.of_nat (length pre)) = Some out /\ to_Nd shape n (- Z.of_nat (length post) - 1) = Some out /\ Z.of_nat (length out) = n /\ merged pre mid post out.
Proof.
  intros M P Q. cbv zeta. exists (pre ++ size mid :: post).
  assert (A : to_Nd (pre ++ mid ++ post) (Z.of_nat (length pre + 1 + length post)) (Z.of_nat (length pre)) = Some (pre ++ size mid :: post)).
  { unfold to_Nd. assert (L : length (pre ++ mid ++ post) = (length pre + length mid + length post)%nat) by (rewrite !app_length; lia). rewrite L. destruct (Z.leb_spec (Z.of_nat (length pre + length mid + length post)) (Z.of_nat (length pre + 1 + length post))); [lia|]. destruct (Z.ltb_spec (Z.of_nat (length pre)) 0); [lia|]. rewrite upto_nat by lia. rewrite firstn_pre. replace (Z.of_nat (length pre) + 1 + _ - _) with (Z.of_nat (length (pre ++ mid))) by (rewrite app_length; lia). rewrite from_nat by (rewrite !app_length; lia). rewrite (app_assoc pre mid post) at 2. rewrite skipn_pre. now apply reshape_m1_mid. }
  split; [exact A|]. split; [|split; [rewrite app_length; cbn [length]; lia|apply merged_intro]]. rewrite <- A. unfold to_Nd. destruct (Z.leb_spec (Z.of_nat (length (pre ++ mid ++ post))) (Z.of_nat (length pre + 1 + length post))) as [H|H]; [rewrite !app_length in H; lia|]. destruct (Z.ltb_spec (- Z.of_nat (length post) - 1) 0); [|lia]. destruct (Z.ltb_spec (Z.of_nat (length pre)) 0); [lia|]. replace (Z.of_nat (length pre + 1 + length post) + (- Z.of_nat (length post) - 1)) with (Z.of_nat (length pre)) by lia. reflexivity.
Qed.
Print Assumptions C159_preflat_partial. Print Assumptions C159_postflat_partial. Print Assumptions C159_preflat_negative_refuted. Print Assumptions C159_postflat_negative_refuted. Print Assumptions C160_more. Print Assumptions C160_fewer.
Example C159_ex : preflat [2; 3; 4] 2 = Some [6; 4] /\ postflat [2; 3; 4] 2 = Some [2; 12] /\ preflat [2; 3; 4] (-1) = Some [24] /\ postflat [2; 3; 4] (-1) = Some [2; 3; 4] /\ preflat [2; 0] 1 = None.
Proof. repeat split; reflexivity. Qed.
Example C160_ex : to_Nd [2; 3; 4] 5 1 = Some [2; 1; 1; 3; 4] /\ to_Nd [2; 3; 4] 5 (-1) = Some [2; 3; 4; 1; 1] /\ to_Nd [2; 3; 4] 2 0 = Some [6; 4] /\ to_Nd [2; 3; 4] 2 (-1) = Some [2; 12].
Proof. repeat split; reflexivity. Qed.
