From Verif Require Import Base SliceSpec ArrModel.

Lemma sl_start a b n : 0 <= a <= n -> py_start (sl a b) n = a.
Proof. intros H. unfold py_start, sl, py_adjust, py_step. cbn [ps_start ps_step]. destruct (a <? 0) eqn:E; [lia|]. destruct (n <=? a) eqn:E2; [cbn; lia|reflexivity]. Qed.
Lemma sl_stop a b n : 0 <= b <= n -> py_stop (sl a b) n = b.
Proof. intros H. unfold py_stop, sl, py_adjust, py_step. cbn [ps_stop ps_step]. destruct (b <? 0) eqn:E; [lia|]. destruct (n <=? b) eqn:E2; [cbn; lia|reflexivity]. Qed.
Lemma sl_step a b : py_step (sl a b) = 1. Proof. reflexivity. Qed.
Lemma len1 s n : py_step s = 1 -> py_len s n = Z.max 0 (py_stop s n - py_start s n).
Proof. intros H. unfold py_len. rewrite H. cbn [Z.ltb Z.compare]. destruct (py_start s n <? py_stop s n) eqn:E; [rewrite Z.div_1_r; lia|lia]. Qed.
Lemma sl_len a b n : 0 <= a -> a <= b -> b <= n -> py_len (sl a b) n = b - a.
Proof. intros. rewrite len1 by reflexivity. rewrite sl_start, sl_stop by lia. lia. Qed.
(* step 1, any start *)
Lemma sl_find_step1 s n k : py_step s = 1 -> sl_find s n k = if (py_start s n <=? k) && (k <? py_start s n + py_len s n) then Some (k - py_start s n) else None.
Proof.
  intros H. unfold sl_find. rewrite H, Z.div_1_r. destruct ((py_start s n <=? k) && (k <? py_start s n + py_len s n)) eqn:E.
  - destruct ((py_start s n + 1 * (k - py_start s n) =? k) && (0 <=? k - py_start s n) && (k - py_start s n <? py_len s n)) eqn:E2; [reflexivity|lia].
  - destruct ((py_start s n + 1 * (k - py_start s n) =? k) && (0 <=? k - py_start s n) && (k - py_start s n <? py_len s n)) eqn:E2; [lia|reflexivity].
Qed.
Lemma sl_find_in a b n k : 0 <= a -> a <= b -> b <= n -> sl_find (sl a b) n k = if (a <=? k) && (k <? b) then Some (k - a) else None.
Proof. intros. rewrite sl_find_step1 by reflexivity. rewrite sl_start, sl_len by lia. replace (a + (b - a)) with b by lia. reflexivity. Qed.
Lemma sl_at_in a b n j : 0 <= a <= n -> sl_at (sl a b) n j = a + j.
Proof. intros. unfold sl_at. rewrite sl_start, sl_step by lia. lia. Qed.

Lemma arr_eq_refl {A} (a : farr A) : arr_eq a a.
Proof. repeat split. Qed.
