(* C21: work splitting. *)
From Verif Require Import Base SplitSpec SplitModel SplitLemmas.

Lemma good_split_ok w n g : good_split w n g -> is_partition (length w) n g /\ is_balanced w g.
Proof. intros (A & B & C). split; [split; assumption|]. intros W HW HF. exact (C W HF HW). Qed.

(* equal_split, for every order argsort may produce *)
Theorem C21_equal_split : forall w n order, (0 < n)%nat -> Permutation order (seq 0 (length w)) ->
  exists groups, equal_split w n order = Some groups /\ is_partition (length w) n groups /\ is_balanced w groups.
Proof.
  intros w n order Hn HP. destruct (equal_split_spec w n order Hn HP) as (g & E & G). exists g. split; [exact E|].
  now apply good_split_ok.
Qed.
Print Assumptions C21_equal_split.

Example C21_equal_split_ex : Permutation [3; 1; 2; 0]%nat (seq 0 4) /\
  equal_split [1; 4; 2; 5]%Q 2 [3; 1; 2; 0]%nat = Some [[3; 0]; [1; 2]]%nat.
Proof. split; [|reflexivity]. apply NoDup_Permutation; [repeat constructor; cbn; intuition lia|apply seq_NoDup|cbn; intuition lia]. Qed.

Theorem C21_greedy_split_simple : forall w n order, (0 < n)%nat -> Permutation order (seq 0 (length w)) ->
  exists groups, greedy_split_simple w n order = Some groups /\ is_partition (length w) n groups /\ is_balanced w groups.
Proof.
  intros w n order Hn HP. destruct (greedy_split_simple_spec w n order Hn HP) as (g & E & G). exists g. split; [exact E|].
  now apply good_split_ok.
Qed.
Print Assumptions C21_greedy_split_simple.

Example C21_simple_ex : greedy_split_simple [1; 4; 2; 5; 3]%Q 3 [3; 1; 4; 2; 0]%nat = Some [[3]; [1; 0]; [4; 2]]%nat.
Proof. reflexivity. Qed.

(* greedy_split with any cost and work functions: whenever it returns, it returns a partition, the
   work list is the work of each group, and the cost is the cost of that work list *)
Theorem C21_greedy_split_partition : forall (D W : Type) (costfun : list W -> option Q) (workfun : W -> D -> option W) (nowork : W)
  (data : list D) (n : nat) (order : list nat) groups cost work,
  Permutation order (seq 0 (length data)) ->
  greedy_split costfun workfun nowork data n order = Some (groups, cost, work) ->
  is_partition (length data) n groups /\ length work = n /\
  (forall j, (j < n)%nat -> work_of workfun data nowork (nth j groups []) = Some (nth j work nowork)) /\
  costfun work = Some cost.
Proof.
  intros D W costfun workfun nowork data n order groups cost work HP H.
  pose proof (greedy_split_partition _ _ _ _ _ _ _ HP H) as (A & B & C & E & F).
  split; [split; assumption|]. split; [exact C|]. split; [exact E|exact F].
Qed.
Print Assumptions C21_greedy_split_partition.

(* with sums of weights as work and their maximum as cost it always returns, and is balanced *)
Theorem C21_greedy_split_max : forall data n order, (0 < n)%nat -> Permutation order (seq 0 (length data)) ->
  exists groups cost work, greedy_split_max data n order = Some (groups, cost, work) /\
    is_partition (length data) n groups /\ is_balanced data groups.
Proof.
  intros data n order Hn HP. destruct (greedy_split_max_spec data n order Hn HP) as (g & c & w & E & G).
  exists g, c, w. split; [exact E|]. now apply good_split_ok.
Qed.
Print Assumptions C21_greedy_split_max.

Example C21_greedy_ex : exists g c w, greedy_split_max [1; 4; 2; 5; 3]%Q 3 [3; 1; 4; 2; 0]%nat = Some (g, c, w) /\ g = [[3]; [1; 0]; [4; 2]]%nat.
Proof. eexists _, _, _. split; reflexivity. Qed.

(* called with its default functions, greedy_split raises for every input as soon as there are two groups *)
Theorem C21_greedy_split_default_refuted : forall data n order, (2 <= n)%nat -> greedy_split_default data n order = None.
Proof. exact greedy_default_fails. Qed.
Print Assumptions C21_greedy_split_default_refuted.
