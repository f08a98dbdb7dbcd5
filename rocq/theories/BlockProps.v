(* C25: block_reduce and block_expand along an axis. *)
From Verif Require Import Base BlockSpec BlockModel BlockLemmas.

(* every sample lies in exactly one block, and the blocks follow each other without gaps *)
Theorem C25_blocks_partition : forall n b off, 0 < b -> 0 <= off <= n -> 0 < n ->
  block_lo b off 0 = 0 /\ block_hi n b off (nblock n b off - 1) = n /\
  (forall i, 0 <= i < nblock n b off -> 0 <= block_lo b off i < block_hi n b off i /\ block_hi n b off i <= n) /\
  (forall i, 0 <= i < nblock n b off - 1 -> block_hi n b off i = block_lo b off (i + 1)) /\
  (forall k, 0 <= k < n -> exists! i, 0 <= i < nblock n b off /\ block_lo b off i <= k < block_hi n b off i).
Proof. exact blocks_partition. Qed.
Print Assumptions C25_blocks_partition.

(* the result of block_reduce: op applied to each block, for any op *)
Theorem C25_reduce_partial : forall A (op : list A -> A) a b off, 2 <= b -> 0 <= off <= zlen a -> a <> [] ->
  exists r, block_reduce op a b off true = Some r /\ zlen r = nblock (zlen a) b off /\
    forall i, 0 <= i < nblock (zlen a) b off -> zget r i = Some (op (sub a (block_lo b off i) (block_hi (zlen a) b off i))).
Proof. intros A. exact block_reduce_spec. Qed.
Print Assumptions C25_reduce_partial.

(* the result of block_expand: every sample of block i gets value number i *)
Theorem C25_expand : forall A (zero : A) x b n off, 0 < b -> 0 <= off <= n -> 0 < n -> zlen x = nblock n b off ->
  exists r, block_expand zero x b n off true = Some r /\ zlen r = n /\
    forall i k, 0 <= i < nblock n b off -> block_lo b off i <= k < block_hi n b off i -> zget r k = zget x i.
Proof.
  intros A zero x b n off Hb Ho Hn Hx. destruct (block_expand_spec zero x b n off Hb Ho Hn Hx) as (r & H1 & H2 & H3).
  exists r. split; [exact H1|]. split; [exact H2|]. intros i k Hi Hk. destruct (block_nonempty n b off i Hb Ho Hn Hi) as [A1 A2].
  rewrite H3 by lia. apply (which_block_iff n b off k i) in Hk; [|lia..]. now rewrite Hk.
Qed.
Print Assumptions C25_expand.

(* reduce after expand is the identity for every op that leaves constant blocks alone *)
Theorem C25_reduce_expand_partial : forall A (R : A -> A -> Prop) (op : list A -> A) (zero : A) x b n off,
  (forall v m, (1 <= m)%nat -> R (op (repeat v m)) v) ->
  2 <= b -> 0 <= off <= n -> 0 < n -> zlen x = nblock n b off ->
  exists y z, block_expand zero x b n off true = Some y /\ zlen y = n /\ block_reduce op y b off true = Some z /\ Forall2 R z x.
Proof. intros A. exact reduce_expand. Qed.
Print Assumptions C25_reduce_expand_partial.

(* in particular for the default op, the mean *)
Theorem C25_mean_expand_partial : forall x b n off, 2 <= b -> 0 <= off <= n -> 0 < n -> zlen x = nblock n b off ->
  exists y z, block_expand 0%Q x b n off true = Some y /\ zlen y = n /\ block_reduce qmean y b off true = Some z /\ Forall2 Qeq z x.
Proof. intros. apply reduce_expand; auto using qmean_repeat. Qed.
Print Assumptions C25_mean_expand_partial.

(* inclusive=False: the incomplete blocks are dropped, respectively filled with zeros *)
Theorem C25_reduce_exclusive_partial : forall A (op : list A -> A) a b off, 2 <= b -> 0 <= off -> off + b <= zlen a ->
  exists r, block_reduce op a b off false = Some r /\ zlen r = (zlen a - off) / b /\
    forall i, 0 <= i < (zlen a - off) / b -> zget r i = Some (op (sub a (off + i * b) (off + (i + 1) * b))).
Proof. intros A. exact reduce_noninc. Qed.
Print Assumptions C25_reduce_exclusive_partial.
Theorem C25_expand_exclusive : forall A (zero : A) x b n off, 0 < b -> 0 <= off <= n -> zlen x = (n - off) / b ->
  exists y, block_expand zero x b n off false = Some y /\ zlen y = n /\
    forall k, 0 <= k < n -> zget y k = if (off <=? k) && (k <? off + zlen x * b) then zget x ((k - off) / b) else Some zero.
Proof. intros A. exact expand_noninc. Qed.
Print Assumptions C25_expand_exclusive.
Theorem C25_mean_expand_exclusive_partial : forall x b n off, 2 <= b -> 0 <= off -> off + b <= n -> zlen x = (n - off) / b ->
  exists y z, block_expand 0%Q x b n off false = Some y /\ zlen y = n /\ block_reduce qmean y b off false = Some z /\ Forall2 Qeq z x.
Proof. intros. apply reduce_expand_noninc; auto using qmean_repeat. Qed.
Print Assumptions C25_mean_expand_exclusive_partial.

Example C25_ex : block_expand 0%Q [1; 2; 3]%Q 3 7 2 true = Some [1; 1; 2; 2; 2; 3; 3]%Q /\
  option_map (map Qred) (block_reduce qmean [1; 3; 2; 4; 9; 3; 6]%Q 3 2 true) = Some [2; 5; 9 # 2]%Q /\
  option_map (map Qred) (block_reduce qmean [1; 3; 2; 4; 9; 3; 6]%Q 3 2 false) = Some [5]%Q.
Proof. repeat split; reflexivity. Qed.

(* The property has no guard on the block size and offset, and fails outside 2 <= bsize, 0 <= off <= n:
   a block size of 1 ignores the offset, an offset past the end counts samples twice, and with
   inclusive=False an array with no whole block is an error instead of an empty result. *)
Theorem C25_unguarded_refuted :
  (exists x off n, zlen x = nblock n 1 off /\ exists y z, block_expand 0%Q x 1 n off true = Some y /\ zlen y = n /\
     block_reduce qmean y 1 off true = Some z /\ zlen z <> zlen x) /\
  (exists (a : list Z) b off, 2 <= b /\ exists r, block_reduce zsum a b off true = Some r /\ zsum r <> zsum a) /\
  (exists (a : list Q) b, 2 <= b /\ a <> [] /\ block_reduce qmean a b 0 false = None).
Proof.
  split; [|split].
  - exists [1; 2; 3]%Q, 2, 4. split; [reflexivity|]. exists [1; 1; 2; 3]%Q, [1; 1; 2; 3]%Q. repeat split; discriminate.
  - exists [1; 2; 3], 4, 5. split; [lia|]. exists [6; 5]. split; [reflexivity|discriminate].
  - exists [1%Q], 2. repeat split; try lia; discriminate.
Qed.
Print Assumptions C25_unguarded_refuted.
