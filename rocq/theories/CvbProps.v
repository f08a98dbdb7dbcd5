(* C121: all combinations. *)
From Coq Require Import ZArith List Lia.
From Verif Require Import Base PrmModel.
Import ListNotations.
Local Open Scope Z_scope.
Ltac Zify.zify_post_hook ::= idtac.

(* all lists with the k-th entry below the k-th base, the last entry counting fastest *)
Fixpoint all_digits (bases : list Z) : list (list Z) :=
  match bases with
  | [] => [[]]
  | b :: bs => flat_map (fun d => map (fun l => Z.of_nat d :: l) (all_digits bs)) (seq 0 (Z.to_nat b))
  end.
(* one entry from each list *)
Fixpoint all_choices {A} (ls : list (list A)) : list (list A) :=
  match ls with [] => [[]] | l :: ls' => flat_map (fun x => map (cons x) (all_choices ls')) l end.

Definition zeros (n : nat) : list Z := repeat 0 n.
Lemma increment_snoc bs : forall ds b d, length bs = length ds ->
  increment (bs ++ [b]) (ds ++ [d]) = match increment bs ds with Some r => Some (r ++ [d]) | None => if d + 1 <? b then Some (zeros (length ds) ++ [d + 1]) else None end.
Proof.
  induction bs as [|b0 bs IH]; intros [|d0 ds] b d L; try discriminate; cbn.
  - destruct (d + 1 <? b); reflexivity.
  - destruct (d0 + 1 <? b0); [reflexivity|]. rewrite IH by (cbn in L; lia). destruct (increment bs ds); [reflexivity|]. destruct (d + 1 <? b); reflexivity.
Qed.
Definition incr (bs ds : list Z) : option (list Z) := option_map (@rev Z) (increment (rev bs) (rev ds)).
Lemma rev_zeros n : rev (zeros n) = zeros n.
Proof.
  unfold zeros. induction n as [|n IH]; [reflexivity|]. cbn [repeat rev]. rewrite IH. rewrite <- repeat_cons. reflexivity.
Qed.
Lemma incr_cons b bs d ds : length bs = length ds ->
  incr (b :: bs) (d :: ds) = match incr bs ds with Some r => Some (d :: r) | None => if d + 1 <? b then Some ((d + 1) :: zeros (length ds)) else None end.
Proof.
  intros L. unfold incr. cbn [rev]. rewrite increment_snoc by (rewrite !rev_length; exact L). destruct (increment (rev bs) (rev ds)) as [r|]; cbn [option_map].
  - rewrite rev_app_distr. reflexivity.
  - destruct (d + 1 <? b); [|reflexivity]. cbn [option_map]. rewrite rev_app_distr, rev_length, rev_zeros. reflexivity.
Qed.
Inductive chain (bs : list Z) : list (list Z) -> Prop :=
| chain_one ds : length bs = length ds -> incr bs ds = None -> chain bs [ds]
| chain_more ds ds' l : length bs = length ds -> incr bs ds = Some ds' -> chain bs (ds' :: l) -> chain bs (ds :: ds' :: l).
Lemma chain_last b bs d L : chain bs L -> b <= d + 1 -> chain (b :: bs) (map (cons d) L).
Proof.
  intros C H. induction C as [ds Hl E|ds ds' l Hl E C IH]; cbn [map].
  - constructor; [cbn; lia|]. rewrite incr_cons, E by exact Hl. destruct (Z.ltb_spec (d + 1) b); [lia|reflexivity].
  - constructor; [cbn; lia|rewrite incr_cons, E by exact Hl; reflexivity|]. exact IH.
Qed.
Lemma chain_step b bs d L R : chain bs L -> d + 1 < b -> chain (b :: bs) (((d + 1) :: zeros (length bs)) :: R) -> chain (b :: bs) (map (cons d) L ++ ((d + 1) :: zeros (length bs)) :: R).
Proof.
  intros C H K. induction C as [ds Hl E|ds ds' l Hl E C IH]; cbn [map app].
  - constructor; [cbn; lia| |exact K]. rewrite incr_cons, E by exact Hl. destruct (Z.ltb_spec (d + 1) b); [|lia]. rewrite Hl. reflexivity.
  - constructor; [cbn; lia|rewrite incr_cons, E by exact Hl; reflexivity|]. exact IH.
Qed.
Lemma all_digits_chain bs : Forall (fun b => 1 <= b) bs -> exists l, all_digits bs = zeros (length bs) :: l /\ chain bs (all_digits bs).
Proof.
  induction 1 as [|b bs Hb _ IH].
  - exists []. split; [reflexivity|]. constructor; reflexivity.
  - destruct IH as (l & E & C). cbn [all_digits].
    assert (X : forall k s, (0 < k)%nat -> Z.of_nat (s + k) = b ->
      exists l', flat_map (fun d => map (fun l => Z.of_nat d :: l) (all_digits bs)) (seq s k) = (Z.of_nat s :: zeros (length bs)) :: l' /\
        chain (b :: bs) (flat_map (fun d => map (fun l => Z.of_nat d :: l) (all_digits bs)) (seq s k))).
    { induction k as [|k IHk]; intros s Hk Hs; [lia|]. cbn [seq flat_map]. destruct k as [|k].
      - cbn [seq flat_map]. rewrite app_nil_r. exists (map (fun l => Z.of_nat s :: l) l). split; [rewrite E; reflexivity|]. apply chain_last; [exact C|lia].
      - destruct (IHk (S s) ltac:(lia) ltac:(lia)) as (l' & El & Cl). rewrite El. rewrite El in Cl. replace (Z.of_nat (S s)) with (Z.of_nat s + 1) in * by lia.
        exists (map (fun l => Z.of_nat s :: l) l ++ (Z.of_nat s + 1 :: zeros (length bs)) :: l'). split; [rewrite E; reflexivity|]. apply chain_step; [exact C|lia|exact Cl]. }
    destruct (X (Z.to_nat b) O ltac:(lia) ltac:(lia)) as (l' & El & Cl). exists l'. split; [exact El|exact Cl].
Qed.
Lemma cloop_chain bs L : chain bs L -> forall fuel ds l, L = ds :: l -> (length l <= fuel)%nat -> cloop fuel bs ds = l.
Proof.
  intros C. induction C as [ds0 Hl E|ds0 ds' l0 Hl E C IH]; intros fuel ds l EL Hf; injection EL as <- <-.
  - destruct fuel; [reflexivity|]. cbn [cloop]. unfold incr in E. destruct (increment (rev bs) (rev ds0)); [discriminate|reflexivity].
  - destruct fuel as [|f]; [cbn in Hf; lia|]. cbn [cloop]. unfold incr in E. destruct (increment (rev bs) (rev ds0)) as [r|]; [|discriminate]. cbn in E. injection E as E. rewrite E. f_equal.
    apply IH; [reflexivity|]. cbn in Hf. lia.
Qed.
Lemma all_digits_length bs : Forall (fun b => 1 <= b) bs -> Z.of_nat (length (all_digits bs)) = fold_right Z.mul 1 (map (Z.max 1) bs).
Proof.
  induction 1 as [|b bs Hb _ IH]; [reflexivity|]. cbn [all_digits map fold_right]. rewrite Z.max_r by exact Hb. rewrite <- IH.
  assert (X : forall k s, length (flat_map (fun d => map (fun l => Z.of_nat d :: l) (all_digits bs)) (seq s k)) = (k * length (all_digits bs))%nat).
  { induction k as [|k IHk]; intros s; [reflexivity|]. cbn [seq flat_map]. rewrite app_length, map_length, IHk. reflexivity. }
  rewrite X, Nat2Z.inj_mul. lia.
Qed.
Theorem C121_digits bases : Forall (fun b => 1 <= b) bases -> count_variable_basis bases = all_digits bases.
Proof.
  intros H. destruct (all_digits_chain bases H) as (l & E & C). unfold count_variable_basis. fold (zeros (length bases)). rewrite E. f_equal. rewrite E in C.
  apply (cloop_chain bases _ C); [reflexivity|]. pose proof (all_digits_length bases H) as L. rewrite E in L. cbn in L. lia.
Qed.
(* what all_digits has: every list of digits, once, in ascending order of the first difference *)
Theorem C121_all_digits bases :
  (forall l, In l (all_digits bases) <-> Forall2 (fun b d => 0 <= d < b) bases l) /\ NoDup (all_digits bases).
Proof.
  split.
  - induction bases as [|b bs IH]; intros l; cbn.
    + split; [intros [<-|[]]; constructor|]. intros H. inversion H. left. reflexivity.
    + rewrite in_flat_map. split.
      * intros (d & Hd & H). apply in_seq in Hd. apply in_map_iff in H. destruct H as (r & <- & Hr). constructor; [lia|]. apply IH. exact Hr.
      * intros H. inversion H as [|? d ? r Hd Hr]; subst. exists (Z.to_nat d). split; [apply in_seq; lia|]. apply in_map_iff. exists r. split; [rewrite Z2Nat.id by lia; reflexivity|]. apply IH. exact Hr.
  - induction bases as [|b bs IH]; cbn; [repeat constructor; intros []|].
    assert (X : forall k s, NoDup (flat_map (fun d => map (fun l => Z.of_nat d :: l) (all_digits bs)) (seq s k))).
    { induction k as [|k IHk]; intros s; cbn; [constructor|].
      assert (Y : forall A (l m : list A), NoDup l -> NoDup m -> (forall x, In x l -> In x m -> False) -> NoDup (l ++ m)).
      { intros A l m Nl Nm D. induction Nl as [|x l Hx Nl IHl]; [exact Nm|]. cbn. constructor.
        - intros I. apply in_app_iff in I. destruct I as [I|I]; [contradiction|]. apply (D x); [left; reflexivity|exact I].
        - apply IHl. intros y Hy. apply D. right. exact Hy. }
      apply Y.
      - apply FinFun.Injective_map_NoDup; [|exact IH]. intros p q E. injection E as E. exact E.
      - apply IHk.
      - intros x Hx Hm. apply in_map_iff in Hx. destruct Hx as (r & <- & _). apply in_flat_map in Hm. destruct Hm as (d & Hd & Hm). apply in_seq in Hd. apply in_map_iff in Hm. destruct Hm as (r' & E & _).
        injection E as E _. lia. }
    apply X.
Qed.
Lemma skipn_tl {A} s (v : list A) : skipn (S s) v = tl (skipn s v).
Proof. revert v. induction s as [|s IH]; intros [|x v]; try reflexivity. cbn [skipn] in *. apply IH. Qed.
Lemma pick_map {A} (ls : list (list A)) : map (pick ls) (all_digits (map (fun v => zlen v) ls)) = map Some (all_choices ls).
Proof.
  induction ls as [|v ls IH]; [reflexivity|]. cbn [map all_digits all_choices]. set (D := all_digits (map (fun v => zlen v) ls)) in *.
  assert (X : forall w s, skipn s v = w -> map (pick (v :: ls)) (flat_map (fun d => map (fun l => Z.of_nat d :: l) D) (seq s (length w))) = map Some (flat_map (fun x => map (cons x) (all_choices ls)) w)).
  { induction w as [|x w IHw]; intros s E; [reflexivity|]. cbn [length seq flat_map]. rewrite !map_app. f_equal.
    - assert (Hx : zget v (Z.of_nat s) = Some x).
      { rewrite <- (firstn_skipn s v), E. unfold zget. destruct (Z.ltb_spec (Z.of_nat s) 0); [lia|]. rewrite Nat2Z.id. assert (length (firstn s v) = s).
        { rewrite firstn_length. assert (s < length v)%nat; [|lia]. assert (length (skipn s v) = length (x :: w)) by (rewrite E; reflexivity). rewrite skipn_length in H0. cbn in H0. lia. }
        rewrite nth_error_app2 by lia. rewrite H0, Nat.sub_diag. reflexivity. }
      assert (M : map (pick (v :: ls)) (map (fun l => Z.of_nat s :: l) D) = map (option_map (cons x)) (map (pick ls) D)).
      { rewrite !map_map. apply map_ext. intros l. cbn [pick]. rewrite Hx. destruct (pick ls l); reflexivity. }
      rewrite M, IH. rewrite !map_map. reflexivity.
    - apply IHw. rewrite skipn_tl, E. reflexivity. }
  specialize (X v O eq_refl). unfold zlen at 1. rewrite Nat2Z.id. exact X.
Qed.
(* every choice of one value from each list, if none is empty *)
Theorem C121_choices {A} (ilist : list (list A)) : Forall (fun v => v <> []) ilist -> list_combination_iter ilist = map Some (all_choices ilist).
Proof.
  intros H. unfold list_combination_iter. rewrite C121_digits; [apply pick_map|]. induction H as [|v l Hv _ IH]; cbn; constructor; [|exact IH]. destruct v; [contradiction|]. unfold zlen. cbn. lia.
Qed.
Theorem C121_all_choices {A} (ls : list (list A)) l : In l (all_choices ls) <-> Forall2 (fun v x => In x v) ls l.
Proof.
  revert l. induction ls as [|v ls IH]; intros l; cbn.
  - split; [intros [<-|[]]; constructor|]. intros H. inversion H. left. reflexivity.
  - rewrite in_flat_map. split.
    + intros (x & Hx & H). apply in_map_iff in H. destruct H as (r & <- & Hr). constructor; [exact Hx|apply IH; exact Hr].
    + intros H. inversion H as [|? x ? r Hx Hr]; subst. exists x. split; [exact Hx|]. apply in_map_iff. exists r. split; [reflexivity|apply IH; exact Hr].
Qed.
(* with an empty list there is nothing to choose, but an index out of range comes first *)
Theorem C121_empty_refuted {A} (l1 l2 : list (list A)) : all_choices (l1 ++ [] :: l2) = [] /\ exists r, list_combination_iter (l1 ++ [] :: l2) = None :: r.
Proof.
  split.
  - induction l1 as [|v l1 IH]; [reflexivity|]. cbn [app all_choices]. rewrite IH. cbn [map]. induction v as [|x v IHv]; [reflexivity|exact IHv].
  - unfold list_combination_iter, count_variable_basis. cbn [map]. eexists. f_equal.
    assert (X : forall l1 : list (list A), pick (l1 ++ [] :: l2) (repeat 0 (length (map (fun v => zlen v) (l1 ++ [] :: l2)))) = None).
    { clear l1. induction l1 as [|v l1 IH]; [reflexivity|]. cbn [app map length repeat pick]. rewrite IH. destruct (zget v 0); reflexivity. }
    apply X.
Qed.
(* the digits must be used before the next are asked for: the list is the same every time *)
Theorem C121_collected_refuted : count_variable_basis [2; 2] = [[0; 0]; [0; 1]; [1; 0]; [1; 1]] /\ collected [2; 2] = [[0; 0]; [0; 0]; [0; 0]; [0; 0]].
Proof. split; reflexivity. Qed.
Example C121_ex : count_variable_basis [2; 3] = [[0; 0]; [0; 1]; [0; 2]; [1; 0]; [1; 1]; [1; 2]] /\ list_combination_iter [[5; 6]; [7]] = [Some [5; 7]; Some [6; 7]].
Proof. split; reflexivity. Qed.
Print Assumptions C121_digits.
Print Assumptions C121_choices.
