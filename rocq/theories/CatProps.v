(* C31: concatenation, gathering and multimaps. *)
From Verif Require Import Base CatSpec CatModel CatLemmas WindModel BlockModel RangeModel RangeLemmas.

(* uncat undoes a concatenation *)
Theorem C31_uncat : forall (A : Type) (b : list (list A)), uncat (concat b) (map zlen b) = b.
Proof. intros. apply uncat_concat. Qed.
Print Assumptions C31_uncat.
(* and concatenating what it returns gives the original, cut at the lengths asked for *)
Theorem C31_uncat_lens : forall (A : Type) (a : list A) lens, Forall (fun x => 0 <= x) lens -> zsum lens = zlen a ->
  concat (uncat a lens) = a /\ map zlen (uncat a lens) = lens.
Proof. intros A a lens H E. destruct (split_exists lens a H E) as (b & -> & ->). rewrite uncat_concat. auto. Qed.
Print Assumptions C31_uncat_lens.

(* Every rank of allgatherv gets all ranks' arrays stacked in rank order. Ranks with nothing to
   contribute may have any shape of length 0 along the gather axis. *)
Theorem C31_allgatherv : forall (A : Type) (zero : A) arrs inner rank,
  Forall arr_ok arrs -> Forall (fun a => ar_inner a = inner \/ ar_lead a = 0) arrs ->
  (exists a, In a arrs /\ ar_size a <> 0) -> (rank < length arrs)%nat ->
  allgatherv zero arrs rank = Some (stacked inner arrs).
Proof.
  intros A zero arrs inner rank Hok Hin (a & Ha & Hs) Hr. rewrite Forall_forall in Hok, Hin. unfold allgatherv.
  destruct (filter (fun a => negb (ar_size a =? 0)) arrs) as [|first l] eqn:F.
  - exfalso. assert (In a (filter (fun a => negb (ar_size a =? 0)) arrs)) as X by (apply filter_In; split; [exact Ha|]; apply negb_true_iff, Z.eqb_neq; exact Hs). rewrite F in X. destruct X.
  - assert (In first (first :: l)) as X by now left. rewrite <- F in X. apply filter_In in X as [X1 X2]. apply negb_true_iff, Z.eqb_neq in X2.
    assert (EI : ar_inner first = inner). { destruct (Hin first X1) as [E|E]; [exact E|]. unfold ar_size in X2. rewrite E in X2. lia. }
    assert (PN : 0 < zprod inner). { destruct (Hok first X1) as (L1 & L2 & _). unfold ar_size in X2. rewrite EI in *. pose proof (zprod_nonneg _ L2). nia. }
    rewrite EI. rewrite (proj2 (forallb_forall _ _)).
    2:{ intros x Hx. apply Z.eqb_eq. unfold ar_size. destruct (Hin x Hx) as [E|E]; rewrite E; ring. }
    assert (EL : map (fun a => if 0 <? ar_size a then ar_lead a else 0) arrs = map ar_lead arrs).
    { apply map_ext_in. intros x Hx. destruct (Z.ltb_spec 0 (ar_size x)) as [Q|Q]; [reflexivity|]. destruct (Hin x Hx) as [E|E]; [|lia]. destruct (Hok x Hx) as (L1 & _). unfold ar_size in Q. rewrite E in Q. nia. }
    rewrite EL. unfold stacked. f_equal. f_equal.
    assert (ZL : map (fun a => ar_lead a * zprod inner) arrs = map zlen (map ar_data arrs)).
    { rewrite map_map. apply map_ext_in. intros x Hx. destruct (Hok x Hx) as (_ & _ & ->). unfold ar_size. destruct (Hin x Hx) as [E|E]; rewrite E; ring. }
    assert (SC : forall c l, removelast (cumsum_end (map (fun x => x * c) l)) = map (fun x => x * c) (removelast (cumsum_end l))).
    { clear. intros c l. assert (RM : forall (f : Z -> Z) l, removelast (map f l) = map f (removelast l)) by (clear; intros f l; induction l as [|x [|y l0] IH]; cbn in *; try reflexivity; now rewrite IH).
      rewrite <- RM. f_equal. unfold cumsum_end, cumsum. cbn. f_equal. assert (G : forall l a, cumsum_from (a * c) (map (fun x => x * c) l) = map (fun x => x * c) (cumsum_from a l)) by (clear; intros l; induction l as [|x l IH]; intros a; cbn; [reflexivity|]; rewrite <- IH; f_equal; [ring|f_equal; ring]).
      rewrite <- (G l 0). reflexivity. }
    rewrite <- SC. rewrite map_map. rewrite ZL.
    rewrite <- (map_id (removelast _)). rewrite <- (map_ext (fun x => zlen (@nil A) + x)) by (intros; reflexivity).
    rewrite <- (app_nil_l (repeat _ _)). rewrite mpi_spec; [reflexivity|].
    rewrite zlen_concat, <- ZL. unfold zlen. rewrite repeat_length, Z2Nat.id; [|].
    + clear. induction arrs as [|x arrs IH]; cbn; [reflexivity|]. rewrite <- IH. ring.
    + assert (0 <= zsum (map ar_lead arrs)); [|nia]. apply zsum_nonneg. apply Forall_forall. intros n Hn. apply in_map_iff in Hn as (x & <- & Hx). apply Hok, Hx.
Qed.
Print Assumptions C31_allgatherv.

(* When no rank has any entries, each simply keeps its own array: the result is then not the stack,
   and differs between ranks *)
Theorem C31_allgatherv_empty_refuted : exists (arrs : list (arr Z)), Forall arr_ok arrs /\ Forall (fun a => ar_inner a = [0]) arrs /\
  allgatherv 0 arrs 0 <> allgatherv 0 arrs 1 /\ ar_lead (stacked [0] arrs) = 5.
Proof.
  exists [Arr 2 [0] []; Arr 3 [0] []]. split; [repeat constructor; cbn; lia|]. split; [repeat constructor|]. split; [discriminate|reflexivity].
Qed.
Print Assumptions C31_allgatherv_empty_refuted.

(* A multimap can be made of any maps with the same pre-dimensions, and its i-th map is the i-th
   map it was made from *)
Theorem C31_multimap_partial : forall (A : Type) (maps : list (pmap A)) npre, maps <> [] -> Forall (pmap_ok npre) maps ->
  exists mm, multimap maps = Some mm /\ forall i m, zget maps i = Some m -> mm_get mm i = Some m.
Proof. intros A maps npre Hne Hok. exists (mm_of npre maps). split; [apply multimap_eq; assumption|]. intros i m H. apply mm_get_spec; assumption. Qed.
Print Assumptions C31_multimap_partial.

(* Assigning to its i-th map replaces that map and no other *)
Theorem C31_multimap_set : forall (A : Type) (maps : list (pmap A)) npre mm i m val, Forall (pmap_ok npre) maps -> multimap maps = Some mm ->
  zget maps i = Some m -> pmap_ok npre (PM (pm_ny m) (pm_nx m) val) ->
  exists mm', mm_set mm i val = Some mm' /\ mm_get mm' i = Some (PM (pm_ny m) (pm_nx m) val) /\
  forall j mj, j <> i -> zget maps j = Some mj -> mm_get mm' j = Some mj.
Proof.
  intros A maps npre mm i m val Hok Hmm H (_ & _ & V1 & V2). cbn in V1, V2. assert (Hne : maps <> []) by (intros ->; discriminate).
  rewrite (multimap_eq npre maps Hok Hne) in Hmm. apply Some_inj in Hmm. subst mm. rewrite (mm_set_spec npre maps i m val Hok H V1 V2). eexists. split; [reflexivity|].
  pose proof (zget_Some_range _ _ _ H) as R. assert (Hm : In m maps) by (apply zget_In in H; exact H).
  assert (Hok' : Forall (pmap_ok npre) (upd maps (Z.to_nat i) (PM (pm_ny m) (pm_nx m) val))).
  { apply Forall_forall. intros x Hx. apply In_zget in Hx as (k & Hk). pose proof (zget_Some_range _ _ _ Hk) as Rk. rewrite FindLemmas.zget_upd in Hk by (unfold zlen in R; lia). rewrite Forall_forall in Hok. destruct (k =? Z.of_nat (Z.to_nat i)); [|apply Hok; apply zget_In in Hk; exact Hk]. apply Some_inj in Hk. subst x. destruct (Hok m Hm) as (P1 & P2 & _). split; [exact P1|]. split; [exact P2|]. auto. }
  split.
  - apply mm_get_spec; [exact Hok'|]. rewrite FindLemmas.zget_upd by (unfold zlen in R; lia). rewrite Z2Nat.id, Z.eqb_refl by lia. reflexivity.
  - intros j mj Hj Hg. apply mm_get_spec; [exact Hok'|]. rewrite FindLemmas.zget_upd by (unfold zlen in R; lia). rewrite Z2Nat.id by lia. destruct (Z.eqb_spec j i); [contradiction|exact Hg].
Qed.
Print Assumptions C31_multimap_set.

(* Negative indices do not count from the end: maps[-1] fails and maps[-2] gives the last map's pixels *)
Theorem C31_multimap_negative_refuted : exists (maps : list (pmap Z)) mm, Forall (pmap_ok 1) maps /\ multimap maps = Some mm /\
  pyget maps (-1) = Some (PM 1 2 [[3; 4]]) /\ mm_get mm (-1) = None /\
  pyget maps (-2) = Some (PM 2 1 [[1; 2]]) /\ mm_get mm (-2) = Some (PM 2 1 [[3; 4]]).
Proof.
  exists [PM 2 1 [[1; 2]]; PM 1 2 [[3; 4]]]. eexists. split; [repeat constructor; cbn; lia|]. split; [vm_compute; reflexivity|]. repeat split; vm_compute; reflexivity.
Qed.
Print Assumptions C31_multimap_negative_refuted.

Example C31_example_uncat : uncat [1; 2; 3; 4] [2; 0; 2] = [[1; 2]; []; [3; 4]].
Proof. vm_compute. reflexivity. Qed.
(* the documented example, with an empty third rank *)
Example C31_example_gather : allgatherv 0 [Arr 1 [2] [1; 2]; Arr 2 [2] [3; 4; 5; 6]; Arr 0 [] []] 2 = Some (Arr 3 [2] [1; 2; 3; 4; 5; 6]).
Proof. vm_compute. reflexivity. Qed.
Example C31_example_maps : exists mm, multimap [PM 2 1 [[1; 2]; [5; 6]]; PM 1 1 [[3]; [7]]] = Some mm /\ mm_get mm 1 = Some (PM 1 1 [[3]; [7]]) /\ mm_get mm 2 = None.
Proof. eexists. split; [vm_compute; reflexivity|]. split; vm_compute; reflexivity. Qed.
