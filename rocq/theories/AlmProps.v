From Coq Require Import ZArith List Lia Reals Lra Permutation.
From Verif Require Import Base RangeModel RangeLemmas FindLemmas AlmSpec AlmModel AlmLemmas.
Import ListNotations.
Local Open Scope Z_scope.
Ltac Zify.zify_post_hook ::= idtac.
Local Notation C := (R * R)%type.

(* the layout object a gives coefficient (l,m) of an n-element array the position at_ l m *)
Definition describes (a : ainfo) (n : Z) (at_ : Z -> Z -> Z) : Prop :=
  0 <= ai_mmax a /\ 0 <= ai_lmax a /\ layout_ok (ai_lmax a) (ai_mmax a) n at_ /\
  forall l m, valid (ai_lmax a) (ai_mmax a) l m -> lm2ind a l m = Some (at_ l m).

(* ================= C41 ================= *)
Theorem C41_triangular lmax mmax stride : 0 <= mmax <= lmax -> 1 <= stride ->
  exists a at_, alm_info (Some lmax) (Some mmax) None stride Tri = Some a /\ ai_lmax a = lmax /\ ai_mmax a = mmax /\ ai_stride a = stride /\
    describes a (ai_nelem a) at_ /\
    (forall i, 0 <= i < ai_nelem a -> (stride | i) -> exists l m, valid lmax mmax l m /\ at_ l m = i) /\
    2 * ai_nelem a = stride * ((mmax + 1) * (2 * lmax + 2 - mmax)).
Proof.
  intros H1 H2. exists (tri_info lmax mmax stride), (fun l m => stride * (tri lmax m + l)). rewrite alm_info_tri by lia.
  split; [reflexivity|]. do 3 (split; [reflexivity|]). split; [split; [cbn; lia|split; [cbn; lia|split; [apply tri_layout; lia|intros; apply tri_lm2ind; assumption]]]|]. split.
  - intros i Hi (k & ->). cbn [ai_nelem tri_info] in Hi. destruct (tri_cover lmax mmax k H1) as (l & m & V & E); [nia|]. exists l, m. split; [exact V|]. rewrite E. ring.
  - cbn [ai_nelem tri_info]. pose proof (tri_2 lmax mmax) as T. nia.
Qed.
Theorem C41_rectangular lmax mmax stride : 0 <= mmax -> 0 <= lmax -> 1 <= stride ->
  exists a at_, alm_info (Some lmax) (Some mmax) None stride Rect = Some a /\ ai_lmax a = lmax /\ ai_mmax a = mmax /\ ai_stride a = stride /\
    describes a (ai_nelem a) at_ /\ ai_nelem a = stride * ((mmax + 1) * (lmax + 1)).
Proof.
  intros H1 H0 H2. exists (rect_info lmax mmax stride), (fun l m => stride * (m * (lmax + 1) + l)). rewrite alm_info_rect by lia.
  split; [reflexivity|]. do 3 (split; [reflexivity|]). split; [split; [cbn; lia|split; [cbn; lia|split; [apply rect_layout; lia|intros; apply rect_lm2ind; assumption]]]|]. reflexivity.
Qed.
(* the number of coefficients determines lmax, and a count that fits no lmax is refused *)
Theorem C41_lmax_recovered n a : alm_info None None (Some n) 1 Tri = Some a <->
  (exists L, 0 <= L /\ 2 * n = (L + 1) * (L + 2) /\ alm_info (Some L) (Some L) None 1 Tri = Some a /\ ai_lmax a = L /\ ai_nelem a = n).
Proof.
  split.
  - intros E. destruct (nalm2lmax n) as [L|] eqn:EL; [|unfold alm_info in E; rewrite EL in E; discriminate].
    assert (E2 : alm_info (Some L) (Some L) (Some n) 1 Tri = Some a) by (unfold alm_info in *; rewrite EL in E; exact E).
    pose proof (nalm2lmax_bound n L EL) as B. destruct (Z.eq_dec L (-1)) as [->|N]; [discriminate E2|].
    rewrite alm_info_tri in E2 by lia. destruct (Z.eqb_spec (ai_nelem (tri_info L L 1)) n) as [D|D]; [|discriminate]. apply Some_inj in E2. subst a.
    exists L. rewrite alm_info_tri by lia. split; [lia|]. split; [|auto]. cbn [ai_nelem tri_info] in D. pose proof (tri_2 L L). lia.
  - intros (L & HL & En & E & _ & _). assert (D : n = (L + 1) * (L + 2) / 2) by (rewrite <- En; rewrite Z.mul_comm, Z.div_mul by lia; reflexivity).
    assert (EL : nalm2lmax n = Some L) by (rewrite D; apply nalm2lmax_tri, HL).
    change (alm_info None None (Some n) 1 Tri = Some a). assert (E2 : alm_info None None (Some n) 1 Tri = alm_info (Some L) (Some L) (Some n) 1 Tri) by (unfold alm_info; rewrite EL; reflexivity).
    rewrite E2. rewrite alm_info_tri in E |- * by lia. assert (D2 : ai_nelem (tri_info L L 1) = n) by (cbn [ai_nelem tri_info]; pose proof (tri_2 L L); lia). rewrite D2, Z.eqb_refl. exact E.
Qed.
Theorem C41_rect_lmax_recovered L : 0 <= L -> alm_info None None (Some ((L + 1) * (L + 1))) 1 Rect = alm_info (Some L) (Some L) None 1 Rect.
Proof.
  intros H. rewrite alm_info_rect by lia. assert (EL : rect_lmax ((L + 1) * (L + 1)) = Some L).
  { unfold rect_lmax. destruct (Z.ltb_spec ((L + 1) * (L + 1)) 0); [nia|]. rewrite Z.sqrt_square by lia. f_equal. lia. }
  transitivity (alm_info (Some L) (Some L) (Some ((L + 1) * (L + 1))) 1 Rect); [unfold alm_info; rewrite EL; reflexivity|].
  rewrite alm_info_rect by lia. cbn [ai_nelem rect_info]. rewrite Z.mul_1_l, Z.eqb_refl. reflexivity.
Qed.
(* a strided layout does not survive being described by its number of elements *)
Theorem C41_stride_refuted : option_map ai_nelem (alm_info (Some 2) None None 2 Tri) = Some 12 /\ alm_info None None (Some 12) 2 Tri = None.
Proof. split; vm_compute; reflexivity. Qed.
Example C41_ex : option_map (fun a => (ai_nelem a, ai_mstart a, lm2ind a 3 2)) (alm_info None None (Some 10) 1 Tri) = Some (10, [0; 3; 5; 6], Some 8).
Proof. vm_compute. reflexivity. Qed.

(* ================= C43 ================= *)
(* Reading the output with m varying fastest gives the input with l varying fastest, for every member
   of the stack; the two listings run through the same coefficients, each once; elements that hold no
   coefficient become zero. *)
Theorem C43_transpose {A} (zero : A) a n at_ alms : describes a n at_ -> ai_stride a = 1 -> (forall x, In x alms -> zlen x = n) ->
  Permutation (l_fast (ai_lmax a) (ai_mmax a)) (m_fast (ai_lmax a) (ai_mmax a)) /\ NoDup (l_fast (ai_lmax a) (ai_mmax a)) /\
  (forall l m, In (l, m) (l_fast (ai_lmax a) (ai_mmax a)) <-> valid (ai_lmax a) (ai_mmax a) l m) /\
  exists outs, transpose_alm zero a alms = Some outs /\
    Forall2 (fun x out => zlen out = n /\
      map (fun p => zget out (at_ (fst p) (snd p))) (m_fast (ai_lmax a) (ai_mmax a)) = map (fun p => zget x (at_ (fst p) (snd p))) (l_fast (ai_lmax a) (ai_mmax a)) /\
      (forall k, 0 <= k < n -> (forall l m, valid (ai_lmax a) (ai_mmax a) l m -> k <> at_ l m) -> zget out k = Some zero)) alms outs.
Proof.
  intros (H0 & H1 & HL & HA) HS Hx. split; [apply fast_perm|]. split; [apply l_fast_NoDup|]. split; [intros; apply l_fast_In|].
  unfold transpose_alm. destruct alms as [|x0 alms]; [exists []; auto|].
  pose proof (Hx x0 (or_introl eq_refl)) as L0. apply (transpose_stack_ok a n at_ HL HS HA zero H0 H1); [exact Hx|unfold zlen in *; now rewrite repeat_length|].
  intros k Hk _. unfold zget. destruct (Z.ltb_spec k 0); [lia|]. rewrite (nth_error_nth' _ zero) by (rewrite repeat_length; unfold zlen in L0; lia). now rewrite nth_repeat.
Qed.
(* with a stride other than one the elements moved are not the coefficients: (1,0) and (1,1), stored at 2 and 4,
   are lost *)
Theorem C43_stride_refuted : exists a, alm_info (Some 1) None None 2 Tri = Some a /\ lm2ind a 1 1 = Some 4 /\
  transpose_alm 0 a [[10; 0; 20; 0; 30; 0]] = Some [[10; 0; 0; 0; 0; 0]].
Proof. exists (tri_info 1 1 2). repeat split; vm_compute; reflexivity. Qed.
Example C43_ex : option_map (fun a => transpose_alm 0 a [[0; 1; 2; 3; 4; 5; 6; 7; 8; 9]]) (alm_info (Some 3) None None 1 Tri) = Some (Some [[0; 1; 3; 6; 2; 4; 7; 5; 8; 9]]).
Proof. vm_compute. reflexivity. Qed.

(* ================= C45 ================= *)
Theorem C45_transfer {A} (op : A -> A -> A) ai ao ni no ati ato ialm oalm :
  describes ai ni ati -> describes ao no ato -> ai_mmax ai <= ai_lmax ai -> ai_mmax ao <= ai_lmax ao -> 1 <= ai_stride ai -> 1 <= ai_stride ao ->
  zlen ialm = ni -> zlen oalm = no ->
  exists out, transfer_one op ai ialm ao oalm = Some out /\ zlen out = no /\
    (forall l m x y, valid (ai_lmax ai) (ai_mmax ai) l m -> valid (ai_lmax ao) (ai_mmax ao) l m -> zget oalm (ato l m) = Some x -> zget ialm (ati l m) = Some y -> zget out (ato l m) = Some (op x y)) /\
    (forall k, (forall l m, valid (ai_lmax ai) (ai_mmax ai) l m -> valid (ai_lmax ao) (ai_mmax ao) l m -> k <> ato l m) -> zget out k = zget oalm k).
Proof.
  intros (I1 & I2 & I3 & I4) (O1 & O2 & O3 & O4) Hi Ho Si So Li Lo.
  destruct (transfer_ok op ai ao ni no ati ato I3 O3 I4 O4 ltac:(lia) ltac:(lia) Si So ialm Li oalm Lo) as (out & E & L & G & K).
  exists out. split; [exact E|]. split; [exact L|]. split.
  - intros l m x y Vi Vo. apply G. unfold valid in *. lia.
  - intros k Hk. apply K. intros l m V. apply Hk; unfold valid in *; lia.
Qed.
(* the C variant, whatever order its parallel iterations run in *)
Theorem C45_transfer_c {A} ai ao ni no ati ato (ialm oalm : list A) ms :
  describes ai ni ati -> describes ao no ato -> ai_stride ai = 1 -> ai_stride ao = 1 -> zlen ialm = ni -> zlen oalm = no ->
  Permutation ms (zrange 0 (Z.min (ai_mmax ai) (ai_mmax ao) + 1)) ->
  exists out, transfer_c ms ai ialm ao oalm = Some out /\ zlen out = no /\
    (forall l m, valid (ai_lmax ai) (ai_mmax ai) l m -> valid (ai_lmax ao) (ai_mmax ao) l m -> zget out (ato l m) = zget ialm (ati l m)) /\
    (forall k, (forall l m, valid (ai_lmax ai) (ai_mmax ai) l m -> valid (ai_lmax ao) (ai_mmax ao) l m -> k <> ato l m) -> zget out k = zget oalm k).
Proof.
  intros (I1 & I2 & I3 & I4) (O1 & O2 & O3 & O4) Si So Li Lo P.
  destruct (transfer_c_ok ai ao ni no ati ato I3 O3 I4 O4 Si So ialm Li ms oalm P Lo) as (out & E & L & G & K).
  exists out. split; [exact E|]. split; [exact L|]. split.
  - intros l m Vi Vo. apply G. unfold valid in *. lia.
  - intros k Hk. apply K. intros l m V. apply Hk; unfold valid in *; lia.
Qed.
Example C45_ex : match alm_info (Some 3) None None 1 Tri, alm_info (Some 2) None None 2 Rect with
  | Some ai, Some ao => transfer_one (fun x y => x + y) ai [1; 2; 3; 4; 5; 6; 7; 8; 9; 10] ao (repeat 100 18) | _, _ => None end
  = Some [101; 100; 102; 100; 103; 100; 100; 100; 105; 100; 106; 100; 100; 100; 100; 100; 108; 100].
Proof. vm_compute. reflexivity. Qed.

(* ================= C44 ================= *)
Definition scaled (f : R) (x : C) : C := (f * fst x, f * snd x)%R.
Definition filter_at (lfun : list R) (l : Z) : R := match zget lfun l with Some f => f | None => 0%R end.
Theorem C44_lmul a n at_ ms alm lfun : describes a n at_ -> ai_stride a = 1 -> zlen alm = n -> Permutation ms (zrange 0 (ai_mmax a + 1)) ->
  exists out, lmul ms a alm lfun = Some out /\ zlen out = n /\
    (forall l m x, valid (ai_lmax a) (ai_mmax a) l m -> zget alm (at_ l m) = Some x -> zget out (at_ l m) = Some (scaled (filter_at lfun l) x)) /\
    (forall k, (forall l m, valid (ai_lmax a) (ai_mmax a) l m -> k <> at_ l m) -> zget out k = zget alm k).
Proof. intros (H1 & H2 & H3 & H4) HS HL P. exact (lmul_ok a n at_ H3 HS H4 ms alm lfun P HL). Qed.

(* out[r] = sum_c mat[r,c,l] in[c] within the filter, zero beyond, computed from the input as it was
   before the call even when rows are shared between input and output *)
Definition mat_sum (M r l : Z) (F : Z -> Z -> Z -> R) (x : Z -> C) : C :=
  (rsum (map (fun c => F r c l * fst (x c))%R (zrange 0 M)), rsum (map (fun c => F r c l * snd (x c))%R (zrange 0 M))).
Definition lmatmul_spec (run : list (list C) -> option (list (list C))) (a : ainfo) (at_ : Z -> Z -> Z) (M lfmax : Z) (F : Z -> Z -> Z -> R) (aptrs optrs : list Z) (mem : list (list C)) : Prop :=
  exists mem', run mem = Some mem' /\
    (forall q, option_map zlen (zget mem' q) = option_map zlen (zget mem q)) /\
    (forall l m r p, valid (ai_lmax a) (ai_mmax a) l m -> zget optrs r = Some p ->
       read_row mem' p (at_ l m) = Some (if l <=? lfmax then mat_sum M r l F (fun c => match zget aptrs c with Some q => match read_row mem q (at_ l m) with Some x => x | None => (0, 0)%R end | None => (0, 0)%R end) else (0, 0)%R)) /\
    (forall q k, (~ In q optrs \/ forall l m, valid (ai_lmax a) (ai_mmax a) l m -> k <> at_ l m) -> read_row mem' q k = read_row mem q k).
Lemma lmatmul_gen lup a n at_ aptrs optrs lmat lfmax F mem ms rs : describes a n at_ -> ai_stride a = 1 -> NoDup optrs ->
  lup (Z.min (ai_lmax a) lfmax) lfmax = Z.min (ai_lmax a) lfmax ->
  (forall p, In p aptrs \/ In p optrs -> option_map zlen (zget mem p) = Some n) ->
  (forall r c l, 0 <= r < zlen optrs -> 0 <= c < zlen aptrs -> 0 <= l <= lfmax -> read_row lmat (r * zlen aptrs + c) l = Some (F r c l)) ->
  Permutation ms (zrange 0 (ai_mmax a + 1)) -> Permutation rs (zrange 0 (zlen optrs)) ->
  lmatmul_spec (lmatmul lup ms rs (zlen optrs) (zlen aptrs) a aptrs lfmax lmat optrs) a at_ (zlen aptrs) lfmax F aptrs optrs mem.
Proof.
  intros (H1 & H2 & H3 & H4) HS HO HU HF HM P1 P2.
  destruct (lmatmul_ok a n at_ H3 HS H4 (zlen optrs) (zlen aptrs) aptrs optrs lmat lfmax F eq_refl eq_refl HO HM lup ms rs mem HU HF P1 P2) as (mem' & E & Sh & G & K).
  exists mem'. split; [exact E|]. split; [exact Sh|]. split.
  - intros l m r p V Er. pose proof (G l m r V (zget_Some_range _ _ _ Er)) as Q. unfold optr in Q. rewrite Er in Q. rewrite Q. f_equal. destruct (l <=? lfmax); [|reflexivity].
    unfold entry, mat_sum. rewrite (combine_range aptrs 0), !map_map. cbn [fst snd]. f_equal; f_equal; apply map_ext_in; intros c Hc; apply zrange_In in Hc; destruct (zget_in_range aptrs c) as (q & Eq); try lia; rewrite Eq; reflexivity.
  - intros q k Hq. apply K. intros (I1 & l & m & V & E'). destruct Hq as [Hq|Hq]; [contradiction|apply (Hq l m V E')].
Qed.
Theorem C44_lmatmul_double a n at_ aptrs optrs lmat lfmax F mem ms rs : describes a n at_ -> ai_stride a = 1 -> NoDup optrs ->
  (forall p, In p aptrs \/ In p optrs -> option_map zlen (zget mem p) = Some n) ->
  (forall r c l, 0 <= r < zlen optrs -> 0 <= c < zlen aptrs -> 0 <= l <= lfmax -> read_row lmat (r * zlen aptrs + c) l = Some (F r c l)) ->
  Permutation ms (zrange 0 (ai_mmax a + 1)) -> Permutation rs (zrange 0 (zlen optrs)) ->
  lmatmul_spec (lmatmul_dp ms rs (zlen optrs) (zlen aptrs) a aptrs lfmax lmat optrs) a at_ (zlen aptrs) lfmax F aptrs optrs mem.
Proof. intros. eapply lmatmul_gen; eauto. Qed.
(* single precision: only when the filter is not longer than the alm *)
Theorem C44_lmatmul_single_partial a n at_ aptrs optrs lmat lfmax F mem ms rs : describes a n at_ -> ai_stride a = 1 -> NoDup optrs -> lfmax <= ai_lmax a ->
  (forall p, In p aptrs \/ In p optrs -> option_map zlen (zget mem p) = Some n) ->
  (forall r c l, 0 <= r < zlen optrs -> 0 <= c < zlen aptrs -> 0 <= l <= lfmax -> read_row lmat (r * zlen aptrs + c) l = Some (F r c l)) ->
  Permutation ms (zrange 0 (ai_mmax a + 1)) -> Permutation rs (zrange 0 (zlen optrs)) ->
  lmatmul_spec (lmatmul_sp ms rs (zlen optrs) (zlen aptrs) a aptrs lfmax lmat optrs) a at_ (zlen aptrs) lfmax F aptrs optrs mem.
Proof. intros. eapply lmatmul_gen; eauto. symmetry. apply Z.min_r. assumption. Qed.
(* the same call with a filter one multipole longer accesses memory outside the arrays *)
Theorem C44_single_refuted (x y z : C) (f g h : R) : exists a, alm_info (Some 1) None None 1 Tri = Some a /\
  lmatmul_sp [0; 1] [0] 1 1 a [0] 2 [[f; g; h]] [0] [[x; y; z]] = None /\
  exists r, lmatmul_dp [0; 1] [0] 1 1 a [0] 2 [[f; g; h]] [0] [[x; y; z]] = Some r.
Proof. exists (tri_info 1 1 1). split; [vm_compute; reflexivity|]. split; [vm_compute; reflexivity|]. eexists. cbv -[Rplus Rmult]. reflexivity. Qed.
(* strided layouts are not honoured: the coefficient (1,1), stored at 4, is not multiplied *)
Theorem C44_stride_refuted (x : C) (f : R) : exists a out, alm_info (Some 1) None None 2 Tri = Some a /\ lm2ind a 1 1 = Some 4 /\
  lmul [0; 1] a (repeat x 6) [f; f] = Some out /\ zget out 4 = Some x.
Proof. exists (tri_info 1 1 2). eexists. split; [vm_compute; reflexivity|]. split; [vm_compute; reflexivity|]. split; [cbv -[Rplus Rmult]; reflexivity|]. cbv -[Rplus Rmult]. reflexivity. Qed.
(* in place, two components, filter shorter than the alm *)
Example C44_ex : exists a at_, alm_info (Some 2) None None 1 Tri = Some a /\ describes a 6 at_ /\ ai_stride a = 1 /\ NoDup [0; 1] /\
  (forall mem : list (list C), map (@zlen C) mem = [6; 6] -> forall p, In p [0; 1] \/ In p [0; 1] -> option_map zlen (zget mem p) = Some 6).
Proof.
  destruct (C41_triangular 2 2 1 ltac:(lia) ltac:(lia)) as (a & at_ & E & E1 & E2 & E3 & D & _ & En). exists a, at_.
  assert (ai_nelem a = 6) by lia. rewrite H in D. split; [exact E|]. split; [exact D|]. split; [exact E3|]. split; [repeat constructor; cbn; intuition lia|].
  intros mem Hm p Hp. rewrite <- zget_map, Hm. cbn [In] in Hp. assert (Q : p = 0 \/ p = 1) by lia. destruct Q as [->| ->]; reflexivity.
Qed.

(* ================= C42 ================= *)
Definition coefficient (alm : list C) (at_ : Z -> Z -> Z) (l m : Z) : C := match zget alm (at_ l m) with Some x => x | None => (0, 0)%R end.
(* An execution: the scheduler hands every m >= 1 to exactly one thread; the trace is any
   interleaving of the individual memory operations of the threads' programs. *)
Definition execution (a : ainfo) (alm1 alm2 : list C) (nthread : Z) (work : list (list Z)) (trace : list (Z * mop)) : Prop :=
  zlen work = nthread /\ Permutation (concat work) (zrange 1 (ai_mmax a + 1)) /\
  (forall e, In e trace -> 0 <= fst e < nthread) /\
  (forall t ms, zget work t = Some ms -> thread_prog a alm1 alm2 t ms = Some (map snd (filter (fun e => fst e =? t) trace))).
Theorem C42_any_schedule a n at_ alm1 alm2 nthread work trace : describes a n at_ -> ai_stride a = 1 -> zlen alm1 = n -> zlen alm2 = n -> 1 <= nthread ->
  execution a alm1 alm2 nthread work trace ->
  alm2cl_run a nthread trace = map (cl_formula (coefficient alm1 at_) (coefficient alm2 at_) (ai_mmax a)) (zrange 0 (ai_lmax a + 1)).
Proof. intros (H1 & H2 & H3 & H4) HS L1 L2 Hn (E1 & E2 & E3 & E4). exact (alm2cl_ok a n at_ H3 HS H4 H1 H2 alm1 alm2 L1 L2 nthread work trace Hn E1 E2 E3 E4). Qed.
(* the programs never access anything outside the arrays, so executions exist *)
Theorem C42_no_fault a n at_ alm1 alm2 id ms : describes a n at_ -> ai_stride a = 1 -> zlen alm1 = n -> zlen alm2 = n -> (forall m, In m ms -> 1 <= m <= ai_mmax a) ->
  exists p, thread_prog a alm1 alm2 id ms = Some p.
Proof. intros (H1 & H2 & H3 & H4) HS L1 L2 Hm. eexists. apply (thread_prog_ok a n at_ H3 HS H4 H1 alm1 alm2 L1 L2 id ms). intros m Hi. apply Hm in Hi. lia. Qed.
(* two threads; thread 1 reads before thread 0 has done anything, and writes in the middle *)
Example C42_ex (x0 x1 x2 y0 y1 y2 : C) : exists a, alm_info (Some 1) None None 1 Tri = Some a /\
  execution a [x0; x1; x2] [y0; y1; y2] 2 [[]; [1]]
    [(1, Load 1); (0, Assign 0 (fst x0 * fst y0 / 2)%R); (1, Store 1 (fst x2 * fst y2 + snd x2 * snd y2)%R); (0, Assign 1 (fst x1 * fst y1 / 2)%R)].
Proof.
  exists (tri_info 1 1 1). split; [vm_compute; reflexivity|]. split; [reflexivity|]. split; [apply Permutation_refl|]. split.
  - intros e [<-|[<-|[<-|[<-|[]]]]]; cbn; lia.
  - intros t ms E. pose proof (zget_Some_range _ _ _ E) as Rt. unfold zlen in Rt. cbn in Rt. assert (Q : t = 0 \/ t = 1) by lia. destruct Q as [->| ->]; cbn in E; apply Some_inj in E; subst ms; reflexivity.
Qed.
(* the cache gives what computing every spectrum would give, as long as an address determines the
   numbers stored there *)
Theorem C42_cache_partial {E S} (one : E -> E -> S) (pairs : list ((Z * E) * (Z * E))) : (forall x y, one x y = one y x) ->
  (forall p x q y, In (p, x) (map fst pairs ++ map snd pairs) -> In (q, y) (map fst pairs ++ map snd pairs) -> p = q -> x = y) ->
  alm2cl_all one pairs [] = map (fun pq => one (snd (fst pq)) (snd (snd pq))) pairs.
Proof.
  intros SY HA.
  assert (G : forall l (cache : list ((Z * Z) * S)), incl l pairs ->
    (forall k v, In (k, v) cache -> exists p x q y, In ((p, x), (q, y)) pairs /\ k = ckey p q /\ v = one x y) ->
    alm2cl_all one l cache = map (fun pq => one (snd (fst pq)) (snd (snd pq))) l).
  { induction l as [|((p, x), (q, y)) l IH]; intros cache HI HC; cbn [alm2cl_all map fst snd]; [reflexivity|].
    assert (Hin : In ((p, x), (q, y)) pairs) by (apply HI; left; reflexivity).
    assert (HI' : incl l pairs) by (intros z Hz; apply HI; right; exact Hz).
    destruct (clookup (ckey p q) cache) as [v|] eqn:EL; [|f_equal; apply IH; [exact HI'|]; intros k v [Hk|Hk]; [injection Hk as <- <-; exists p, x, q, y; auto|apply HC, Hk]].
    f_equal; [|apply IH; assumption].
    assert (K : exists p' x' q' y', In ((p', x'), (q', y')) pairs /\ ckey p q = ckey p' q' /\ v = one x' y').
    { clear -EL HC. induction cache as [|(k, w) cache IHc]; cbn [clookup] in EL; [discriminate|].
      destruct (Z.eqb_spec (fst (ckey p q)) (fst k)) as [D1|D1]; [destruct (Z.eqb_spec (snd (ckey p q)) (snd k)) as [D2|D2]|]; cbn [andb] in EL.
      - apply Some_inj in EL. subst w. destruct (HC k v (or_introl eq_refl)) as (p' & x' & q' & y' & H1 & H2 & H3). exists p', x', q', y'. split; [exact H1|]. split; [|exact H3]. rewrite <- H2. destruct (ckey p q), k; cbn in *; congruence.
      - apply IHc; [intros; apply HC; right; assumption|exact EL].
      - apply IHc; [intros; apply HC; right; assumption|exact EL]. }
    destruct K as (p' & x' & q' & y' & H1 & H2 & ->).
    assert (A1 : forall u, In u [(p, x); (q, y); (p', x'); (q', y')] -> In u (map fst pairs ++ map snd pairs)).
    { intros u Hu. apply in_app_iff. cbn [In] in Hu. destruct Hu as [<-|[<-|[<-|[<-|[]]]]]; [left|right|left|right]; apply in_map_iff; [exists ((p, x), (q, y))|exists ((p, x), (q, y))|exists ((p', x'), (q', y'))|exists ((p', x'), (q', y'))]; auto. }
    assert (B : (p = p' /\ q = q') \/ (p = q' /\ q = p')).
    { unfold ckey in H2. destruct (Z.leb_spec p q), (Z.leb_spec p' q'); injection H2 as <- <-; auto. }
    destruct B as [(B1 & B2)|(B1 & B2)].
    - rewrite (HA p x p' x'), (HA q y q' y'); auto; apply A1; cbn; auto.
    - rewrite (HA p x q' y'), (HA q y p' x'); auto; apply A1; cbn; auto. }
  apply G; [intros z Hz; exact Hz|intros k v []].
Qed.
(* two arrays can start at the same address and still hold different numbers (views with different
   strides of one buffer); the cross spectrum then comes from the wrong pair *)
Theorem C42_cache_refuted : alm2cl_all (fun x y : list Z => zsum (map (fun p => fst p * snd p) (combine x y))) [((1, [1; 2]), (2, [10; 20])); ((2, [3; 4]), (1, [5; 6]))] [] = [50; 50] /\
  zsum (map (fun p => fst p * snd p) (combine [3; 4] [5; 6])) = 39.
Proof. split; vm_compute; reflexivity. Qed.

(* ================= C46 ================= *)
(* single component: every coefficient both resolutions have is the same, whatever the generator
   produces and however the draws are blocked *)
Theorem C46_agree_partial draw bsize L1 L2 ps nl l m : 0 <= L1 -> 0 <= L2 -> 1 <= bsize -> zlen ps = nl -> 1 <= nl -> valid L1 L1 l m -> valid L2 L2 l m ->
  exists a1 a2 row1 row2 i1 i2 x, alm_info (Some L1) None None 1 Tri = Some a1 /\ alm_info (Some L2) None None 1 Tri = Some a2 /\
    rand_alm draw bsize 1 L1 [ps] = Some [row1] /\ rand_alm draw bsize 1 L2 [ps] = Some [row2] /\
    lm2ind a1 l m = Some i1 /\ lm2ind a2 l m = Some i2 /\ zget row1 i1 = Some x /\ zget row2 i2 = Some x.
Proof.
  intros H1 H2 Hb Hps Hnl V1 V2.
  assert (ONE : forall L, 0 <= L -> valid L L l m -> exists row, rand_alm draw bsize 1 L [ps] = Some [row] /\ zget row (tri L m + l) = Some (rand_value draw [ps] 1 (ai_nelem (tri_info L L 1)) 0 l m)).
  { intros L HL V. destruct (rand_alm_ok draw bsize 1 L [ps] nl HL Hb ltac:(lia) Hnl eq_refl) as (rows & E & LR & G); [intros row [<-|[]]; exact Hps|].
    destruct rows as [|row [|r2 rest]]; unfold zlen in LR; cbn in LR; try lia. exists row. split; [exact E|]. apply (G 0 row eq_refl), V. }
  destruct (ONE L1 H1 V1) as (row1 & E1 & G1). destruct (ONE L2 H2 V2) as (row2 & E2 & G2).
  exists (tri_info L1 L1 1), (tri_info L2 L2 1), row1, row2, (tri L1 m + l), (tri L2 m + l), (rand_value draw [ps] 1 0 0 l m).
  change (alm_info (Some L1) None None 1 Tri) with (alm_info (Some L1) (Some L1) None 1 Tri). change (alm_info (Some L2) None None 1 Tri) with (alm_info (Some L2) (Some L2) None 1 Tri).
  rewrite !alm_info_tri by lia. do 2 (split; [reflexivity|]). split; [exact E1|]. split; [exact E2|]. rewrite !tri_lm2ind by assumption. rewrite !Z.mul_1_l. split; [reflexivity|]. split; [reflexivity|].
  rewrite G1, G2. split; reflexivity.
Qed.
(* two components: the second component's monopole is a different draw at the two resolutions *)
Theorem C46_components_refuted : exists draw ps12 rows1 rows2 row1 row2 x1 x2, rand_alm draw 65536 2 0 ps12 = Some rows1 /\ rand_alm draw 65536 2 1 ps12 = Some rows2 /\
  zget rows1 1 = Some row1 /\ zget rows2 1 = Some row2 /\ zget row1 0 = Some x1 /\ zget row2 0 = Some x2 /\ x1 <> x2.
Proof.
  exists (fun k => if (k =? 2)%Z then 1%R else 0%R). set (ps12 := [[1%R; 1%R]; [0%R; 0%R]; [0%R; 0%R]; [1%R; 1%R]]). exists ps12. set (draw := fun k : Z => if (k =? 2)%Z then 1%R else 0%R).
  assert (HR : forall row, In row ps12 -> zlen row = 2) by (intros row [<-|[<-|[<-|[<-|[]]]]]; reflexivity).
  destruct (rand_alm_ok draw 65536 2 0 ps12 2 ltac:(lia) ltac:(lia) ltac:(lia) ltac:(lia) eq_refl HR) as (rows1 & E1 & L1 & G1).
  destruct (rand_alm_ok draw 65536 2 1 ps12 2 ltac:(lia) ltac:(lia) ltac:(lia) ltac:(lia) eq_refl HR) as (rows2 & E2 & L2 & G2).
  destruct (zget_in_range rows1 1) as (row1 & F1); [lia|]. destruct (zget_in_range rows2 1) as (row2 & F2); [lia|].
  destruct (G1 1 row1 F1) as (_ & K1). destruct (G2 1 row2 F2) as (_ & K2). specialize (K1 0 0 ltac:(unfold valid; lia)). specialize (K2 0 0 ltac:(unfold valid; lia)).
  exists rows1, rows2, row1, row2. eexists. eexists. split; [exact E1|]. split; [exact E2|]. split; [exact F1|]. split; [exact F2|]. split; [exact K1|]. split; [exact K2|].
  assert (S2 : sqrt 2 <> 0%R) by (apply Rgt_not_eq, sqrt_lt_R0; lra).
  set (X := rand_value draw ps12 2 (ai_nelem (tri_info 0 0 1)) 1 0 0). set (Y := rand_value draw ps12 2 (ai_nelem (tri_info 1 1 1)) 1 0 0).
  assert (EX : X = ((0 / sqrt 2 * 0 + (1 / sqrt 2 * 1 + 0)) * sqrt 2, 0)%R) by reflexivity.
  assert (EY : Y = ((0 / sqrt 2 * 0 + (1 / sqrt 2 * 0 + 0)) * sqrt 2, 0)%R) by reflexivity.
  rewrite EX, EY. intros Q. apply (f_equal fst) in Q. cbn [fst] in Q.
  assert (QX : ((0 / sqrt 2 * 0 + (1 / sqrt 2 * 1 + 0)) * sqrt 2 = 1)%R) by (field; exact S2).
  assert (QY : ((0 / sqrt 2 * 0 + (1 / sqrt 2 * 0 + 0)) * sqrt 2 = 0)%R) by (field; exact S2). lra.
Qed.
Print Assumptions C41_triangular.
Print Assumptions C41_rectangular.
Print Assumptions C41_lmax_recovered.
Print Assumptions C41_rect_lmax_recovered.
Print Assumptions C41_stride_refuted.
Print Assumptions C43_transpose.
Print Assumptions C43_stride_refuted.
Print Assumptions C45_transfer.
Print Assumptions C45_transfer_c.
Print Assumptions C44_lmul.
Print Assumptions C44_lmatmul_double.
Print Assumptions C44_lmatmul_single_partial.
Print Assumptions C44_single_refuted.
Print Assumptions C44_stride_refuted.
Print Assumptions C42_any_schedule.
Print Assumptions C42_no_fault.
Print Assumptions C42_cache_partial.
Print Assumptions C42_cache_refuted.
Print Assumptions C46_agree_partial.
Print Assumptions C46_components_refuted.
