From Coq Require Import List Arith ZArith QArith Bool Lia.
From Verif Require Import TlmSpec TlmModel.
Import ListNotations.
Open Scope nat_scope.
Ltac Zify.zify_post_hook ::= idtac.

Lemma concat_row {A} (G : nat -> nat -> A) h y : forall row x, row <> [] -> row_of G h y x row -> exists m, concat beside row = Some m /\ tile_of G m /\ org m = (y, x) /\ ny m = h /\ nx m = width row.
Proof.
  induction row as [|a row IH]; intros x NE R; [contradiction|]. cbn [row_of] in R. destruct R as (T & O & H & R). destruct row as [|b row].
  - exists a. cbn. rewrite Nat.add_0_r. auto.
  - destruct (IH (x + nx a) ltac:(discriminate) R) as (m & C & TM & OM & HM & WM). change (concat beside (a :: b :: row)) with (match concat beside (b :: row) with Some b0 => beside a b0 | None => None end). rewrite C. unfold beside. rewrite H, HM, Nat.eqb_refl. eexists. split; [reflexivity|]. cbn [ny nx px org]. split; [|split; [exact O|split; [reflexivity|rewrite WM; reflexivity]]].
    intros v u V U. cbn [ny nx px org] in *. rewrite O. cbn [fst snd]. destruct (Nat.ltb_spec u (nx a)) as [L|L].
    + rewrite T by (rewrite ?H; assumption). rewrite O. reflexivity.
    + rewrite TM by lia. rewrite OM. cbn [fst snd]. f_equal. lia.
Qed.
Lemma concat_rows {A} (G : nat -> nat -> A) w x : forall rows y, rows <> [] -> rows_of G w y x rows -> exists l m, sequence (map (concat beside) rows) = Some l /\ concat above l = Some m /\ tile_of G m /\ org m = (y, x) /\ nx m = w /\ ny m = fold_right (fun r n => height r + n) 0 rows.
Proof.
  induction rows as [|row rows IH]; intros y NE R; [contradiction|]. cbn [rows_of] in R. destruct R as (NR & R1 & W & R). destruct (concat_row G (height row) y row x NR R1) as (a & C & T & O & H & WA). destruct rows as [|row2 rows].
  - exists [a], a. cbn [map sequence fold_right]. rewrite C. split; [reflexivity|]. split; [reflexivity|]. split; [exact T|]. split; [exact O|]. split; [congruence|]. lia.
  - destruct (IH (y + height row) ltac:(discriminate) R) as (l & m & S & CM & TM & OM & WM & HM). assert (l <> []) as NL by (intros ->; discriminate). exists (a :: l).
    change (sequence (map (concat beside) (row :: row2 :: rows))) with (match concat beside row with None => None | Some a0 => match sequence (map (concat beside) (row2 :: rows)) with Some r => Some (a0 :: r) | None => None end end). rewrite C, S. eexists. split; [reflexivity|]. destruct l as [|b l]; [contradiction|]. change (concat above (a :: b :: l)) with (match concat above (b :: l) with Some b0 => above a b0 | None => None end). rewrite CM. unfold above. rewrite WA, W, WM, Nat.eqb_refl. split; [reflexivity|]. split; [|split; [exact O|split; [reflexivity|]]].
    + intros v u V U. cbn [ny nx px org] in *. rewrite O. cbn [fst snd]. destruct (Nat.ltb_spec v (ny a)) as [L|L].
      * rewrite T by (rewrite ?WA, ?W; assumption). rewrite O. reflexivity.
      * rewrite TM by lia. rewrite OM. cbn [fst snd]. f_equal. lia.
    + cbn [ny]. change (fold_right (fun r n => height r + n) 0 (row :: row2 :: rows)) with (height row + fold_right (fun r n => height r + n) 0 (row2 :: rows)). lia.
Qed.
(* C149 tiles that lie next to each other are put together to the part of the large map that they cover, in its place *)
Theorem C149_tiles {A} (G : nat -> nat -> A) w y x maps : maps <> [] -> rows_of G w y x maps -> exists m, tile_maps maps = Some m /\ tile_of G m /\ org m = (y, x) /\ nx m = w /\ ny m = fold_right (fun r n => height r + n) 0 maps.
Proof.
  intros NE R. destruct (concat_rows G w x maps y NE R) as (l & m & S & C & T & O & W & H). unfold tile_maps. rewrite S, C. destruct maps as [|[|a row] rows]; [contradiction|cbn in R; now destruct R|]. eexists. split; [reflexivity|]. cbn [rows_of row_of] in R. destruct R as (_ & (_ & OA & _) & _). split; [|split; [exact OA|split; [exact W|exact H]]]. intros v u V U. cbn [ny nx px org] in *. rewrite OA. cbn [fst snd]. rewrite T by assumption. rewrite O. reflexivity.
Qed.
(* tiles of different heights in a row, or rows of different widths, are an error *)
Theorem C149_error {A} (a b : img A) : ny a <> ny b -> tile_maps [[a; b]] = None.
Proof. intros N. unfold tile_maps. cbn. unfold beside. destruct (Nat.eqb_spec (ny a) (ny b)); [contradiction|reflexivity]. Qed.
Theorem C149_error_rows {A} (a b : img A) : nx a <> nx b -> tile_maps [[a]; [b]] = None.
Proof. intros N. unfold tile_maps. cbn. unfold above. destruct (Nat.eqb_spec (nx a) (nx b)); [contradiction|reflexivity]. Qed.
Print Assumptions C149_tiles. Print Assumptions C149_error. Print Assumptions C149_error_rows.
Definition cut (y1 y2 x1 x2 : nat) : img nat := Img (y2 - y1) (x2 - x1) (fun y x => 10 * (y1 + y) + x1 + x) (y1, x1).
Example C149_ex : match tile_maps [[cut 1 3 2 4; cut 1 3 4 7]; [cut 3 4 2 3; cut 3 4 3 7]] with Some m => (ny m, nx m, px m 1 4, px m 2 0, org m) = (3, 5, 26, 32, (1, 2)) | None => False end.
Proof. reflexivity. Qed.
Example C149_ex_hyps : rows_of (fun y x => 10 * y + x) 5 1 2 [[cut 1 3 2 4; cut 1 3 4 7]; [cut 3 4 2 3; cut 3 4 3 7]].
Proof. cbn. unfold tile_of. cbn. split; [discriminate|]. repeat split; intros; try discriminate; lia. Qed.

(* C150 the shift puts the value of each frequency at its place from the lowest to the highest *)
Lemma shift_index n j : j < n -> Z.to_nat ((Z.of_nat j - Z.of_nat (n / 2)) mod Z.of_nat n) < n /\ freq n (Z.to_nat ((Z.of_nat j - Z.of_nat (n / 2)) mod Z.of_nat n)) = (Z.of_nat j - Z.of_nat (n / 2))%Z.
Proof.
  intros J. pose proof (Nat.div_mod n 2 ltac:(lia)) as D. pose proof (Nat.mod_upper_bound n 2 ltac:(lia)) as M. set (h := n / 2) in *. clearbody h. set (r := n mod 2) in *. clearbody r. unfold freq. destruct (le_lt_dec h j) as [L|L].
  - rewrite Z.mod_small by lia. replace (Z.to_nat (Z.of_nat j - Z.of_nat h)) with (j - h) by lia. split; [lia|]. destruct (Nat.ltb_spec (2 * (j - h)) n); lia.
  - replace (Z.of_nat j - Z.of_nat h)%Z with (Z.of_nat j - Z.of_nat h + Z.of_nat n + (-1) * Z.of_nat n)%Z by lia. rewrite Z.mod_add by lia. rewrite Z.mod_small by lia. replace (Z.to_nat (Z.of_nat j - Z.of_nat h + Z.of_nat n)) with (j + n - h) by lia. split; [lia|]. destruct (Nat.ltb_spec (2 * (j + n - h)) n); lia.
Qed.
Theorem C150_sorted {A} ny nx inplace (m : nat -> nat -> A) y x : y < ny -> x < nx -> exists i j, i < ny /\ j < nx /\ fst (fftshift ny nx inplace m) y x = m i j /\ freq ny i = (Z.of_nat y - Z.of_nat (ny / 2))%Z /\ freq nx j = (Z.of_nat x - Z.of_nat (nx / 2))%Z.
Proof. intros Y X. destruct (shift_index ny y Y) as [A1 A2]. destruct (shift_index nx x X) as [B1 B2]. eexists. eexists. split; [exact A1|]. split; [exact B1|]. split; [reflexivity|]. split; [exact A2|exact B2]. Qed.
Lemma roll_roll {A} n s (f : nat -> A) i : i < n -> roll n s (roll n (- s) f) i = f i.
Proof.
  intros I. unfold roll. assert (N : (0 < Z.of_nat n)%Z) by lia. pose proof (Z.mod_pos_bound (Z.of_nat i - s) (Z.of_nat n) N) as B. rewrite Z2Nat.id by lia. replace ((Z.of_nat i - s) mod Z.of_nat n - - s)%Z with ((Z.of_nat i - s) mod Z.of_nat n + s)%Z by lia. rewrite Zplus_mod_idemp_l. replace (Z.of_nat i - s + s)%Z with (Z.of_nat i) by lia. rewrite Z.mod_small by lia. now rewrite Nat2Z.id.
Qed.
Lemma shift2_shift2 {A} ny nx sy sx (m : nat -> nat -> A) y x : y < ny -> x < nx -> shift2 ny nx sy sx (shift2 ny nx (- sy) (- sx) m) y x = m y x.
Proof.
  intros Y X. unfold shift2. transitivity (roll nx sx (roll nx (- sx) (roll ny sy (roll ny (- sy) m) y)) x); [reflexivity|]. rewrite roll_roll by exact X. now rewrite roll_roll.
Qed.
(* one undoes the other, for even and odd lengths *)
Theorem C150_inverse {A} ny nx inplace inplace' (m : nat -> nat -> A) y x : y < ny -> x < nx -> fst (ifftshift ny nx inplace (fst (fftshift ny nx inplace' m))) y x = m y x /\ fst (fftshift ny nx inplace (fst (ifftshift ny nx inplace' m))) y x = m y x.
Proof.
  intros Y X. unfold fftshift, ifftshift. cbn [fst]. split; [|now apply shift2_shift2]. rewrite <- (Z.opp_involutive (Z.of_nat (ny / 2))) at 2. rewrite <- (Z.opp_involutive (Z.of_nat (nx / 2))) at 2. now apply shift2_shift2.
Qed.
(* the map of the caller changes only if that is asked for *)
Theorem C150_caller {A} ny nx (m : nat -> nat -> A) : snd (fftshift ny nx false m) = m /\ snd (ifftshift ny nx false m) = m /\ snd (fftshift ny nx true m) = fst (fftshift ny nx true m) /\ snd (ifftshift ny nx true m) = fst (ifftshift ny nx true m).
Proof. repeat split. Qed.
(* for odd lengths the shift is not its own inverse *)
Theorem C150_twice : exists y, fst (fftshift 1 3 false (fst (fftshift 1 3 false (fun _ x => x)))) 0 y <> y /\ y < 3.
Proof. exists 0. split; [discriminate|lia]. Qed.
Print Assumptions C150_sorted. Print Assumptions C150_inverse. Print Assumptions C150_caller. Print Assumptions C150_twice.
Example C150_ex : map (fst (fftshift 1 5 false (fun _ x => freq 5 x)) 0) [0; 1; 2; 3; 4] = [-2; -1; 0; 1; 2]%Z. Proof. reflexivity. Qed.
Example C150_ex_hyps : 0 < 1 /\ 4 < 5. Proof. lia. Qed.

(* C151 *)
Lemma nan_spec l : match first_nan l with Some i => nth_error l i = Some None /\ forall k, k < i -> exists q, nth_error l k = Some (Some q) | None => forall k, k < length l -> exists q, nth_error l k = Some (Some q) end.
Proof.
  induction l as [|[q|] l IH]; cbn [first_nan]; [intros k K; cbn in K; lia| |split; [reflexivity|intros k K; lia]]. destruct (first_nan l) as [i|]; cbn [option_map].
  - destruct IH as [A B]. split; [exact A|]. intros [|k] K; [now exists q|]. apply B. lia.
  - intros [|k] K; [now exists q|]. apply IH. cbn in K. lia.
Qed.
(* better is a strict order in which what is not better is transitive *)
Definition ordered (better : Q -> Q -> bool) : Prop := (forall a, better a a = false) /\ (forall a b c, better a b = true -> better a c = false -> better b c = false) /\ (forall a b c, better a b = false -> better b c = false -> better a c = false).
Lemma gt_ordered : ordered gt.
Proof.
  assert (G : forall a b, gt a b = true <-> (b < a)%Q) by (intros a b; unfold gt; rewrite negb_true_iff; split; [intros H; apply Qnot_le_lt; intros L; apply Qle_bool_iff in L; congruence|intros H; destruct (Qle_bool a b) eqn:E; [apply Qle_bool_iff in E; exfalso; apply (Qlt_not_le _ _ H E)|reflexivity]]).
  assert (G' : forall a b, gt a b = false <-> (a <= b)%Q) by (intros a b; unfold gt; rewrite negb_false_iff; apply Qle_bool_iff).
  split; [intros a; apply G', Qle_refl|]. split; intros a b c; rewrite ?G, ?G'; intros H K; [apply (Qle_trans _ a); [now apply Qlt_le_weak|exact K]|now apply (Qle_trans _ b)].
Qed.
Lemma lt_ordered : ordered lt.
Proof.
  assert (G : forall a b, lt a b = true <-> (a < b)%Q) by (intros a b; unfold lt; rewrite negb_true_iff; split; [intros H; apply Qnot_le_lt; intros L; apply Qle_bool_iff in L; congruence|intros H; destruct (Qle_bool b a) eqn:E; [apply Qle_bool_iff in E; exfalso; apply (Qlt_not_le _ _ H E)|reflexivity]]).
  assert (G' : forall a b, lt a b = false <-> (b <= a)%Q) by (intros a b; unfold lt; rewrite negb_false_iff; apply Qle_bool_iff).
  split; [intros a; apply G', Qle_refl|]. split; intros a b c; rewrite ?G, ?G'; intros H K; [apply (Qle_trans _ a); [exact K|now apply Qlt_le_weak]|now apply (Qle_trans _ b)].
Qed.
Lemma best_spec better (O : ordered better) : forall l pre bi bv, nth_error pre bi = Some (Some bv) -> (forall k v, nth_error pre k = Some (Some v) -> better v bv = false) -> (forall k v, k < bi -> nth_error pre k = Some (Some v) -> better bv v = true) ->
  let r := best better (length pre) bi bv l in exists rv, nth_error (pre ++ l) r = Some (Some rv) /\ (forall k v, nth_error (pre ++ l) k = Some (Some v) -> better v rv = false) /\ (forall k v, k < r -> nth_error (pre ++ l) k = Some (Some v) -> better rv v = true).
Proof.
  destruct O as (IR & OT & TR). induction l as [|e l IH]; intros pre bi bv P M F; cbv zeta.
  - cbn [best]. rewrite app_nil_r. now exists bv.
  - assert (E : pre ++ e :: l = (pre ++ [e]) ++ l) by (rewrite <- app_assoc; reflexivity). assert (LN : S (length pre) = length (pre ++ [e])) by (rewrite app_length; cbn; lia). assert (BL : bi < length pre) by (apply nth_error_Some; congruence).
    assert (OLD : forall k v, nth_error (pre ++ [e]) k = Some (Some v) -> (k < length pre /\ nth_error pre k = Some (Some v)) \/ (k = length pre /\ e = Some v)).
    { intros k v H. destruct (le_lt_dec (length pre) k) as [L|L]; [|left; rewrite nth_error_app1 in H by exact L; auto]. rewrite nth_error_app2 in H by exact L. destruct (k - length pre) as [|z] eqn:Q; [cbn in H; injection H as ->; right; split; [lia|reflexivity]|destruct z; discriminate]. }
    assert (KEEP : (forall v, e = Some v -> better v bv = false) -> exists rv, nth_error (pre ++ e :: l) (best better (S (length pre)) bi bv l) = Some (Some rv) /\ (forall k v, nth_error (pre ++ e :: l) k = Some (Some v) -> better v rv = false) /\ (forall k v, k < best better (S (length pre)) bi bv l -> nth_error (pre ++ e :: l) k = Some (Some v) -> better rv v = true)).
    { intros NE. rewrite E, LN. apply IH.
      - now rewrite nth_error_app1.
      - intros k v H. destruct (OLD k v H) as [[_ H']|[_ H']]; [now apply (M k)|now apply NE].
      - intros k v K H. destruct (OLD k v H) as [[_ H']|[H' _]]; [now apply (F k)|lia]. }
    destruct e as [v|]; cbn [best]; [|apply KEEP; discriminate]. destruct (better v bv) eqn:B; [|apply KEEP; intros w W; injection W as <-; exact B].
    rewrite E, LN. apply IH.
    + rewrite nth_error_app2, Nat.sub_diag by lia. reflexivity.
    + intros k w H. destruct (OLD k w H) as [[_ H']|[_ H']]; [|injection H' as <-; apply IR]. pose proof (M k w H') as W. destruct (better w v) eqn:Q; [|reflexivity]. pose proof (OT w v bv Q W). congruence.
    + intros k w K H. destruct (OLD k w H) as [[_ H']|[H' _]]; [|lia]. pose proof (M k w H') as W. destruct (better v w) eqn:Q; [reflexivity|]. pose proof (TR v w bv Q W). congruence.
Qed.
Lemma func_spec better l : ordered better -> l <> [] -> exists r, npfunc better l = Some r /\ r < length l /\
  ((nth_error l r = Some None /\ forall k, k < r -> nth_error l k <> Some None) \/
   exists rv, nth_error l r = Some (Some rv) /\ (forall k, k < length l -> exists v, nth_error l k = Some (Some v) /\ better v rv = false /\ (k < r -> better rv v = true))).
Proof.
  intros O NE. unfold npfunc. pose proof (nan_spec l) as N. destruct (first_nan l) as [i|].
  - destruct N as [A B]. exists i. split; [reflexivity|]. split; [apply nth_error_Some; congruence|]. left. split; [exact A|]. intros k K H. destruct (B k K) as [q Q]. congruence.
  - destruct l as [|[v|] l]; [contradiction| |destruct (N 0 ltac:(cbn; lia)) as [q Q]; discriminate].
    destruct (best_spec better O l [Some v] 0 v eq_refl) as (rv & R1 & R2 & R3).
    + intros [|[|k]] w H; cbn in H; try discriminate. injection H as <-. apply O.
    + intros k w K. lia.
    + cbn [length app] in *. eexists. split; [reflexivity|]. split; [change (S (length l)) with (length (Some v :: l)); apply nth_error_Some; congruence|]. right. exists rv. split; [exact R1|]. intros k K. destruct (N k K) as [w W]. exists w. split; [exact W|]. split; [now apply (R2 k)|]. intros L. now apply (R3 k).
Qed.
Lemma sequence_spec {A} : forall (l : list (option A)) (P : nat -> A -> Prop), (forall k o, nth_error l k = Some o -> exists a, o = Some a /\ P k a) -> exists r, sequence l = Some r /\ length r = length l /\ forall k a, nth_error r k = Some a -> P k a.
Proof.
  induction l as [|o l IH]; intros P H; cbn [sequence].
  - exists []. split; [reflexivity|]. split; [reflexivity|]. intros [|k] a; discriminate.
  - destruct (H 0 o eq_refl) as (a & -> & PA). destruct (IH (fun k => P (S k))) as (r & S1 & L & R); [intros k o K; now apply (H (S k))|]. rewrite S1. exists (a :: r). split; [reflexivity|]. split; [cbn; lia|]. intros [|k] b K; [cbn in K; injection K as <-; exact PA|now apply R].
Qed.
Lemma helper_spec nx ny better comps : ordered better -> 0 < nx -> 0 < ny -> (forall c, In c comps -> length c = ny * nx) -> exists r, arghelper nx better comps = Some r /\ length r = length comps /\ forall i y x, nth_error r i = Some (y, x) -> exists c, nth_error comps i = Some c /\ y < ny /\ x < nx /\
  ((nth_error c (y * nx + x) = Some None /\ forall k, k < y * nx + x -> nth_error c k <> Some None) \/
   exists rv, nth_error c (y * nx + x) = Some (Some rv) /\ (forall k, k < ny * nx -> exists v, nth_error c k = Some (Some v) /\ better v rv = false /\ (k < y * nx + x -> better rv v = true))).
Proof.
  intros O NX NY L. unfold arghelper.
  destruct (sequence_spec (map (fun c => option_map (fun r => (r / nx, r mod nx)) (npfunc better c)) comps) (fun i p => exists c, nth_error comps i = Some c /\ fst p < ny /\ snd p < nx /\
  ((nth_error c (fst p * nx + snd p) = Some None /\ forall k, k < fst p * nx + snd p -> nth_error c k <> Some None) \/
   exists rv, nth_error c (fst p * nx + snd p) = Some (Some rv) /\ (forall k, k < ny * nx -> exists v, nth_error c k = Some (Some v) /\ better v rv = false /\ (k < fst p * nx + snd p -> better rv v = true))))) as (r & S1 & LR & R).
  - intros i o H. rewrite nth_error_map in H. destruct (nth_error comps i) as [c|] eqn:C; [|discriminate]. cbn [option_map] in H. injection H as <-. pose proof (L c (nth_error_In _ _ C)) as LC. destruct (func_spec better c O) as (k & F & KL & K); [intros ->; cbn in LC; lia|]. rewrite F. cbn [option_map]. eexists. split; [reflexivity|]. exists c. split; [reflexivity|]. cbn [fst snd]. replace (k / nx * nx + k mod nx) with k by (rewrite (Nat.div_mod k nx) at 1 by lia; lia). rewrite LC in *. split; [apply Nat.div_lt_upper_bound; lia|]. split; [apply Nat.mod_upper_bound; lia|]. exact K.
  - rewrite map_length in LR. exists r. split; [exact S1|]. split; [exact LR|]. intros i y x H. exact (R i (y, x) H).
Qed.
(* the largest value of each component, and the first of several equal ones in row-major order; a component with nan gives the first nan *)
Theorem C151_argmax nx ny comps : 0 < nx -> 0 < ny -> (forall c, In c comps -> length c = ny * nx) -> exists r, argmax nx comps = Some r /\ length r = length comps /\ forall i y x, nth_error r i = Some (y, x) -> exists c, nth_error comps i = Some c /\ y < ny /\ x < nx /\
  ((nth_error c (y * nx + x) = Some None /\ forall k, k < y * nx + x -> nth_error c k <> Some None) \/
   exists rv, nth_error c (y * nx + x) = Some (Some rv) /\ forall k, k < ny * nx -> exists v, nth_error c k = Some (Some v) /\ (v <= rv)%Q /\ (k < y * nx + x -> (v < rv)%Q)).
Proof.
  intros NX NY L. destruct (helper_spec nx ny gt comps gt_ordered NX NY L) as (r & A & B & C). exists r. split; [exact A|]. split; [exact B|]. intros i y x H. destruct (C i y x H) as (c & C1 & C2 & C3 & C4). exists c. split; [exact C1|]. split; [exact C2|]. split; [exact C3|]. destruct C4 as [C4|(rv & R1 & R2)]; [now left|]. right. exists rv. split; [exact R1|]. intros k K. destruct (R2 k K) as (v & V1 & V2 & V3). exists v. split; [exact V1|]. unfold gt in *. rewrite negb_false_iff in V2. split; [now apply Qle_bool_iff|]. intros KL. specialize (V3 KL). rewrite negb_true_iff in V3. apply Qnot_le_lt. intros Q. apply Qle_bool_iff in Q. congruence.
Qed.
Theorem C151_argmin nx ny comps : 0 < nx -> 0 < ny -> (forall c, In c comps -> length c = ny * nx) -> exists r, argmin nx comps = Some r /\ length r = length comps /\ forall i y x, nth_error r i = Some (y, x) -> exists c, nth_error comps i = Some c /\ y < ny /\ x < nx /\
  ((nth_error c (y * nx + x) = Some None /\ forall k, k < y * nx + x -> nth_error c k <> Some None) \/
   exists rv, nth_error c (y * nx + x) = Some (Some rv) /\ forall k, k < ny * nx -> exists v, nth_error c k = Some (Some v) /\ (rv <= v)%Q /\ (k < y * nx + x -> (rv < v)%Q)).
Proof.
  intros NX NY L. destruct (helper_spec nx ny lt comps lt_ordered NX NY L) as (r & A & B & C). exists r. split; [exact A|]. split; [exact B|]. intros i y x H. destruct (C i y x H) as (c & C1 & C2 & C3 & C4). exists c. split; [exact C1|]. split; [exact C2|]. split; [exact C3|]. destruct C4 as [C4|(rv & R1 & R2)]; [now left|]. right. exists rv. split; [exact R1|]. intros k K. destruct (R2 k K) as (v & V1 & V2 & V3). exists v. split; [exact V1|]. unfold lt in *. rewrite negb_false_iff in V2. split; [now apply Qle_bool_iff|]. intros KL. specialize (V3 KL). rewrite negb_true_iff in V3. apply Qnot_le_lt. intros Q. apply Qle_bool_iff in Q. congruence.
Qed.
Print Assumptions C151_argmax. Print Assumptions C151_argmin.
Definition demo : list (option Q) := [Some 1%Q; Some 5%Q; Some 2%Q; Some 5%Q; Some 0%Q; Some 0%Q].
Example C151_ex : argmax 3 [demo; [Some 9%Q; None; None; Some 0%Q; Some 0%Q; Some 0%Q]] = Some [(0, 1); (0, 1)] /\ argmin 3 [demo] = Some [(1, 1)]. Proof. split; reflexivity. Qed.
Example C151_ex_hyps : forall c, In c [demo] -> length c = 2 * 3. Proof. intros c [<-|[]]. reflexivity. Qed.
