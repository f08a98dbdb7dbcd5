From Coq Require Import List Arith ZArith QArith Reals Lia Lra.
From Verif Require Import CrgSpec PrnSpec PrnModel.
Import ListNotations.
Open Scope R_scope.
Ltac Zify.zify_post_hook ::= idtac.

Lemma npmin_spec : forall l m, least (m :: l) (npmin m l).
Proof.
  induction l as [|a l IH]; intros m; cbn [npmin]; [split; [now left|intros b [<-|[]]; lra]|]. destruct (IH (Rmin m a)) as [I U]. split.
  - destruct I as [I|I]; [|right; now right]. revert I. generalize (npmin (Rmin m a) l). intros y <-. unfold Rmin. destruct (Rle_dec m a); [now left|right; now left].
  - pose proof (U (Rmin m a) (or_introl eq_refl)). pose proof (Rmin_l m a). pose proof (Rmin_r m a). intros b [<-|[<-|B]]; [lra|lra|apply U; now right].
Qed.
Lemma npmax_spec : forall l m, most (m :: l) (npmax m l).
Proof.
  induction l as [|a l IH]; intros m; cbn [npmax]; [split; [now left|intros b [<-|[]]; lra]|]. destruct (IH (Rmax m a)) as [I U]. split.
  - destruct I as [I|I]; [|right; now right]. revert I. generalize (npmax (Rmax m a) l). intros y <-. unfold Rmax. destruct (Rle_dec m a); [right; now left|now left].
  - pose proof (U (Rmax m a) (or_introl eq_refl)). pose proof (Rmax_l m a). pose proof (Rmax_r m a). intros b [<-|[<-|B]]; [lra|lra|apply U; now right].
Qed.
Lemma put_same a i v : put a i v i = v.
Proof. unfold put. now rewrite Nat.eqb_refl. Qed.
Lemma put_other a i v k : k <> i -> put a i v k = a k.
Proof. intros N. unfold put. destruct (Nat.eqb_spec k i); [contradiction|reflexivity]. Qed.
Lemma steps_legendre x n : forall i res, (1 <= i)%nat -> (forall k, (k <= i)%nat -> legendre x k (res k)) -> forall k, (k <= i + n)%nat -> legendre x k (fold_left (leg_step x) (seq i n) res k).
Proof.
  induction n as [|n IH]; intros i res I H k K; [cbn [seq fold_left]; apply H; lia|]. cbn [seq fold_left]. apply IH; [lia| |lia]. intros j J. unfold leg_step. destruct (Nat.eq_dec j (i + 1)) as [->|N]; [|rewrite put_other by exact N; apply H; lia]. rewrite put_same. destruct i as [|i]; [lia|]. replace (S i + 1)%nat with (S (S i)) by lia. replace (S i - 1)%nat with i by lia. apply (LegS x i (res i) (res (S i))); [apply H; lia|apply H; lia|]. rewrite S_INR. assert (0 <= INR i) by apply pos_INR. field. lra.
Qed.
Lemma column_legendre x nmax k : (k < nmax)%nat -> legendre x k (leg_column x nmax k).
Proof.
  intros K. unfold leg_column. destruct (Nat.ltb_spec 0 nmax); [|lia]. destruct (Nat.ltb_spec 1 nmax).
  - apply steps_legendre; [lia| |lia]. intros j J. destruct j as [|[|j]]; [rewrite put_other, put_same by lia; constructor|rewrite put_same; constructor|lia].
  - replace nmax with 1%nat by lia. replace k with 0%nat by lia. cbn. constructor.
Qed.
Lemma build_some x nmax mi ma : least x mi -> most x ma -> mi < ma -> build_legendre x nmax = Some (map (fun v => leg_column ((v - mi) * (2 / (ma - mi)) - 1) nmax) x).
Proof.
  intros A B L. destruct x as [|a l]; [destruct A as [[] _]|]. unfold build_legendre. destruct (npmin_spec l a) as [P1 P2]. destruct (npmax_spec l a) as [Q1 Q2]. destruct A as [A1 A2]. destruct B as [B1 B2]. assert (E1 : npmin a l = mi) by (specialize (P2 _ A1); specialize (A2 _ P1); lra). assert (E2 : npmax a l = ma) by (specialize (Q2 _ B1); specialize (B2 _ Q1); lra). rewrite E1, E2. destruct (Req_EM_T ma mi); [lra|reflexivity].
Qed.
(* C172 the values are those of the Legendre polynomials at the x scaled to -1 to 1 *)
Theorem C172_legendre_partial x nmax mi ma : least x mi -> most x ma -> mi < ma -> exists out, build_legendre x nmax = Some out /\ length out = length x /\
  forall i k, (i < length x)%nat -> (k < nmax)%nat -> exists t, legendre t k (nth i out (fun _ => 0) k) /\ t * (ma - mi) = 2 * nth i x 0 - ma - mi.
Proof.
  intros A B L. rewrite (build_some x nmax mi ma A B L). eexists. split; [reflexivity|]. split; [apply map_length|]. intros i k I K. exists ((nth i x 0 - mi) * (2 / (ma - mi)) - 1). split; [|field; lra]. set (f := fun v => leg_column ((v - mi) * (2 / (ma - mi)) - 1) nmax). rewrite (nth_indep _ _ (f 0)) by (rewrite map_length; exact I). rewrite map_nth. unfold f. apply column_legendre, K.
Qed.
Lemma legendre_unique t n p : legendre t n p -> forall q, legendre t n q -> p = q.
Proof.
  intros H. induction H as [| |n p q r H1 IH1 H2 IH2 E]; intros s H; inversion H; subst; try reflexivity. rewrite <- (IH1 _ H3) in *. rewrite <- (IH2 _ H4) in *. assert (0 <= INR n) by apply pos_INR. apply (Rmult_eq_reg_l (INR n + 2)); lra.
Qed.
Lemma legendre_one n : legendre 1 n 1 /\ legendre 1 (S n) 1.
Proof. induction n as [|n [A B]]; split; try constructor; try assumption. apply (LegS 1 n 1 1); [assumption|assumption|lra]. Qed.
Lemma legendre_minus n : legendre (-1) n ((-1) ^ n) /\ legendre (-1) (S n) ((-1) ^ (S n)).
Proof. induction n as [|n [A B]]; split; try assumption; [constructor|cbn; rewrite Rmult_1_r; constructor|]. apply (LegS (-1) n ((-1) ^ n) ((-1) ^ (S n))); [assumption|assumption|cbn; ring]. Qed.
(* they are 1 at the largest x, and alternate at the smallest *)
Theorem C172_ends x nmax mi ma out i k : least x mi -> most x ma -> mi < ma -> build_legendre x nmax = Some out -> (i < length x)%nat -> (k < nmax)%nat ->
  (nth i x 0 = ma -> nth i out (fun _ => 0) k = 1) /\ (nth i x 0 = mi -> nth i out (fun _ => 0) k = (-1) ^ k).
Proof.
  intros A B L E I K. destruct (C172_legendre_partial x nmax mi ma A B L) as (o & E' & _ & H). rewrite E' in E. injection E as <-. destruct (H i k I K) as (t & T1 & T2). split; intros X; rewrite X in T2.
  - assert (t = 1) by (apply (Rmult_eq_reg_r (ma - mi)); lra). subst t. apply (legendre_unique 1 k _ T1). apply legendre_one.
  - assert (t = -1) by (apply (Rmult_eq_reg_r (ma - mi)); lra). subst t. apply (legendre_unique (-1) k _ T1). apply legendre_minus.
Qed.
(* without two different x it fails *)
Theorem C172_constant_refuted x nmax m : least x m -> most x m -> build_legendre x nmax = None.
Proof.
  intros [A1 A2] [B1 B2]. destruct x as [|a l]; [reflexivity|]. unfold build_legendre. destruct (npmin_spec l a) as [P1 P2]. destruct (npmax_spec l a) as [Q1 Q2]. pose proof (A2 _ P1). pose proof (B2 _ P1). pose proof (A2 _ Q1). pose proof (B2 _ Q1). destruct (Req_EM_T (npmax a l) (npmin a l)); [reflexivity|lra].
Qed.
Open Scope Z_scope.
Lemma ceil_quot a b s k : s <> 0 -> (Z.of_nat k < - ((a - b) / s) <-> ((0 < s -> a + Z.of_nat k * s < b) /\ (s < 0 -> b < a + Z.of_nat k * s))).
Proof.
  intros S. pose proof (Z.div_mod (a - b) s S) as D. set (q := (a - b) / s) in *. set (r := (a - b) mod s) in *. assert (R1 : 0 < s -> 0 <= r < s) by (intros; apply Z.mod_pos_bound; lia). assert (R2 : s < 0 -> s < r <= 0) by (intros; apply Z.mod_neg_bound; lia). clearbody q r. destruct (Z.lt_trichotomy s 0) as [N|[N|N]]; [|lia|]; [specialize (R2 N)|specialize (R1 N)]; (split; [intros H; split; intros; nia|intros [H1 H2]]); [specialize (H2 N)|specialize (H1 N)]; nia.
Qed.
(* C173 a range holds just its values, in order *)
Theorem C173_range_partial start stop step rest : step <> 0 -> exists l, parse_word (start :: stop :: step :: rest) = Some l /\ (forall v, In v l <-> in_range start stop step v) /\ forall k, (k < length l)%nat -> nth k l 0 = start + Z.of_nat k * step.
Proof.
  intros S. unfold parse_word, arange. destruct (Z.eqb_spec step 0); [contradiction|]. eexists. split; [reflexivity|]. split.
  - intros v. rewrite in_map_iff. split.
    + intros (k & <- & K). apply in_seq in K. exists (Z.of_nat k). split; [lia|]. split; [reflexivity|]. apply ceil_quot; [exact S|lia].
    + intros (k & K & -> & H). exists (Z.to_nat k). rewrite Z2Nat.id by exact K. split; [reflexivity|]. apply in_seq. split; [lia|]. pose proof (proj2 (ceil_quot start stop step (Z.to_nat k) S)) as C. rewrite Z2Nat.id in C by exact K. specialize (C H). lia.
  - intros k K. rewrite map_length, seq_length in K. set (f := fun k => start + Z.of_nat k * step). rewrite (nth_indep _ 0 (f 0%nat)) by (rewrite map_length, seq_length; exact K). rewrite map_nth, seq_nth by exact K. reflexivity.
Qed.
(* without a step it is one *)
Theorem C173_default start stop v : parse_word [start; stop] = parse_word [start; stop; 1] /\ parse_word [v] = Some [v].
Proof. split; reflexivity. Qed.
(* words are put one after the other *)
Theorem C173_words words outs : Forall2 (fun w o => parse_word w = Some o) words outs -> parse_numbers words true = Some (concat outs).
Proof.
  intros F. unfold parse_numbers. induction F as [|w o words outs H F IH]; [reflexivity|]. cbn [parse_words concat]. now rewrite H, IH.
Qed.
(* without a type nothing can be parsed, though that is the default *)
Theorem C173_dtype_refuted words : parse_numbers words false = None.
Proof. reflexivity. Qed.
(* C174 the old pixels are found behind what was put in front *)
Theorem C174_pad a p0 p1 : npix (pad_geometry a p0 p1) = p0 + npix a + p1 /\ forall i, (coord (pad_geometry a p0 p1) (p0 + i) == coord a i)%Q.
Proof. split; [reflexivity|]. intros i. unfold coord, pad_geometry. cbn [crpix crval cdelt]. rewrite inject_Z_plus. ring. Qed.
Print Assumptions C172_legendre_partial. Print Assumptions C172_ends. Print Assumptions C172_constant_refuted. Print Assumptions C173_range_partial. Print Assumptions C173_default. Print Assumptions C173_words. Print Assumptions C173_dtype_refuted. Print Assumptions C174_pad.
Example C172_ex_hyps : least [3; 1; 2]%R 1%R /\ most [3; 1; 2]%R 3%R.
Proof. split; (split; [cbn; tauto|intros x [<-|[<-|[<-|[]]]]; lra]). Qed.
Example C173_ex : parse_numbers [[4]; [1; 4]; [9; 2; -3]; [5; 5]; [0; 7; 3]] true = Some [4; 1; 2; 3; 9; 6; 3; 0; 3; 6].
Proof. reflexivity. Qed.
Example C174_ex : npix (pad_geometry {| npix := 10; crpix := 3; crval := 5; cdelt := 1 |} 2 3) = 15.
Proof. reflexivity. Qed.
