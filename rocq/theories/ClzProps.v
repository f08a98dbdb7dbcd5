From Coq Require Import List Arith ZArith Reals Lia Lra.
From Verif Require Import BldModel BldLemmas ClzSpec ClzModel.
Import ListNotations.
Open Scope R_scope.
Ltac Zify.zify_post_hook ::= idtac.

Lemma ss_spec : forall vals a, (searchsorted vals a <= length vals)%nat /\ (forall k, (k < searchsorted vals a)%nat -> vnth vals k < a) /\ ((searchsorted vals a < length vals)%nat -> a <= vnth vals (searchsorted vals a)).
Proof.
  induction vals as [|v vals IH]; intros a; cbn [searchsorted length]; [split; [lia|split; intros; lia]|]. destruct (IH a) as (A & B & C). destruct (Rlt_dec v a) as [L|L].
  - split; [lia|]. split; [intros [|k] K; unfold vnth in *; cbn [nth]; [exact L|apply B; lia]|]. intros K. unfold vnth in *. cbn [nth]. apply C. lia.
  - split; [lia|]. split; [intros; lia|]. intros _. unfold vnth. cbn [nth]. lra.
Qed.
Lemma fg_spec : forall vals a, (first_greater vals a <= length vals)%nat /\ (forall k, (k < first_greater vals a)%nat -> vnth vals k <= a) /\ ((first_greater vals a < length vals)%nat -> a < vnth vals (first_greater vals a)).
Proof.
  induction vals as [|v vals IH]; intros a; cbn [first_greater length]; [split; [lia|split; intros; lia]|]. destruct (IH a) as (A & B & C). destruct (Rlt_dec a v) as [L|L].
  - split; [lia|]. split; [intros; lia|]. intros _. unfold vnth. cbn [nth]. exact L.
  - split; [lia|]. split; [intros [|k] K; unfold vnth in *; cbn [nth]; [lra|apply B; lia]|]. intros K. unfold vnth in *. cbn [nth]. apply C. lia.
Qed.
Lemma shade vals cols k : table vals cols -> 0 <= cnth cols k <= 255.
Proof.
  intros (_ & _ & _ & H). unfold cnth. destruct (le_lt_dec (length cols) k) as [L|L]; [rewrite nth_overflow by exact L; lra|]. specialize (H _ (nth_In cols 0%Z L)). split; [apply (IZR_le 0)|apply (IZR_le _ 255)]; lia.
Qed.
Lemma mix (c d x : R) : 0 <= c <= 255 -> 0 <= d <= 255 -> 0 <= x <= 1 -> 0 <= c * (1 - x) + d * x <= 255.
Proof.
  intros C D X. pose proof (Rmult_le_pos c (1 - x) ltac:(lra) ltac:(lra)). pose proof (Rmult_le_pos d x ltac:(lra) ltac:(lra)). pose proof (Rmult_le_pos (255 - c) (1 - x) ltac:(lra) ltac:(lra)). pose proof (Rmult_le_pos (255 - d) x ltac:(lra) ltac:(lra)). lra.
Qed.
Lemma frac_range a v w : v < w -> v <= a <= w -> 0 <= (a - v) / (w - v) <= 1.
Proof.
  intros L A. assert (I : 0 < / (w - v)) by (apply Rinv_0_lt_compat; lra). unfold Rdiv. split; [apply Rmult_le_pos; lra|]. apply (Rmult_le_reg_r (w - v)); [lra|]. rewrite Rmult_assoc, Rinv_l by lra. lra.
Qed.
Definition python_shade (vals : list R) (cols : list Z) (a : R) : R :=
  let i := Nat.min (Nat.max (searchsorted vals a) 1) (length vals - 1) in
  let x := Rmin (Rmax ((a - vnth vals (i - 1)) / (vnth vals i - vnth vals (i - 1))) 0) 1 in cnth cols (i - 1) * (1 - x) + cnth cols i * x.
Lemma python_line vals cols a : table vals cols -> on_line vals cols a (python_shade vals cols a) /\ 0 <= python_shade vals cols a <= 255.
Proof.
  intros T. pose proof T as (N & CL & INC & _). unfold python_shade. cbv zeta. destruct (ss_spec vals a) as (A & B & C). set (s := searchsorted vals a) in *. clearbody s. set (i := Nat.min (Nat.max s 1) (length vals - 1)).
  assert (I : (1 <= i <= length vals - 1)%nat) by (unfold i; lia). pose proof (INC (i - 1)%nat i ltac:(lia)) as W. set (x := Rmin (Rmax _ 0) 1).
  assert (X : 0 <= x <= 1). { unfold x. split; [apply Rmin_glb; [apply Rmax_r|lra]|apply Rmin_r]. }
  split; [|apply mix; [now apply (shade vals)|now apply (shade vals)|exact X]].
  destruct (Nat.eq_dec s 0) as [S0|S0]; [|destruct (Nat.eq_dec s (length vals)) as [SN|SN]].
  - left. specialize (C ltac:(lia)). rewrite S0 in C. split; [exact C|]. assert (i = 1%nat) as E by (unfold i; lia). assert (x = 0) as EX.
    { unfold x. rewrite E. replace (1 - 1)%nat with 0%nat by lia. rewrite E in W. cbn [Nat.sub] in W. assert (IV : 0 < / (vnth vals 1 - vnth vals 0)) by (apply Rinv_0_lt_compat; lra). assert (Q : (a - vnth vals 0) / (vnth vals 1 - vnth vals 0) <= 0). { unfold Rdiv. pose proof (Rmult_le_compat_r (/ (vnth vals 1 - vnth vals 0)) (a - vnth vals 0) 0 ltac:(lra) ltac:(lra)). lra. } rewrite Rmax_right by exact Q. apply Rmin_left. lra. }
    rewrite EX, E. cbn [Nat.sub]. ring.
  - right. left. assert (i = (length vals - 1)%nat) as E by (unfold i; lia). assert (LA : vnth vals (length vals - 1) < a) by (apply B; lia). split; [lra|]. assert (x = 1) as EX.
    { unfold x. rewrite E in *. set (v := vnth vals (length vals - 1 - 1)) in *. set (w := vnth vals (length vals - 1)) in *. assert (Q : 1 <= (a - v) / (w - v)). { apply (Rmult_le_reg_r (w - v)); [lra|]. unfold Rdiv. rewrite Rmult_assoc, Rinv_l by lra. lra. } rewrite Rmax_left by lra. apply Rmin_right. exact Q. }
    rewrite EX, E. ring.
  - right. right. assert (i = s) as E by (unfold i; lia). exists (s - 1)%nat. replace (s - 1 + 1)%nat with s by lia. specialize (C ltac:(lia)). pose proof (B (s - 1)%nat ltac:(lia)) as B1. split; [lia|]. split; [lra|]. unfold x. rewrite E in *. set (v := vnth vals (s - 1)) in *. set (w := vnth vals s) in *.
    destruct (frac_range a v w W ltac:(lra)) as [F0 F1]. rewrite Rmax_left by lra. rewrite Rmin_left by lra. field. lra.
Qed.
(* C144 the shade is the line rounded to a whole number *)
Theorem C144_python vals cols a : table vals cols -> exists y, on_line vals cols a y /\ Rabs (IZR (colorize_python vals cols (Some a)) - y) <= 1 / 2 /\ (0 <= colorize_python vals cols (Some a) <= 255)%Z.
Proof.
  intros T. exists (python_shade vals cols a). destruct (python_line vals cols a T) as [L B]. split; [exact L|]. unfold colorize_python. cbv zeta. fold (python_shade vals cols a). set (y := python_shade vals cols a) in *. pose proof (roundR_spec y) as R1. split; [|lia].
  assert (0 <= roundR y <= 255)%Z as K. { unfold Rabs in R1. assert (-1 < IZR (roundR y) < 256) as [K1 K2] by (destruct (Rcase_abs _) in R1; lra). apply (lt_IZR (-1)) in K1. apply (lt_IZR _ 256) in K2. lia. }
  replace (Z.min (Z.max (roundR y) 0) 255) with (roundR y) by lia. exact R1.
Qed.
Print Assumptions C144_python.
Lemma nint_spec x : Rabs (IZR (nint x) - x) <= 1 / 2.
Proof.
  unfold nint. destruct (Rlt_dec x 0).
  - pose proof (floorR_spec (- x + 1 / 2)). rewrite opp_IZR. unfold Rabs. destruct (Rcase_abs _); lra.
  - pose proof (floorR_spec (x + 1 / 2)). unfold Rabs. destruct (Rcase_abs _); lra.
Qed.
Theorem C144_fortran vals cols a : table vals cols -> exists y, on_line vals cols a y /\ Rabs (IZR (colorize_fortran vals cols (Some a)) - y) <= 1 / 2 /\ (0 <= colorize_fortran vals cols (Some a) <= 255)%Z.
Proof.
  intros T. pose proof T as (N & CL & INC & CB). unfold colorize_fortran. cbv zeta. destruct (fg_spec vals a) as (A & B & C). set (j := first_greater vals a) in *. clearbody j. assert (Z0 : forall z, Rabs (IZR z - IZR z) <= 1 / 2) by (intros z; replace (IZR z - IZR z) with 0 by ring; rewrite Rabs_R0; lra).
  assert (CI : forall k, (k < length vals)%nat -> (0 <= nth k cols 0 <= 255)%Z) by (intros k K; apply CB, nth_In; lia).
  destruct (Nat.leb_spec j 0) as [J0|J0]; [|destruct (Nat.leb_spec (length vals) j) as [JN|JN]].
  - assert (j = 0%nat) by lia. subst j. exists (cnth cols 0). specialize (C ltac:(lia)). split; [left; split; [lra|reflexivity]|]. split; [apply Z0|apply CI; lia].
  - exists (cnth cols (length vals - 1)). split; [right; left; split; [apply B; lia|reflexivity]|]. split; [apply Z0|apply CI; lia].
  - specialize (C JN). pose proof (B (j - 1)%nat ltac:(lia)) as B1. pose proof (INC (j - 1)%nat j ltac:(lia)) as W. set (v := vnth vals (j - 1)) in *. set (w := vnth vals j) in *. set (y := cnth cols (j - 1) + (a - v) * (cnth cols j - cnth cols (j - 1)) / (w - v)). exists y. split.
    + right. right. exists (j - 1)%nat. replace (j - 1 + 1)%nat with j by lia. fold v w. split; [lia|]. split; [lra|]. unfold y. field. lra.
    + pose proof (nint_spec y) as R1. destruct (frac_range a v w W ltac:(lra)) as [F0 F1]. assert (Y : 0 <= y <= 255). { replace y with (cnth cols (j - 1) * (1 - (a - v) / (w - v)) + cnth cols j * ((a - v) / (w - v))) by (unfold y; field; lra). apply mix; [now apply (shade vals)|now apply (shade vals)|lra]. }
      assert (0 <= nint y <= 255)%Z as K. { unfold Rabs in R1. assert (-1 < IZR (nint y) < 256) as [K1 K2] by (destruct (Rcase_abs _) in R1; lra). apply (lt_IZR (-1)) in K1. apply (lt_IZR _ 256) in K2. lia. }
      replace (Z.min (Z.max 0 (nint y)) 255) with (nint y) by lia. split; [exact R1|exact K].
Qed.
Print Assumptions C144_fortran.
(* the line has one value everywhere *)
Lemma sorted_le vals cols i j : table vals cols -> (i <= j < length vals)%nat -> vnth vals i <= vnth vals j.
Proof. intros (_ & _ & INC & _) H. destruct (Nat.eq_dec i j); [subst; lra|]. left. apply INC. lia. Qed.
Lemma seg_eq (c d v w a y : R) : v < w -> (y - c) * (w - v) = (a - v) * (d - c) -> (a = v -> y = c) /\ (a = w -> y = d).
Proof.
  intros L H. split; intros ->.
  - replace ((v - v) * (d - c)) with 0 in H by ring. apply Rmult_integral in H. lra.
  - assert ((y - d) * (w - v) = 0) as E by lra. apply Rmult_integral in E. lra.
Qed.
Theorem C144_line vals cols a y y' : table vals cols -> on_line vals cols a y -> on_line vals cols a y' -> y = y'.
Proof.
  intros T. pose proof T as (N & _ & INC & _).
  assert (W : forall k, (k + 1 < length vals)%nat -> vnth vals k < vnth vals (k + 1)) by (intros; apply INC; lia).
  assert (LE : forall i j, (i <= j < length vals)%nat -> vnth vals i <= vnth vals j) by (intros i j H; exact (sorted_le vals cols i j T H)).
  assert (ENDS : vnth vals 0 < vnth vals (length vals - 1)) by (apply INC; lia).
  (* a segment that meets a left or right end *)
  assert (SL : forall k z, (k + 1 < length vals)%nat -> vnth vals k <= a <= vnth vals (k + 1) -> (z - cnth cols k) * (vnth vals (k + 1) - vnth vals k) = (a - vnth vals k) * (cnth cols (k + 1) - cnth cols k) -> a <= vnth vals 0 -> z = cnth cols 0).
  { intros k z K A E L. destruct k as [|k]; [|exfalso; pose proof (INC 0%nat (S k) ltac:(lia)); lra]. apply (seg_eq _ _ _ _ _ _ (W 0%nat K) E). lra. }
  assert (SR : forall k z, (k + 1 < length vals)%nat -> vnth vals k <= a <= vnth vals (k + 1) -> (z - cnth cols k) * (vnth vals (k + 1) - vnth vals k) = (a - vnth vals k) * (cnth cols (k + 1) - cnth cols k) -> vnth vals (length vals - 1) <= a -> z = cnth cols (length vals - 1)).
  { intros k z K A E L. destruct (Nat.eq_dec (k + 1) (length vals - 1)) as [Q|Q]; [|exfalso; pose proof (INC (k + 1)%nat (length vals - 1)%nat ltac:(lia)); lra]. rewrite <- Q in *. apply (seg_eq _ _ _ _ _ _ (W k K) E). lra. }
  assert (SS : forall k l z z', (k < l)%nat -> (l + 1 < length vals)%nat -> vnth vals k <= a <= vnth vals (k + 1) -> vnth vals l <= a <= vnth vals (l + 1) -> (z - cnth cols k) * (vnth vals (k + 1) - vnth vals k) = (a - vnth vals k) * (cnth cols (k + 1) - cnth cols k) -> (z' - cnth cols l) * (vnth vals (l + 1) - vnth vals l) = (a - vnth vals l) * (cnth cols (l + 1) - cnth cols l) -> z = z').
  { intros k l z z' KL L A A' E E'. pose proof (LE (k + 1)%nat l ltac:(lia)). assert (k + 1 = l)%nat as Q. { destruct (Nat.eq_dec (k + 1) l); [assumption|]. pose proof (INC (k + 1)%nat l ltac:(lia)). lra. } subst l. rewrite (proj2 (seg_eq _ _ _ _ _ _ (W k ltac:(lia)) E)) by lra. rewrite (proj1 (seg_eq _ _ _ _ _ _ (W (k + 1)%nat L) E')) by lra. reflexivity. }
  intros [[A E]|[[A E]|(k & K & A & E)]] [[A' E']|[[A' E']|(l & L & A' & E')]]; subst; try reflexivity; try lra.
  - symmetry. now apply (SL l).
  - symmetry. now apply (SR l).
  - now apply (SL k).
  - now apply (SR k).
  - destruct (lt_eq_lt_dec k l) as [[KL| ->]|KL].
    + now apply (SS k l).
    + apply (Rmult_eq_reg_r (vnth vals (l + 1) - vnth vals l)); [lra|]. pose proof (W l L). lra.
    + symmetry. now apply (SS l k).
Qed.
Print Assumptions C144_line.
(* so the drivers differ by at most one, and not at all unless the line is halfway between shades *)
Theorem C144_drivers_partial vals cols a : table vals cols -> (Z.abs (colorize_python vals cols (Some a) - colorize_fortran vals cols (Some a)) <= 1)%Z /\
  (forall y, on_line vals cols a y -> (forall k : Z, y <> IZR k + 1 / 2) -> colorize_python vals cols (Some a) = colorize_fortran vals cols (Some a)).
Proof.
  intros T. destruct (C144_python vals cols a T) as (y & L & P & _). destruct (C144_fortran vals cols a T) as (y' & L' & F & _). rewrite <- (C144_line vals cols a y y' T L L') in F. set (p := colorize_python vals cols (Some a)) in *. set (f := colorize_fortran vals cols (Some a)) in *. clearbody p f.
  assert (D : -1 <= IZR p - IZR f <= 1) by (unfold Rabs in P, F; destruct (Rcase_abs _) in P; destruct (Rcase_abs _) in F; lra). rewrite <- minus_IZR in D. assert (K : (-1 <= p - f <= 1)%Z) by (destruct D as [D1 D2]; apply (le_IZR (-1)) in D1; apply (le_IZR _ 1) in D2; lia). split; [lia|].
  intros z LZ NH. rewrite (C144_line vals cols a z y T LZ L) in NH. destruct (Z.eq_dec p f) as [|NE]; [assumption|]. exfalso. assert (p = f + 1 \/ p = f - 1)%Z as [Q|Q] by lia; subst p.
  - apply (NH f). rewrite plus_IZR in P. unfold Rabs in P, F. destruct (Rcase_abs _) in P; destruct (Rcase_abs _) in F; lra.
  - apply (NH (f - 1)%Z). rewrite minus_IZR in *. unfold Rabs in P, F. destruct (Rcase_abs _) in P; destruct (Rcase_abs _) in F; lra.
Qed.
Print Assumptions C144_drivers_partial.
(* at a value of the table both give its shade *)
Theorem C144_exact vals cols k : table vals cols -> (k < length vals)%nat -> colorize_python vals cols (Some (vnth vals k)) = nth k cols 0%Z /\ colorize_fortran vals cols (Some (vnth vals k)) = nth k cols 0%Z.
Proof.
  intros T K. pose proof T as (N & _ & INC & _). assert (L0 : on_line vals cols (vnth vals k) (cnth cols k)).
  { destruct (Nat.eq_dec k (length vals - 1)) as [E|E]; [right; left; rewrite <- E; split; [lra|reflexivity]|]. right. right. exists k. pose proof (INC k (k + 1)%nat ltac:(lia)). split; [lia|]. split; [lra|]. ring. }
  assert (W : forall z y, on_line vals cols (vnth vals k) y -> Rabs (IZR z - y) <= 1 / 2 -> z = nth k cols 0%Z).
  { intros z y L H. rewrite (C144_line vals cols _ y _ T L L0) in H. unfold cnth in H. set (c := nth k cols 0%Z) in *. assert (-1 < IZR z - IZR c < 1) as [A B] by (unfold Rabs in H; destruct (Rcase_abs _) in H; lra). rewrite <- minus_IZR in A, B. apply (lt_IZR (-1)) in A. apply (lt_IZR _ 1) in B. lia. }
  destruct (C144_python vals cols (vnth vals k) T) as (y & L & P & _). destruct (C144_fortran vals cols (vnth vals k) T) as (y' & L' & F & _). split; [now apply (W _ y)|now apply (W _ y')].
Qed.
Print Assumptions C144_exact.
(* what is not a number is transparent *)
Theorem C144_nan vals cols : colorize_python vals cols None = 0%Z /\ colorize_fortran vals cols None = 0%Z.
Proof. split; reflexivity. Qed.
Lemma gray01 : table [0; 1] [0; 1]%Z.
Proof.
  split; [cbn; lia|]. split; [reflexivity|]. split; [|intros c [<-|[<-|[]]]; lia]. intros [|[|i]] [|[|j]] H; cbn in H; try lia. unfold vnth. cbn [nth]. lra.
Qed.
(* halfway between shades they differ: one rounds to even, the other up *)
Theorem C144_drivers_refuted : exists vals cols a, table vals cols /\ colorize_python vals cols (Some a) <> colorize_fortran vals cols (Some a).
Proof.
  exists [0; 1], [0; 1]%Z, (1 / 2). split; [exact gray01|].
  assert (P : colorize_python [0; 1] [0; 1]%Z (Some (1 / 2)) = 0%Z).
  { unfold colorize_python. cbn [searchsorted]. destruct (Rlt_dec 0 (1 / 2)); [|lra]. destruct (Rlt_dec 1 (1 / 2)); [lra|]. cbn [length Nat.max Nat.min Nat.sub]. unfold vnth, cnth. cbn [nth]. replace ((1 / 2 - 0) / (1 - 0)) with (1 / 2) by field. rewrite Rmax_left by lra. rewrite Rmin_left by lra. replace (0 * (1 - 1 / 2) + 1 * (1 / 2)) with (1 / 2) by field.
    unfold roundR. rewrite (floorR_unique (1 / 2) 0) by lra. destruct (Rlt_dec (1 / 2 - 0) (1 / 2)); [lra|]. destruct (Rlt_dec (1 / 2) (1 / 2 - 0)); [lra|]. reflexivity. }
  assert (F : colorize_fortran [0; 1] [0; 1]%Z (Some (1 / 2)) = 1%Z).
  { unfold colorize_fortran. cbn [first_greater]. destruct (Rlt_dec (1 / 2) 0); [lra|]. destruct (Rlt_dec (1 / 2) 1); [|lra]. cbn [length Nat.leb Nat.sub]. unfold vnth, cnth. cbn [nth]. replace (0 + (1 / 2 - 0) * (1 - 0) / (1 - 0)) with (1 / 2) by field. unfold nint. destruct (Rlt_dec (1 / 2) 0); [lra|]. rewrite (floorR_unique (1 / 2 + 1 / 2) 1) by lra. reflexivity. }
  rewrite P, F. discriminate.
Qed.
Print Assumptions C144_drivers_refuted. Print Assumptions C144_nan.
Example C144_ex : colorize_python [0; 1] [0; 1]%Z (Some 1) = 1%Z.
Proof. exact (proj1 (C144_exact [0; 1] [0; 1]%Z 1%nat gray01 ltac:(cbn; lia))). Qed.
Example C144_ex_hyps : table [0; 1] [0; 1]%Z /\ on_line [0; 1] [0; 1]%Z (1 / 4) (1 / 4).
Proof. split; [exact gray01|]. right. right. exists 0%nat. split; [cbn; lia|]. unfold vnth, cnth. cbn [nth Nat.add]. lra. Qed.
