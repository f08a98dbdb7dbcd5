From Coq Require Import List ZArith Bool Lia FunctionalExtensionality.
From Verif Require Import BchSpec BchModel.
Import ListNotations.
Open Scope Z_scope.
Ltac Zify.zify_post_hook ::= idtac.

(* show is used with the default clock only *)
Fixpoint default_show (p : prog) : Prop :=
  match p with Pass | Work _ | Fail | Add _ _ => True | Seq p q => default_show p /\ default_show q | Try p | Mark _ _ p => default_show p | Show _ tfun p => clock tfun = 0%nat /\ default_show p end.
Definition adds (l : list (nat * Z)) (b : bench) : bench := fold_left (fun b e => add b (fst e) (snd e)) l b.
Lemma run_spec : forall p s, default_show p -> snd (run p s) = raises p /\ (forall c, clocks (fst (run p s)) c = clocks s c + elapsed p c) /\ stats (fst (run p s)) = adds (blocks p) (stats s).
Proof.
  induction p as [|d| |p IHp q IHq|p IH|name tfun p IH|name tfun p IH|name t]; intros s H; cbn [run raises elapsed blocks default_show] in *.
  - split; [reflexivity|]. split; [intros; cbn; lia|reflexivity].
  - split; [reflexivity|]. split; [intros; cbn; lia|reflexivity].
  - split; [reflexivity|]. split; [intros; cbn; lia|reflexivity].
  - destruct H as [HP HQ]. destruct (IHp s HP) as (A & B & C). destruct (run p s) as [s' r]. cbn [fst snd] in *. subst r. destruct (raises p); cbn [orb].
    + split; [reflexivity|]. split; [intros c; cbn [fst]; rewrite B; lia|rewrite app_nil_r; exact C].
    + destruct (IHq s' HQ) as (A' & B' & C'). split; [exact A'|]. split; [intros c; rewrite B', B; lia|]. rewrite C', C. unfold adds. now rewrite fold_left_app.
  - destruct (IH s H) as (A & B & C). split; [reflexivity|]. split; assumption.
  - destruct (IH s H) as (A & B & C). unfold mark. destruct (run p s) as [s' r]. cbn [fst snd clocks stats] in *. split; [exact A|]. split; [exact B|]. unfold adds. rewrite fold_left_app. cbn [fold_left fst snd]. rewrite C. unfold adds. f_equal. unfold read. fold (clock tfun). rewrite B. lia.
  - destruct H as [H0 H]. destruct (IH s H) as (A & B & C). unfold show, mark. destruct (run p s) as [s' r]. cbn [fst snd clocks stats] in *. split; [exact A|]. split; [exact B|]. unfold adds. rewrite fold_left_app. cbn [fold_left fst snd]. rewrite C. unfold adds. f_equal. unfold read. rewrite B, H0. lia.
  - split; [reflexivity|]. split; [intros; cbn; lia|reflexivity].
Qed.
Definition optn (l : list Z) (v : Z) : option Z := match l with [] => None | _ => Some v end.
Lemma times_app name l l' : times name (l ++ l') = times name l ++ times name l'.
Proof. unfold times. now rewrite filter_app, map_app. Qed.
Lemma times_one name k t : times name [(k, t)] = if Nat.eqb k name then [t] else [].
Proof. unfold times. cbn [filter fst]. destruct (Nat.eqb k name); reflexivity. Qed.
Lemma total_app l l' : total (l ++ l') = total l + total l'.
Proof. unfold total. induction l; cbn; [reflexivity|]. rewrite IHl. ring. Qed.
Lemma adds_spec l name : let b := adds l empty in b_n b name = optn (times name l) (Z.of_nat (length (times name l))) /\ b_tot b name = optn (times name l) (total (times name l)) /\ b_t b name = optn (times name l) (last (times name l) 0).
Proof.
  induction l as [|[k t] l IH] using rev_ind; [cbn; auto|]. unfold adds in *. rewrite fold_left_app. cbn [fold_left fst snd]. cbv zeta in *. set (b := fold_left _ l empty) in *. clearbody b. destruct IH as (A & B & C). rewrite times_app, times_one.
  destruct (Nat.eqb_spec k name) as [->|N].
  - set (x := times name l) in *. clearbody x. unfold add. destruct (b_n b name) as [n|] eqn:E.
    + destruct x as [|x0 x]; [discriminate|]. cbn [optn] in A. injection A as ->. cbn [b_n b_tot b_t]. unfold plus, set. rewrite Nat.eqb_refl. rewrite E, B. cbn [optn option_map app]. rewrite app_comm_cons. rewrite app_length, total_app. cbn [length total fold_right]. split; [f_equal; lia|]. split; [f_equal; cbn; lia|]. f_equal. rewrite last_last. reflexivity.
    + destruct x as [|x0 x]; [|discriminate]. cbn [b_n b_tot b_t]. unfold plus, set. rewrite Nat.eqb_refl. cbn. split; [reflexivity|]. split; [f_equal; lia|reflexivity].
  - rewrite ?app_nil_r. unfold add. assert (Q : Nat.eqb name k = false) by (apply Nat.eqb_neq; auto). destruct (b_n b k); cbn [b_n b_tot b_t]; unfold plus, set; rewrite Q; auto.
Qed.
Definition start (c : nat -> Z) : state := State c empty [].
(* C148 the statistics after any program, with nested blocks, failures and all: number, total and last time of every name *)
Theorem C148_stats_partial p c name : default_show p -> let b := stats (fst (run p (start c))) in let l := times name (blocks p) in
  (l = [] -> b_n b name = None /\ b_tot b name = None /\ b_t b name = None) /\
  (l <> [] -> b_n b name = Some (Z.of_nat (length l)) /\ b_tot b name = Some (total l) /\ b_t b name = Some (last l 0)).
Proof.
  intros H. destruct (run_spec p (start c) H) as (_ & _ & S). cbv zeta. rewrite S. destruct (adds_spec (blocks p) name) as (A & B & C). cbn [stats start]. rewrite A, B, C. destruct (times name (blocks p)); cbn [optn]; (split; intros K; [try discriminate; auto|try (exfalso; apply K; reflexivity); auto]).
Qed.
(* timing changes neither what the program does to the clocks nor whether it fails *)
Theorem C148_transparent p c k : default_show p -> snd (run p (start c)) = raises p /\ clocks (fst (run p (start c))) k = c k + elapsed p k.
Proof. intros H. destruct (run_spec p (start c) H) as (A & B & _). split; [exact A|]. rewrite B. reflexivity. Qed.
(* a clock given to show is not used *)
Theorem C148_show_refuted : exists p c name, blocks p = [(name, 7)] /\ b_t (stats (fst (run p (start c)))) name = Some 1.
Proof. exists (Show 0 (Some 1%nat) (Work (fun c => match c with 0%nat => 1 | _ => 7 end))), (fun _ => 0), 0%nat. split; reflexivity. Qed.
(* no block takes longer than what it is part of, if all use the same clock and it does not run backwards *)
Fixpoint one_clock (c : nat) (p : prog) : Prop :=
  match p with Pass | Fail => True | Work d => 0 <= d c | Add _ _ => False | Seq p q => one_clock c p /\ one_clock c q | Try p => one_clock c p | Mark _ tfun p | Show _ tfun p => clock tfun = c /\ one_clock c p end.
Theorem C148_nested c p : one_clock c p -> 0 <= elapsed p c /\ forall name d, In (name, d) (blocks p) -> 0 <= d <= elapsed p c.
Proof.
  induction p as [|d| |p IHp q IHq|p IH|name tfun p IH|name tfun p IH|name t]; cbn [one_clock elapsed blocks]; intros H.
  - split; [lia|intros ? ? []].
  - split; [exact H|intros ? ? []].
  - split; [lia|intros ? ? []].
  - destruct H as [HP HQ]. destruct (IHp HP) as [A B]. destruct (IHq HQ) as [A' B']. destruct (raises p); (split; [lia|]); intros name d I; apply in_app_iff in I; destruct I as [I|I]; [specialize (B _ _ I); lia|destruct I|specialize (B _ _ I); lia|specialize (B' _ _ I); lia].
  - now apply IH.
  - destruct H as [<- H]. destruct (IH H) as [A B]. split; [exact A|]. intros n d I. apply in_app_iff in I. destruct I as [I|[I|[]]]; [now apply (B n)|]. injection I as _ <-. lia.
  - destruct H as [<- H]. destruct (IH H) as [A B]. split; [exact A|]. intros n d I. apply in_app_iff in I. destruct I as [I|[I|[]]]; [now apply (B n)|]. injection I as _ <-. lia.
  - contradiction.
Qed.
(* every line that is printed has all its numbers *)
Definition good (b : bench) : Prop := forall k, b_n b k <> None -> b_tot b k <> None /\ b_t b k <> None.
Lemma add_good b name t : good b -> good (add b name t) /\ b_n (add b name t) name <> None.
Proof.
  intros G. unfold add. destruct (b_n b name) as [n|] eqn:E.
  - split; [|cbn [b_n]; unfold plus, set; rewrite Nat.eqb_refl, E; discriminate]. intros k. cbn [b_n b_tot b_t]. unfold plus, set. destruct (Nat.eqb_spec k name) as [->|N]; [|apply G]. intros _. destruct (G name ltac:(congruence)) as [T _]. destruct (b_tot b name); [|contradiction]. split; discriminate.
  - split; [|cbn [b_n]; unfold plus, set; rewrite !Nat.eqb_refl; discriminate]. intros k. cbn [b_n b_tot b_t]. unfold plus, set. rewrite !Nat.eqb_refl. destruct (Nat.eqb_spec k name) as [->|N]; [|apply G]. intros _. split; discriminate.
Qed.
Definition full_lines (s : state) : Prop := good (stats s) /\ forall name t tot n, In (name, (t, tot, n)) (lines s) -> t <> None /\ tot <> None /\ n <> None.
Lemma run_full : forall p s, full_lines s -> full_lines (fst (run p s)).
Proof.
  induction p as [|d| |p IHp q IHq|p IH|name tfun p IH|name tfun p IH|name t]; intros s H; cbn [run]; try exact H.
  - specialize (IHp s H). destruct (run p s) as [s' r]. cbn [fst] in *. destruct r; [exact IHp|now apply IHq].
  - now apply IH.
  - unfold mark. specialize (IH s H). destruct (run p s) as [s' r]. cbn [fst] in *. destruct IH as [G L]. split; [apply add_good; exact G|exact L].
  - unfold show, mark. specialize (IH s H). destruct (run p s) as [s' r]. cbn [fst stats lines clocks] in *. destruct IH as [G L]. destruct (add_good (stats s') name (read s' None - read s None) G) as [G' N]. split; [exact G'|]. intros k t tot n I. apply in_app_iff in I. destruct I as [I|[I|[]]]; [now apply (L k)|]. injection I as <- <- <- <-. destruct (G' name N). auto.
  - destruct H as [G L]. split; [apply add_good; exact G|exact L].
Qed.
Theorem C148_lines p c name t tot n : In (name, (t, tot, n)) (lines (fst (run p (start c)))) -> t <> None /\ tot <> None /\ n <> None.
Proof. apply (run_full p (start c)). split; [intros k H; exfalso; apply H; reflexivity|intros ? ? ? ? []]. Qed.
Print Assumptions C148_stats_partial. Print Assumptions C148_transparent. Print Assumptions C148_show_refuted. Print Assumptions C148_nested. Print Assumptions C148_lines.
Definition demo : prog := Seq (Mark 0 None (Seq (Work (fun _ => 3)) (Mark 1 None (Work (fun _ => 2))))) (Try (Mark 1 (Some 5%nat) (Seq (Work (fun _ => 4)) (Seq Fail (Work (fun _ => 100)))))).
Example C148_ex : blocks demo = [(1%nat, 2); (0%nat, 5); (1%nat, 4)] /\ b_tot (stats (fst (run demo (start (fun _ => 10))))) 1%nat = Some 6.
Proof. split; reflexivity. Qed.
Example C148_ex_hyps : default_show demo /\ times 1 (blocks demo) <> [] /\ one_clock 0 (Mark 0 None (Seq (Work (fun _ => 3)) (Mark 1 None (Work (fun _ => 2))))).
Proof. cbn. split; [tauto|]. split; [discriminate|]. repeat split; lia. Qed.
