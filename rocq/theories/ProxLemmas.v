From Verif Require Import Base SliceSpec ArrModel ArrLemmas PixModel PixLemmas2 WindModel WindLemmas ProxSpec ProxModel.

Section P.
Context {E : Type} (swap neg : E -> E).
Definition fix1 (src : source) (c : Z) (v : E) : E := let v := if flipped src c then neg v else v in if native src then v else swap v.
Definition conv (src : source) : E -> E := if native src then fun v => v else swap.

Lemma read_spec src buf sc sp : exists buf', proxy_read swap neg src buf (sc, sp) =
   Some (FA (py_len sc (f_ny buf)) (py_len sp (f_nx buf)) (fun i j => fix1 src (sl_at sc (f_ny buf) i) (f_at buf (sl_at sc (f_ny buf) i) (sl_at sp (f_nx buf) j))), buf') /\
   f_ny buf' = f_ny buf /\ f_nx buf' = f_nx buf /\
   forall c p, f_at buf' c p = if shared src then match sl_find sc (f_ny buf) c, sl_find sp (f_nx buf) p with Some _, Some _ => fix1 src c (f_at buf c p) | _, _ => f_at buf c p end else f_at buf c p.
Proof.
  unfold proxy_read, get2. cbn [f_ny f_nx f_at]. destruct (shared src) eqn:S1.
  - unfold set2. cbn [f_ny f_nx f_at]. rewrite !Z.eqb_refl. cbn [andb bind]. eexists. split; [reflexivity|]. cbn [f_ny f_nx f_at]. split; [reflexivity|]. split; [reflexivity|].
    intros c p. destruct (sl_find sc (f_ny buf) c) as [i|] eqn:F1; [|reflexivity]. destruct (sl_find sp (f_nx buf) p) as [j|] eqn:F2; [|reflexivity].
    assert (A1 : forall s n k i, sl_find s n k = Some i -> sl_at s n i = k). { intros s n k i0. unfold sl_find, sl_at. destruct (_ && _) eqn:Z1; [|discriminate]. intros H. apply Some_inj in H. subst. lia. }
    rewrite (A1 _ _ _ _ F1), (A1 _ _ _ _ F2). reflexivity.
  - cbn [bind]. eexists. split; [reflexivity|]. auto.
Qed.

Lemma sl_find_at s n j : 0 <= j < py_len s n -> py_step s <> 0 -> sl_find s n (sl_at s n j) = Some j.
Proof.
  intros H Hs. unfold sl_find, sl_at. replace (py_start s n + py_step s * j - py_start s n) with (j * py_step s) by lia. rewrite Z.div_mul by exact Hs.
  destruct (_ && _) eqn:F; [reflexivity|]. lia.
Qed.

(* the buffer after some reads: each element is still as in the file, or has been converted and must not be read again *)
Lemma reads_spec src file : forall sels buf, f_ny buf = f_ny file -> f_nx buf = f_nx file ->
  (forall sel, In sel sels -> py_step (fst sel) <> 0 /\ py_step (snd sel) <> 0) ->
  (forall sel c p, In sel sels -> in_section (f_ny file) (f_nx file) sel c p -> f_at buf c p = f_at file c p) ->
  (shared src = false \/ (forall c v, fix1 src c v = v) \/ ForallOrdPairs (disjoint_sections (f_ny file) (f_nx file)) sels) ->
  exists outs, reads swap neg src buf sels = Some outs /\
    Forall2 (fun sel out => arr_eq out (get2 (load (conv src) neg (flipped src) file) (fst sel) (snd sel))) sels outs.
Proof.
  induction sels as [|[sc sp] sels IH]; intros buf Hy Hx Hst Hb Hd; [exists []; split; [reflexivity|constructor]|].
  cbn [reads]. destruct (read_spec src buf sc sp) as (buf' & -> & By & Bx & Bv). cbn [bind fst snd].
  destruct (IH buf') as (outs & -> & F).
  - lia.
  - lia.
  - intros sel Hi. apply Hst. right. exact Hi.
  - intros sel c p Hi Hin. rewrite Bv, Hy, Hx. rewrite (Hb sel c p (or_intror Hi) Hin). destruct Hd as [->|[Id|D]]; [reflexivity| |].
    + destruct (shared src); [|reflexivity]. destruct (sl_find sc _ c); [|reflexivity]. destruct (sl_find sp _ p); [|reflexivity]. apply Id.
    + inversion D as [|? ? D1 D2]; subst. rewrite Forall_forall in D1. specialize (D1 sel Hi c p). destruct (shared src); [|reflexivity].
      destruct (sl_find sc (f_ny file) c) eqn:F1; [|reflexivity]. destruct (sl_find sp (f_nx file) p) eqn:F2; [|reflexivity]. exfalso. apply D1. split; [|exact Hin]. split; cbn; congruence.
  - destruct Hd as [H|[H|H]]; [left; exact H|right; left; exact H|right; right; inversion H; assumption].
  - eexists. split; [reflexivity|]. constructor; [|exact F]. cbn [fst snd]. unfold arr_eq, get2, load. cbn [f_ny f_nx f_at]. rewrite Hy, Hx. split; [reflexivity|]. split; [reflexivity|].
    intros i j Hi Hj. destruct (Hst (sc, sp) (or_introl eq_refl)) as [S1 S2]. cbn in S1, S2.
    rewrite (Hb (sc, sp) _ _ (or_introl eq_refl)); [|split; cbn [fst snd]; rewrite sl_find_at by assumption; discriminate].
    unfold fix1, conv. destruct (native src); reflexivity.
Qed.
End P.
