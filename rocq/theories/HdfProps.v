From Coq Require Import List String Bool Permutation.
From Verif Require Import HdfSpec HdfModel.
Import ListNotations.

Lemma prefixb_spec p : forall q, prefixb p q = true <-> below p q.
Proof.
  induction p as [|a p IH]; intros q; cbn.
  - split; [intros _; now exists q|reflexivity].
  - destruct q as [|b q].
    + split; [discriminate|]. intros [r E]. discriminate.
    + rewrite andb_true_iff, String.eqb_eq, IH. split.
      * intros [-> [r ->]]. now exists r.
      * intros [r E]. injection E as <- ->. split; [reflexivity|now exists r].
Qed.
Lemma prefixb_false p q : prefixb p q = false <-> ~ below p q.
Proof. rewrite <- prefixb_spec. now rewrite not_true_iff_false. Qed.
Lemma eqpath_spec p : forall q, eqpath p q = true <-> p = q.
Proof.
  induction p as [|a p IH]; intros [|b q]; cbn; try (split; [discriminate|discriminate]); [tauto|].
  rewrite andb_true_iff, String.eqb_eq, IH. split; [intros [-> ->]; reflexivity|intros [= -> ->]; auto].
Qed.
Lemma last_key_spec p : forall q k, last_key p q = Some k <-> q = p ++ [k].
Proof.
  induction p as [|a p IH]; intros q k; cbn.
  - destruct q as [|b [|c q]]; try (split; [discriminate|discriminate]). split; [intros [= ->]; reflexivity|intros [= ->]; reflexivity].
  - destruct q as [|b q]; [split; [discriminate|discriminate]|]. destruct (String.eqb_spec a b) as [->|N].
    + rewrite IH. split; [intros ->; reflexivity|intros [= ->]; reflexivity].
    + split; [discriminate|intros [= -> _]; contradiction].
Qed.

Definition free p := free_address p.
Lemma below_tail p q k : below p (q ++ [k]) <-> below p q \/ p = q ++ [k].
Proof.
  split.
  - intros [r E]. destruct r as [|x r] using rev_ind; [right; now rewrite app_nil_r in E|]. rewrite app_assoc in E. apply app_inj_tail in E as [E _]. left. now exists r.
  - intros [[r ->]| ->]; [exists (r ++ [k]); now rewrite app_assoc|exists []; now rewrite app_nil_r].
Qed.
Lemma free_snoc p k : free (p ++ [k]) -> k <> "data"%string /\ k <> "wcs"%string /\ free p.
Proof.
  intros [A B]. rewrite in_app_iff in A, B. cbn in A, B. repeat split; tauto.
Qed.
Lemma free_below p q : free q -> below p q -> free p.
Proof. intros [A B] [r ->]. rewrite in_app_iff in A, B. split; tauto. Qed.

Section P.
Context {D W V : Type}.
Variable to_header : W -> list (string * V).
Variable of_header : list (string * V) -> option W.
Variable order : list (string * V) -> list (string * V).
(* a header has cards with different keys, from which the coordinate system can be read in any order *)
Hypothesis keys : forall w, NoDup (map fst (to_header w)).
Hypothesis some_key : forall w, to_header w <> [].
Hypothesis ordered : forall h, Permutation (order h) h.
Hypothesis header : forall w h, Permutation h (to_header w) -> of_header h = Some w.
Notation file := (@file D V). Notation object := (@object D V).
Notation write := (@write_hdf D W V to_header).
Notation read := (@read_hdf D W V of_header order).

Definition wcs_path (p : path) (c : string * V) : path * object := (p ++ ["wcs"%string; fst c], Card (snd c)).
Definition content (p : path) (m : D * W) : file := (p ++ ["data"%string], Array (fst m)) :: map (wcs_path p) (to_header (snd m)).

(* what may be in a file *)
Definition ok (e : path * object) : Prop :=
  match snd e with
  | Group => free (fst e)
  | Array _ => exists q, free q /\ fst e = q ++ ["data"%string]
  | Card _ => exists q k, free q /\ fst e = q ++ ["wcs"%string; k]
  end.
Definition array_at (p : path) (e : path * object) : list D :=
  match eqpath (p ++ ["data"%string]) (fst e), snd e with true, Array d => [d] | _, _ => [] end.
Definition arrays (f : file) (p : path) : list D := flat_map (array_at p) f.
Definition holds (f : file) (p : path) (v : option (D * W)) : Prop :=
  match v with
  | None => arrays f p = []
  | Some (d, w) => arrays f p = [d] /\ cards_of f p = to_header w
  end.

Lemma split_wcs (q : path) (k : string) : q ++ ["wcs"%string; k] = (q ++ ["wcs"%string]) ++ [k].
Proof. now rewrite <- app_assoc. Qed.
Lemma in_snoc (q : path) (k : string) : In k (q ++ [k]).
Proof. apply in_or_app. right. now left. Qed.

Lemma arrays_data f p : free p -> Forall ok f -> data_of f p = match arrays f p with d :: _ => Some d | [] => None end.
Proof.
  intros Fp F. unfold data_of, arrays. induction F as [|[q o] f O F IH]; [reflexivity|]. cbn [filter flat_map fst snd].
  unfold array_at at 1. cbn [fst snd]. destruct (eqpath _ q) eqn:E; [|exact IH]. apply eqpath_spec in E. subst q.
  destruct o; cbn in *; [|reflexivity|].
  - apply free_snoc in O. tauto.
  - destruct O as (q & k & [_ Q] & E). rewrite split_wcs in E. apply app_inj_tail in E as [-> _]. exfalso. apply (proj2 Fp). apply in_snoc.
Qed.

Lemma del_absent (f : file) p : has f p = false -> del f p = f.
Proof.
  unfold has, del. induction f as [|e f IH]; [reflexivity|]. cbn. rewrite orb_false_iff. intros [-> H]. cbn. now rewrite IH.
Qed.
Lemma has_spec (f : file) p : has f p = true <-> exists e, In e f /\ below p (fst e).
Proof. unfold has. rewrite existsb_exists. split; intros (e & A & B); exists e; split; try exact A; now apply prefixb_spec. Qed.
Lemma below_trans p q r : below p q -> below q r -> below p r.
Proof. intros [a ->] [b ->]. exists (a ++ b). now rewrite app_assoc. Qed.
Lemma has_del (f : file) p t : below p t -> has (del f p) t = false.
Proof.
  intros B. apply not_true_iff_false. rewrite has_spec. intros (e & I & C). unfold del in I. apply filter_In in I as [_ N].
  apply negb_true_iff, prefixb_false in N. apply N. eapply below_trans; eassumption.
Qed.
Lemma del_ok (f : file) p : Forall ok f -> Forall ok (del f p).
Proof. intros F. rewrite Forall_forall in *. intros e I. unfold del in I. apply filter_In in I as [I _]. now apply F. Qed.

Lemma put_free f b t o : Forall ok f -> free b ->
  t = b \/ t = b ++ ["data"%string] \/ (exists k, t = b ++ ["wcs"%string; k]) ->
  has f t = false -> put f t o = Some (f ++ [(t, o)]).
Proof.
  intros F Fb T H. unfold put. rewrite H. cbn [orb].
  assert (N : existsb (fun e => negb (is_group (snd e)) && prefixb (fst e) t) f = false).
  { apply not_true_iff_false. rewrite existsb_exists. intros ([q x] & I & E). apply andb_true_iff in E as [G B]. cbn in G, B. apply prefixb_spec in B.
    assert (NE : q <> t). { intros ->. apply not_true_iff_false in H. apply H. apply has_spec. exists (t, x). split; [exact I|]. exists []. now rewrite app_nil_r. }
    rewrite Forall_forall in F. specialize (F _ I). unfold ok in F. cbn in F.
    assert (C : exists z, In z q /\ (z = "data"%string \/ z = "wcs"%string) /\ forall c, In c [q] -> ~ below c b).
    { destruct x; [discriminate| |].
      - destruct F as (r & Fr & ->). exists "data"%string. split; [apply in_snoc|]. split; [now left|]. intros c [<-|[]] [s E]. apply (proj1 Fb). rewrite E. apply in_or_app. left. apply in_snoc.
      - destruct F as (r & k & Fr & ->). exists "wcs"%string. split; [apply in_or_app; right; now left|]. split; [now right|]. intros c [<-|[]] [s E]. apply (proj2 Fb). rewrite E, split_wcs. apply in_or_app. left. apply in_or_app. left. apply in_snoc. }
    destruct C as (z & _ & _ & NB). specialize (NB q (or_introl eq_refl)).
    destruct T as [-> |[-> |[k ->]]].
    - contradiction.
    - apply below_tail in B as [B|B]; [contradiction|]. contradiction.
    - rewrite split_wcs in B, NE. apply below_tail in B as [B|B]; [|contradiction]. apply below_tail in B as [B|B]; [contradiction|].
      destruct x; [discriminate| |].
      + destruct F as (r & Fr & E). rewrite E in B. apply app_inj_tail in B as [_ B]. discriminate.
      + destruct F as (r & k' & Fr & E). rewrite E, split_wcs in B. apply app_inj_tail in B as [B _]. apply (proj2 Fb). rewrite <- B. apply in_snoc. }
  now rewrite N.
Qed.

Lemma has_app (f g : file) t : has (f ++ g) t = has f t || has g t.
Proof. apply existsb_app. Qed.
Lemma ok_card p c : free p -> ok (wcs_path p c).
Proof. intros F. cbn. eauto. Qed.
Lemma put_cards_free p h : forall f, Forall ok f -> free p -> NoDup (map fst h) ->
  (forall k, In k (map fst h) -> has f (p ++ ["wcs"%string; k]) = false) ->
  put_cards f p h = Some (f ++ map (wcs_path p) h).
Proof.
  induction h as [|[k v] h IH]; intros f F Fp ND H; cbn [put_cards map].
  - now rewrite app_nil_r.
  - rewrite (put_free f p _ _ F Fp) by (first [solve [right; right; eauto] | apply H; now left]). cbn in ND. inversion ND as [|? ? N1 N2]. rewrite IH.
    + now rewrite <- app_assoc.
    + apply Forall_app. split; [exact F|]. constructor; [|constructor]. exact (ok_card p (k, v) Fp).
    + exact Fp.
    + exact N2.
    + intros k' I. rewrite has_app, H by (right; exact I). cbn [orb]. apply not_true_iff_false. rewrite has_spec. intros (e & [<-|[]] & B). cbn [fst] in B. destruct B as [r E].
      rewrite <- app_assoc in E. apply app_inv_head in E. cbn in E. injection E as E _. subst k'. contradiction.
Qed.

Lemma write_at f p m : Forall ok f -> free p -> write f (Some p) m = Some (del f p ++ (p, Group) :: content p m).
Proof.
  intros F Fp. unfold write_hdf. assert (E : (if has f p then del f p else f) = del f p) by (destruct (has f p) eqn:H; [reflexivity|symmetry; now apply del_absent]).
  cbv zeta. rewrite E. rewrite (put_free (del f p) p _ _ (del_ok f p F) Fp) by (first [solve [now left] | apply has_del; exists []; now rewrite app_nil_r]).
  assert (F1 : Forall ok (del f p ++ [(p, Group)])) by (apply Forall_app; split; [now apply del_ok|constructor; [exact Fp|constructor]]).
  rewrite (put_free _ p _ _ F1 Fp) by (first [solve [right; now left]|rewrite has_app, has_del by (now eexists); cbn [orb]; apply not_true_iff_false; rewrite has_spec; intros (e & [<-|[]] & [r B]); cbn in B;
     rewrite <- app_assoc in B; rewrite <- (app_nil_r p) in B at 1; apply app_inv_head in B; discriminate]).
  rewrite put_cards_free.
  - unfold content. rewrite <- !app_assoc. reflexivity.
  - apply Forall_app. split; [exact F1|]. constructor; [|constructor]. cbn. eauto.
  - exact Fp.
  - apply keys.
  - intros k _. rewrite !has_app, has_del by (now eexists). cbn [orb]. apply orb_false_iff. split; apply not_true_iff_false; rewrite has_spec; intros (e & [<-|[]] & [r B]); cbn in B; rewrite <- app_assoc in B.
    + rewrite <- (app_nil_r p) in B at 1. apply app_inv_head in B. discriminate.
    + apply app_inv_head in B. discriminate.
Qed.
Lemma write_root f m : write f None m = Some (content [] m).
Proof.
  unfold write_hdf. cbn [app]. rewrite (put_free [] [] _ _ (Forall_nil _)) by (first [solve [split; intros []] | solve [right; now left] | reflexivity]).
  rewrite put_cards_free.
  - reflexivity.
  - constructor; [|constructor]. exists []. split; [split; intros []|reflexivity].
  - split; intros [].
  - apply keys.
  - intros k _. reflexivity.
Qed.

(* what the pieces hold *)
Lemma arrays_app f g q : arrays (f ++ g) q = arrays f q ++ arrays g q.
Proof. apply flat_map_app. Qed.
Lemma cards_app (f g : file) q : cards_of (f ++ g) q = cards_of f q ++ cards_of g q.
Proof. apply flat_map_app. Qed.
Lemma flat_map_none {A B} (f : A -> list B) l : (forall x, In x l -> f x = []) -> flat_map f l = [].
Proof. intros H. induction l; [reflexivity|]. cbn. rewrite H by (now left). apply IHl. intros x X. apply H. now right. Qed.
Lemma arrays_cards p q h : arrays (map (wcs_path p) h) q = [].
Proof. apply flat_map_none. intros x I. apply in_map_iff in I as (c & <- & _). unfold array_at. cbn. now destruct (eqpath _ _). Qed.
Lemma arrays_content p q m : arrays (content p m) q = if eqpath p q then [fst m] else [].
Proof.
  unfold content. change ((p ++ ["data"%string], Array (fst m)) :: map (wcs_path p) (to_header (snd m))) with ([(p ++ ["data"%string], Array (fst m))] ++ map (wcs_path p) (to_header (snd m))).
  rewrite arrays_app, arrays_cards, app_nil_r. cbn. unfold array_at. cbn. rewrite app_nil_r.
  destruct (eqpath p q) eqn:E.
  - apply eqpath_spec in E. subst q. now rewrite (proj2 (eqpath_spec _ _) eq_refl).
  - destruct (eqpath (q ++ ["data"%string]) (p ++ ["data"%string])) eqn:E'; [|reflexivity]. apply eqpath_spec in E'. apply app_inj_tail in E' as [-> _].
    rewrite (proj2 (eqpath_spec _ _) eq_refl) in E. discriminate.
Qed.
Lemma card_at_wcs p q c : card_at q (wcs_path p c) = if eqpath p q then [c] else [].
Proof.
  unfold card_at, wcs_path. cbn [fst snd]. rewrite split_wcs. destruct (eqpath p q) eqn:E.
  - apply eqpath_spec in E. subst q. rewrite (proj2 (last_key_spec _ _ _) eq_refl). now destruct c.
  - destruct (last_key _ _) eqn:L; [|reflexivity]. apply last_key_spec in L. apply app_inj_tail in L as [L _]. apply app_inj_tail in L as [-> _].
    rewrite (proj2 (eqpath_spec _ _) eq_refl) in E. discriminate.
Qed.
Lemma cards_content p q m : free p -> free q -> cards_of (content p m) q = if eqpath p q then to_header (snd m) else [].
Proof.
  intros Fp Fq. unfold content, cards_of. cbn [flat_map]. unfold card_at at 1. cbn [fst snd].
  cbn [app]. destruct (last_key _ _) eqn:L; cbn [app];
  induction (to_header (snd m)) as [|c h IH]; cbn [map flat_map]; try (now destruct (eqpath p q)); rewrite card_at_wcs, IH; now destruct (eqpath p q).
Qed.
Lemma arrays_del f p q : free p -> arrays (del f p) q = if prefixb p q then [] else arrays f q.
Proof.
  intros Fp. destruct (prefixb p q) eqn:E.
  - apply flat_map_none. intros e I. unfold del in I. apply filter_In in I as [_ N]. unfold array_at. destruct (eqpath _ _) eqn:Q; [|reflexivity].
    apply eqpath_spec in Q. apply negb_true_iff, prefixb_false in N. exfalso. apply N. rewrite <- Q. apply prefixb_spec in E. apply below_tail. now left.
  - unfold arrays, del. induction f as [|e f IH]; [reflexivity|]. cbn [filter flat_map]. destruct (prefixb p (fst e)) eqn:B; cbn [negb flat_map]; [|now rewrite IH].
    rewrite IH. unfold array_at at 2. destruct (eqpath _ _) eqn:Q; [|reflexivity]. apply eqpath_spec in Q. rewrite <- Q in B. apply prefixb_spec, below_tail in B as [B|B].
    + apply prefixb_spec in B. congruence.
    + rewrite B in Fp. apply free_snoc in Fp. tauto.
Qed.
Lemma cards_del (f : file) p q : free p -> prefixb p q = false -> cards_of (del f p) q = cards_of f q.
Proof.
  intros Fp E. unfold cards_of, del. induction f as [|e f IH]; [reflexivity|]. cbn [filter flat_map]. destruct (prefixb p (fst e)) eqn:B; cbn [negb flat_map]; [|now rewrite IH].
  rewrite IH. unfold card_at at 2. destruct (last_key _ _) eqn:Q; [|reflexivity]. apply last_key_spec in Q. rewrite Q in B. exfalso. apply prefixb_spec, below_tail in B as [B|B].
  - apply below_tail in B as [B|B].
    + apply prefixb_spec in B. congruence.
    + rewrite B in Fp. apply free_snoc in Fp. tauto.
  - rewrite B in Fp. apply free_snoc in Fp as (_ & _ & Fp). apply free_snoc in Fp. tauto.
Qed.

Definition good (ops : list (option path * (D * W))) : Prop := forall p m, In (Some p, m) ops -> free p.
Lemma run_snoc ops : forall f x, run to_header f (ops ++ [x]) = match run to_header f ops with None => None | Some f => write f (fst x) (snd x) end.
Proof.
  induction ops as [|[a m] ops IH]; intros f [b n]; cbn [app run fst snd].
  - destruct (write f b n); reflexivity.
  - destruct (write f a m); [apply IH|reflexivity].
Qed.
Lemma content_ok p m : free p -> Forall ok (content p m).
Proof. intros F. constructor; [cbn; eauto|]. rewrite Forall_forall. intros x I. apply in_map_iff in I as (c & <- & _). now apply ok_card. Qed.
Lemma history ops : good ops -> exists f, run to_header [] ops = Some f /\ Forall ok f /\ forall q v, free q -> maps_after ops q v -> holds f q v.
Proof.
  induction ops as [|[a m] ops IH] using rev_ind; intros G.
  - exists []. split; [reflexivity|]. split; [constructor|]. intros q v _ A. inversion A; try (destruct ops; discriminate). reflexivity.
  - destruct IH as (f & R & F & H); [intros p n I; apply (G p n); apply in_or_app; now left|]. rewrite run_snoc, R. cbn [fst snd]. destruct a as [p|].
    + assert (Fp : free p) by (apply (G p m), in_or_app; right; now left). rewrite write_at by assumption. eexists. split; [reflexivity|]. split.
      * apply Forall_app. split; [now apply del_ok|]. constructor; [exact Fp|now apply content_ok].
      * intros q v Fq A.
        assert (AR : arrays (del f p ++ (p, Group) :: content p m) q = (if prefixb p q then [] else arrays f q) ++ (if eqpath p q then [fst m] else [])).
        { rewrite arrays_app, arrays_del by exact Fp. f_equal. change ((p, Group) :: content p m) with ([(p, @Group D V)] ++ content p m). rewrite arrays_app, arrays_content.
          unfold arrays at 1. cbn. unfold array_at. cbn. now destruct (eqpath _ p). }
        assert (CA : prefixb p q = false \/ eqpath p q = true -> cards_of (del f p ++ (p, Group) :: content p m) q = (if prefixb p q then [] else cards_of f q) ++ (if eqpath p q then to_header (snd m) else [])).
        { intros C. rewrite cards_app. change ((p, Group) :: content p m) with ([(p, @Group D V)] ++ content p m). rewrite cards_app, cards_content by assumption.
          replace (cards_of [(p, Group)] q) with (@nil (string * V)) by (unfold cards_of; cbn; unfold card_at; cbn; now destruct (last_key _ _)). cbn [app].
          destruct (prefixb p q) eqn:E; [|now rewrite cards_del]. destruct C as [C|C]; [discriminate|]. apply eqpath_spec in C. subst q. rewrite (proj2 (eqpath_spec _ _) eq_refl).
          replace (cards_of (del f p) p) with (@nil (string * V)); [reflexivity|]. symmetry. apply flat_map_none. intros e I. unfold del in I. apply filter_In in I as [_ N].
          unfold card_at. destruct (last_key _ _) eqn:L; [|reflexivity]. apply last_key_spec in L. apply negb_true_iff, prefixb_false in N. exfalso. apply N. rewrite L. exists (["wcs"%string] ++ [s]). now rewrite app_assoc. }
        inversion A as [q0 E0|ops0 m0 q0 E0|ops0 p0 m0 E0|ops0 p0 m0 q0 B NE E0|ops0 p0 m0 q0 v0 NB A' E0].
        -- destruct ops; discriminate.
        -- apply app_inj_tail in E0 as [_ E0]. discriminate.
        -- apply app_inj_tail in E0 as [_ E0]. injection E0 as E1 E2. assert (Eq : q = p) by congruence. assert (Em : m0 = m) by congruence. clear A E1 E2. clear dependent p0. subst m0. rewrite Eq in *. destruct m as [d w]. unfold holds.
           rewrite (proj2 (eqpath_spec p p) eq_refl) in AR, CA. rewrite (proj2 (prefixb_spec p p)) in AR, CA by (exists []; now rewrite app_nil_r).
           split; [exact AR|exact (CA (or_intror eq_refl))].
        -- apply app_inj_tail in E0 as [_ E0]. injection E0 as E1 E2. subst p0. unfold holds. rewrite (proj2 (prefixb_spec _ _) B) in AR.
           destruct (eqpath p q) eqn:Q; [apply eqpath_spec in Q; congruence|exact AR].
        -- apply app_inj_tail in E0 as [E3 E0]. injection E0 as E1 E2. subst p0 ops0. specialize (H q v Fq A'). apply prefixb_false in NB.
           assert (Q : eqpath p q = false). { apply not_true_iff_false. rewrite eqpath_spec. intros ->. apply prefixb_false in NB. apply NB. exists []. now rewrite app_nil_r. }
           rewrite NB, Q, !app_nil_r in *. unfold holds in *. destruct v as [[d w]|]; [split; [etransitivity; [exact AR|apply H]|etransitivity; [exact (CA (or_introl eq_refl))|apply H]]|etransitivity; [exact AR|exact H]].
    + rewrite write_root. eexists. split; [reflexivity|]. assert (F0 : free []) by (split; intros []). split; [now apply content_ok|].
      intros q v Fq A. inversion A as [q0 E0|ops0 m0 q0 E0|ops0 p0 m0 E0|ops0 p0 m0 q0 B NE E0|ops0 p0 m0 q0 v0 NB A' E0]; try (destruct ops; discriminate); apply app_inj_tail in E0 as [_ E0]; try discriminate.
      injection E0 as E0. subst m0. destruct q as [|x q]; unfold holds; destruct m as [d w]; [split; [exact (arrays_content [] [] (d, w))|exact (cards_content [] [] (d, w) F0 F0)]|exact (arrays_content [] (x :: q) (d, w))].
Qed.
(* C125: after any history of writes every address has the map the history left there *)
Theorem C125_history : forall ops, (forall p m, In (Some p, m) ops -> free_address p) ->
  exists f, run to_header [] ops = Some f /\
  forall q v, free_address q -> maps_after ops q v -> read f (match q with [] => None | _ => Some q end) = v /\ read f (Some q) = v.
Proof.
  intros ops G. destruct (history ops G) as (f & R & F & H). exists f. split; [exact R|]. intros q v Fq A.
  assert (E : read f (Some q) = v); [|split; [destruct q; exact E|exact E]]. specialize (H q v Fq A). unfold read_hdf. rewrite arrays_data by assumption. unfold holds in H. destruct v as [[d w]|].
  - destruct H as [-> C]. rewrite C.
    assert (HW : has f (q ++ ["wcs"%string]) = true).
    { destruct (cards_of f q) as [|[k x] l] eqn:CE; [exfalso; apply (some_key w); now symmetry|]. assert (I : In (k, x) (cards_of f q)) by (rewrite CE; now left).
      unfold cards_of in I. apply in_flat_map in I as (e & I & J). apply has_spec. exists e. split; [exact I|]. unfold card_at in J. destruct (last_key _ _) eqn:L; [|destruct J].
      apply last_key_spec in L. rewrite L. now exists [s]. }
    rewrite HW. rewrite (header w); [reflexivity|]. apply ordered.
  - now rewrite H.
Qed.
End P.
Print Assumptions C125_history.

(* every history leaves something definite at every address *)
Theorem C125_total : forall (M : Type) (ops : list (option path * M)) q, exists v, maps_after ops q v.
Proof.
  intros M ops q. induction ops as [|[[p|] m] ops IH] using rev_ind.
  - exists None. constructor.
  - destruct (prefixb p q) eqn:B.
    + destruct (eqpath p q) eqn:E.
      * apply eqpath_spec in E. subst. exists (Some m). constructor.
      * exists None. constructor; [now apply prefixb_spec|]. intros ->. rewrite (proj2 (eqpath_spec _ _) eq_refl) in E. discriminate.
    + destruct IH as [v A]. exists v. constructor; [now apply prefixb_false|exact A].
  - eexists. constructor.
Qed.
Print Assumptions C125_total.

(* The names of the format must not be used: a map written at "a/wcs" destroys the map at "a" *)
Section X.
Definition th (w : nat) : list (string * nat) := [("CRPIX1"%string, w)].
Definition oh (h : list (string * nat)) : option nat := match h with [(_, w)] => Some w | _ => None end.
Open Scope string_scope.
Theorem C125_names_refuted :
  exists f, run th [] [(Some ["a"], (1, 2)); (Some ["a"; "wcs"], (3, 4))] = Some f /\
  maps_after [(Some ["a"], (1, 2)); (Some ["a"; "wcs"], (3, 4))] ["a"] (Some (1, 2)) /\
  read_hdf oh (fun h => h) f (Some ["a"]) = None.
Proof.
  eexists. split; [vm_compute; reflexivity|]. split.
  - apply (after_other [(Some ["a"], (1, 2))] ["a"; "wcs"] (3, 4) ["a"] (Some (1, 2))).
    + intros [r E]. discriminate.
    + apply (after_here [] ["a"] (1, 2)).
  - reflexivity.
Qed.
Example C125_ex :
  exists f, run th [] [(None, (1, 2)); (Some ["a"; "b"], (3, 4)); (Some ["c"], (5, 6)); (Some ["a"], (7, 8)); (Some ["c"], (9, 10))] = Some f /\
  read_hdf oh (fun h => h) f None = Some (1, 2) /\ read_hdf oh (fun h => h) f (Some ["a"]) = Some (7, 8) /\
  read_hdf oh (fun h => h) f (Some ["a"; "b"]) = None /\ read_hdf oh (fun h => h) f (Some ["c"]) = Some (9, 10).
Proof. eexists. split; [vm_compute; reflexivity|]. repeat split. Qed.
Example C125_ex_hyps : (forall w, NoDup (map fst (th w))) /\ (forall w, th w <> []) /\ (forall w h, Permutation h (th w) -> oh h = Some w).
Proof.
  split; [|split].
  - intros w. constructor; [intros []|constructor].
  - discriminate.
  - intros w h P. apply Permutation_sym, Permutation_length_1_inv in P. now rewrite P.
Qed.
End X.
Print Assumptions C125_names_refuted.
