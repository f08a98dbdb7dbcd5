(* C99-C101: bunches, their files, and lists of bunches. *)
From Coq Require Import List Ascii String ZArith QArith Qround Bool Arith Lia Permutation Sorted.
From Verif Require Import BunSpec BunModel BunLemmas.
Import ListNotations.
Local Open Scope string_scope.
Local Open Scope list_scope.
Ltac Zify.zify_post_hook ::= idtac.

(* ================================================================ *)
(* C99 A bunch is one dictionary with two ways in                     *)

(* After every program of constructor calls, assignments, deletions, updates and
   copies in which nothing missing is deleted, every bunch reads as the ideal
   bunch: by item, by attribute, by "in", by iteration, len and items. *)
Theorem C99_history : forall prog, all_work [] prog ->
  exists h, run [] prog = Ok h /\
    List.length h = List.length (ideal_run prog) /\
    forall i, (i < List.length h)%nat ->
      let b := nth i (ideal_run prog) empty in
      keys h i = Ok (names b) /\ len h i = Ok (List.length (names b)) /\
      (forall k v, (exists l, items h i = Ok l /\ In (k, v) l) <-> at_name b k = Some v) /\
      forall k,
        getitem h i k = match at_name b k with Some v => Ok v | None => Err KeyError end /\
        contains h i k = Ok (match at_name b k with Some _ => true | None => false end) /\
        (ordinary k ->
         getattr h i k = match at_name b k with Some v => Ok (AValue v) | None => Err AttributeError end).
Proof.
  intros prog W. destruct (run_rel prog [] [] (Forall2_nil _) W) as [h [E R]].
  exists h. split; [exact E|]. pose proof (hrel_len _ _ R) as L. split; [exact L|].
  intros i Hi b. rewrite L in Hi. destruct (hrel_dict _ _ i R Hi) as [d [D [R1 [R2 R3]]]].
  fold (ideal_run prog) in R2, R3. fold b in R2, R3.
  unfold keys, len, items, getitem, contains. rewrite D.
  split; [rewrite R2; reflexivity|]. split; [rewrite R2, map_length; reflexivity|].
  split.
  { intros k v. rewrite <- R3. split.
    - intros [l [F HI]]. injection F as <-. apply dget_first; assumption.
    - intros G. exists d. split; [reflexivity|]. clear -G.
      induction d as [|[a x] d IH]; [discriminate|].
      cbn [dget] in G. destruct (string_dec a k); [left; congruence|right; auto]. }
  intros k. rewrite <- R3. split; [destruct (dget d k); reflexivity|].
  split; [reflexivity|]. intros [O1 O2]. unfold getattr.
  destruct (hrel_nth _ _ i R Hi) as [d' [D' _]]. unfold dict_of in *. rewrite D' in *.
  injection D as ->.
  destruct (string_dec k "_dict") as [->|N]; [exfalso; apply O1; left; reflexivity|].
  destruct (in_dec string_dec k ["keys"; "items"; "iteritems"; "copy"; "update"]) as [HI|HI];
    [exfalso; apply O1; right; exact HI|].
  rewrite O2. reflexivity.
Qed.

(* Deleting a name that is not there raises, by item and by attribute. *)
Theorem C99_delete_missing : forall prog, all_work [] prog -> forall h, run [] prog = Ok h ->
  forall i k, (i < List.length h)%nat -> contains h i k = Ok false -> k <> "_dict" ->
  step h (ODelItem i k) = Err KeyError /\ step h (ODelAttr i k) = Err KeyError.
Proof.
  intros prog W h E i k Hi C N. cbn. unfold delitem, delattr. unfold contains in C.
  destruct (dict_of h i); [|discriminate]. destruct (dget a k); [discriminate|].
  destruct (string_dec k "_dict"); [contradiction|]. split; reflexivity.
Qed.

(* What happens to other bunches does not change a bunch; so a copy keeps what the
   original had, and the original what the copy had. *)
Theorem C99_independent : forall h prog h' i, run h prog = Ok h' -> (i < List.length h)%nat ->
  Forall (fun o => target o <> Some i) prog ->
  items h' i = items h i /\ forall k, getitem h' i k = getitem h i k /\ getattr h' i k = getattr h i k.
Proof.
  intros h prog h' i R L F. pose proof (run_frame prog h h' i R F L) as N.
  assert (D : dict_of h' i = dict_of h i) by (unfold dict_of; rewrite N; reflexivity).
  unfold items, getitem, getattr. rewrite D, N. split; [reflexivity|]. intros k. split; reflexivity.
Qed.
Theorem C99_copy : forall prog h, all_work [] prog -> run [] prog = Ok h ->
  forall i, (i < List.length h)%nat ->
  forall prog' h', run h (OCopy i :: prog') = Ok h' ->
  Forall (fun o => target o <> Some (List.length h)) prog' ->
  items h' (List.length h) = items h i /\
  forall k, getitem h' (List.length h) k = getitem h i k.
Proof.
  intros prog h W R i L prog' h' R' F.
  destruct (run_rel prog [] [] (Forall2_nil _) W) as [h0 [E HR]]. rewrite R in E. injection E as <-.
  pose proof (hrel_len _ _ HR) as HL. rewrite HL in L.
  destruct (hrel_dict _ _ i HR L) as [d [D [R1 _]]].
  cbn [run step] in R'. rewrite D in R'. rewrite dupdate_copy in R' by exact R1.
  assert (N : nth_error h' (List.length h) = Some (Some d)).
  { rewrite (run_frame prog' (h ++ [Some d]) h' (List.length h) R' F)
      by (rewrite app_length; cbn; lia).
    rewrite nth_error_app2 by lia. rewrite Nat.sub_diag. reflexivity. }
  unfold items, getitem. rewrite D. unfold dict_of. rewrite N. split; reflexivity.
Qed.

(* Outside the claim: names python uses itself can be stored, and read as items, but
   the attribute is something else. *)
Theorem C99_own_names : forall prog h i v, all_work [] prog -> run [] prog = Ok h ->
  (i < List.length h)%nat ->
  forall k, In k own_names \/ prefix "__" k = true ->
  exists h', run h [OSetAttr i k v] = Ok h' /\ getitem h' i k = Ok v /\
             getattr h' i k <> Ok (AValue v).
Proof.
  intros prog h i v W R L k HK.
  destruct (run_rel prog [] [] (Forall2_nil _) W) as [h0 [E HR]]. rewrite R in E. injection E as <-.
  pose proof (hrel_len _ _ HR) as HL. rewrite HL in L.
  destruct (hrel_dict _ _ i HR L) as [d [D R1]].
  cbn [run step]. unfold setattr. rewrite D. eexists; split; [reflexivity|].
  assert (HR' : hrel (set_obj h i (Some (dset d k v)))
                     (change (fold_left ideal_step prog []) i (fun b => store b k v)))
    by (apply hrel_set; [exact HR|exact L|apply rel_store; exact R1]).
  assert (N : nth_error (set_obj h i (Some (dset d k v))) i = Some (Some (dset d k v))).
  { unfold set_obj. rewrite nth_error_app2 by (rewrite firstn_length; lia).
    rewrite firstn_length, Nat.min_l by lia. rewrite Nat.sub_diag. reflexivity. }
  split.
  - unfold getitem, dict_of. rewrite N. rewrite dget_dset.
    destruct (string_dec k k) as [_|n]; [reflexivity|exfalso; apply n; reflexivity].
  - unfold getattr. rewrite N. destruct (string_dec k "_dict") as [->|N1]; [discriminate|].
    destruct (in_dec string_dec k ["keys"; "items"; "iteritems"; "copy"; "update"]) as [HI|HI];
      [discriminate|].
    destruct HK as [HK|HK]; [|rewrite HK; discriminate].
    destruct HK as [HK|HK]; [congruence|contradiction].
Qed.
(* Outside the claim: deleting the item "_dict", which was never stored, does not
   raise but takes everything with it. *)
Theorem C99_delete_dict : forall prog h i, all_work [] prog -> run [] prog = Ok h ->
  (i < List.length h)%nat -> contains h i "_dict" = Ok false ->
  exists h', run h [ODelItem i "_dict"] = Ok h' /\ forall k, getitem h' i k = Err KeyError.
Proof.
  intros prog h i W R L C. cbn [run step]. unfold delitem, delattr. unfold contains in C.
  destruct (dict_of h i) eqn:D; [|discriminate]. destruct (dget a "_dict"); [discriminate|].
  destruct (string_dec "_dict" "_dict") as [_|n]; [|exfalso; apply n; reflexivity].
  eexists; split; [reflexivity|]. intros k. unfold getitem, dict_of.
  assert (N : nth_error (set_obj h i None) i = Some None).
  { unfold set_obj. rewrite nth_error_app2 by (rewrite firstn_length; lia).
    rewrite firstn_length, Nat.min_l by lia. rewrite Nat.sub_diag. reflexivity. }
  rewrite N. reflexivity.
Qed.

Definition prog_ex : list op :=
  [ONew [] [("a", VNum 1); ("b", VNum 2)]; OSetAttr 0 "c" (VNum 3); OCopy 0; OSetItem 1 "a" (VNum 7);
   ODelAttr 0 "b"; OSetAttr 0 "b" (VBunch 1); ONew [0; 1]%nat [("d", VNum 4)]; OUpdate 1 2].
Example C99_ex :
  all_work [] prog_ex /\
  (exists h, run [] prog_ex = Ok h /\
     keys h 0 = Ok ["a"; "c"; "b"] /\ getattr h 0 "b" = Ok (AValue (VBunch 1)) /\
     getitem h 0 "a" = Ok (VNum 1) /\ getitem h 1 "a" = Ok (VNum 7) /\
     keys h 2 = Ok ["a"; "c"; "b"; "d"]) /\
  ordinary "a" /\ ~ ordinary "keys" /\ ~ ordinary "__x".
Proof.
  split; [|split; [|split; [|split]]].
  - cbn. repeat (constructor || discriminate || lia).
  - eexists. split; [vm_compute; reflexivity|]. vm_compute. repeat split.
  - split; [|reflexivity]. intros H. vm_compute in H. repeat (destruct H as [H|H]; [discriminate|]). exact H.
  - intros [H _]. apply H. right; left; reflexivity.
  - intros [_ H]. discriminate.
Qed.

(* ================================================================ *)
(* C100 Bunches in files                                              *)

(* The file and the group of a path: together they are the path, the file is the
   last part with a dot. *)
Theorem C100_split : forall isfile fname f g,
  split_hdf_path isfile fname None MDot = Some (f, g) ->
  fname = match g with Some g => f ++ "/" ++ g | None => f end%string /\
  exists dirs last rest, f = join (dirs ++ [last]) /\ has_char dot last = true /\
    Forall (fun s => has_char slash s = false) (dirs ++ [last] ++ rest) /\
    Forall (fun s => has_char dot s = false) rest /\
    g = match rest with [] => None | _ => Some (join rest) end.
Proof.
  intros isfile fname f g H. unfold split_hdf_path in H.
  destruct (last_such _ _) as [i|] eqn:E; [|discriminate].
  apply last_such_some in E. destruct E as [A [B C]].
  set (toks := split_slash fname) in *. rewrite app_nil_r in H.
  assert (HF : f = join (firstn (S i) toks)) by congruence.
  assert (HG : g = if (0 <? List.length (skipn (S i) toks))%nat then Some (join (skipn (S i) toks)) else None)
    by congruence.
  clear H. subst f g.
  assert (S0 : toks = firstn i toks ++ [nth i toks ""] ++ skipn (S i) toks).
  { rewrite <- (firstn_skipn i toks) at 1. f_equal.
    clear -A. revert i A. induction toks as [|a l IH]; intros i A; cbn in A; [lia|].
    destruct i as [|i]; [reflexivity|]. cbn [skipn nth]. apply IH. lia. }
  assert (S1 : firstn (S i) toks = firstn i toks ++ [nth i toks ""]).
  { clear -A. revert i A. induction toks as [|a l IH]; intros i A; cbn in A; [lia|].
    destruct i as [|i]; [reflexivity|]. cbn [firstn nth List.app]. f_equal. apply IH. lia. }
  split.
  - rewrite <- (join_split fname) at 1. fold toks. rewrite <- (firstn_skipn (S i) toks) at 1.
    destruct (skipn (S i) toks) as [|r rs] eqn:K.
    + rewrite app_nil_r. reflexivity.
    + cbn [List.length Nat.ltb Nat.leb]. apply join_app; [rewrite S1|discriminate].
      destruct (firstn i toks); discriminate.
  - exists (firstn i toks), (nth i toks ""), (skipn (S i) toks).
    split; [rewrite S1; reflexivity|]. split; [exact B|].
    split; [rewrite <- S0; apply split_clean|]. split.
    + apply Forall_forall. intros s HI. apply (In_nth _ _ "") in HI. destruct HI as [n [L F]].
      rewrite skipn_length in L. rewrite <- F.
      replace (nth n (skipn (S i) toks) "") with (nth (S i + n) toks "").
      * apply C. lia.
      * rewrite <- (firstn_skipn (S i) toks) at 1. rewrite app_nth2 by (rewrite firstn_length; lia).
        rewrite firstn_length, Nat.min_l by lia. f_equal. lia.
    + destruct (skipn (S i) toks); reflexivity.
Qed.
Theorem C100_split_raises : forall isfile fname sub,
  split_hdf_path isfile fname sub MDot = None <->
  Forall (fun s => has_char dot s = false) (split_slash fname).
Proof.
  intros isfile fname sub. unfold split_hdf_path. rewrite Forall_forall.
  destruct (last_such _ _) as [i|] eqn:E.
  - split; [discriminate|]. intros H. apply last_such_some in E. destruct E as [A [B _]].
    rewrite H in B; [discriminate|]. apply nth_In. exact A.
  - rewrite last_such_none in E. split; [|reflexivity]. intros _ s HI.
    apply (In_nth _ _ "") in HI. destruct HI as [n [L F]]. rewrite <- F. apply E. exact L.
Qed.

(* Without a mode the whole path is the file, and the subgroup the group. *)
Theorem C100_split_none : forall isfile fname sub,
  split_hdf_path isfile fname sub MNone = Some (fname, match sub with Some "" => None | _ => sub end).
Proof.
  intros isfile fname sub. unfold split_hdf_path. set (toks := split_slash fname).
  assert (E1 : firstn (S (List.length toks)) toks = toks) by (apply firstn_all2; lia).
  assert (E2 : skipn (S (List.length toks)) toks = []) by (apply skipn_all2; lia).
  rewrite E1, E2. unfold toks at 1. rewrite join_split.
  destruct sub as [[|a s]|]; reflexivity.
Qed.
(* With the mode "exists" the file is an existing one, and no longer part of the path is. *)
Theorem C100_split_exists : forall isfile fname f g,
  split_hdf_path isfile fname None MExists = Some (f, g) ->
  fname = match g with Some g => f ++ "/" ++ g | None => f end%string /\ isfile f = true /\
  exists ts rest, f = join ts /\ split_slash fname = ts ++ rest /\
    forall more, more <> [] -> (exists rest', rest = more ++ rest') -> isfile (join (ts ++ more)) = false.
Proof.
  intros isfile fname f g H. unfold split_hdf_path in H.
  destruct (last_such _ _) as [i|] eqn:E; [|discriminate].
  apply last_such_some in E. destruct E as [A [B C]].
  set (toks := split_slash fname) in *. rewrite app_nil_r in H.
  assert (HF : f = join (firstn (S i) toks)) by congruence.
  assert (HG : g = if (0 <? List.length (skipn (S i) toks))%nat then Some (join (skipn (S i) toks)) else None)
    by congruence.
  clear H. subst f g. split; [|split; [exact B|]].
  - rewrite <- (join_split fname) at 1. fold toks. rewrite <- (firstn_skipn (S i) toks) at 1.
    destruct (skipn (S i) toks) as [|r rs] eqn:K.
    + rewrite app_nil_r. reflexivity.
    + cbn [List.length Nat.ltb Nat.leb]. apply join_app; [|discriminate].
      destruct toks; [cbn in A; lia|discriminate].
  - exists (firstn (S i) toks), (skipn (S i) toks). split; [reflexivity|].
    split; [symmetry; apply firstn_skipn|]. intros more N [rest' R].
    assert (L : (List.length more <= List.length toks - S i)%nat).
    { rewrite <- skipn_length, R, app_length. lia. }
    assert (N' : (0 < List.length more)%nat) by (destruct more; [congruence|cbn; lia]).
    replace (firstn (S i) toks ++ more) with (firstn (S (i + List.length more)) toks).
    + apply C. lia.
    + rewrite <- (firstn_skipn (S i) toks) at 1. rewrite R. rewrite app_assoc.
      assert (LL : List.length (firstn (S i) toks ++ more) = S (i + List.length more)).
      { rewrite app_length, firstn_length, Nat.min_l by lia. lia. }
      rewrite <- LL, firstn_app, Nat.sub_diag, firstn_all, app_nil_r. reflexivity.
Qed.
(* A subgroup goes below the group of the path. *)
Theorem C100_split_subgroup : forall isfile fname s m f g,
  split_hdf_path isfile fname None m = Some (f, g) ->
  split_hdf_path isfile fname (Some s) m = Some (f,
    if string_dec s "" then g else match g with Some g => Some (g ++ "/" ++ s)%string | None => Some s end).
Proof.
  intros isfile fname s m f g H. unfold split_hdf_path in *.
  set (i := match m with MDot => _ | MExists => _ | MNone => _ end) in *. destruct i as [i|]; [|discriminate].
  set (toks := split_slash fname) in *. rewrite app_nil_r in H.
  destruct (String.eqb_spec s "") as [->|N].
  - destruct (string_dec "" "") as [_|n]; [|congruence]. rewrite app_nil_r. exact H.
  - destruct (string_dec s "") as [|_]; [congruence|].
    assert (HF : f = join (firstn (S i) toks)) by congruence.
    assert (HG : g = if (0 <? List.length (skipn (S i) toks))%nat then Some (join (skipn (S i) toks)) else None)
      by congruence.
    rewrite HF, HG. f_equal. f_equal. rewrite app_length. cbn [List.length]. rewrite Nat.add_comm. cbn [Nat.add Nat.ltb Nat.leb].
    destruct (skipn (S i) toks) as [|r rs]; [reflexivity|]. cbn [List.length Nat.ltb Nat.leb]. f_equal.
    apply join_app; discriminate.
Qed.
(* An empty group name stands for the whole file. *)
Theorem C100_empty_group : forall ds fname b m,
  write_hdf ds fname b (Some "") m = write_hdf ds fname b None MNone /\
  read_hdf ds fname (Some "") m = read_hdf ds fname None MNone.
Proof.
  intros ds fname b m. unfold write_hdf, read_hdf, place. rewrite !C100_split_none.
  cbn [truthy String.eqb]. split; reflexivity.
Qed.

(* Reading what was written gives a bunch with the same values under the same
   names, at every depth, sorted by name; other files are not touched. *)
Theorem C100_round_trip : forall ds fname kids group m ds',
  plain (Node kids) -> write_hdf ds fname (Node kids) group m = Some ds' ->
  (exists kids', read_hdf ds' fname group m = Some (Node kids') /\
     (forall path, follow (Node kids') path = follow (Node kids) path) /\
     Sorted (fun a b => String.leb a b = true) (map fst kids')) /\
  exists f g, place (fun s => is_some (ds s)) fname group m = Some (f, g) /\
    forall f', f' <> f -> ds' f' = ds f'.
Proof.
  intros ds fname kids group m ds' PT H. unfold write_hdf in H.
  destruct (place _ fname group m) as [[f g]|] eqn:PL; [|discriminate].
  rewrite (write_top kids PT) in H.
  assert (ND : NoDup (map fst kids)) by (inversion PT; assumption).
  assert (RD : forall path, follow (read_rec (enc (Node kids))) path = follow (Node kids) path)
    by (apply read_follow; exact PT).
  rewrite (read_node kids ND) in RD.
  set (kids' := by_name (map (fun kt => (fst kt, read_rec (enc (snd kt)))) kids)) in *.
  assert (X : exists r, (fun f' => if string_dec f f' then Some r else ds f') = ds' /\
    match truthy g with
    | None => r = enc (Node kids)
    | Some s => hfind r (steps s) = Some (enc (Node kids))
    end).
  { destruct (truthy g) as [s|].
    - destruct (hput (HGroup []) (steps s) (HGroup [])) as [r|] eqn:HP; [|discriminate].
      eexists; split; [injection H as H; exact H|].
      apply hput_nest; [|exact HP]. intros Z; rewrite Z in HP; discriminate.
    - eexists; split; [injection H as H; exact H|]. reflexivity. }
  clear H. destruct X as [r [<- X]].
  (* after the write the same place is found *)
  assert (PL' : place (fun s => is_some (if string_dec f s then Some r else ds s)) fname group m = Some (f, g)).
  { destruct group as [gr|]; [exact PL|]. destruct m; [exact PL| |exact PL].
    (* the file was there before *)
    assert (FE : is_some (ds f) = true).
    { cbn in PL. unfold split_hdf_path in PL.
      destruct (last_such _ _) as [i|] eqn:E; [|discriminate]. injection PL as <- _.
      apply last_such_some in E. exact (proj1 (proj2 E)). }
    rewrite <- PL. apply place_ext. intros s. destruct (string_dec f s) as [<-|]; [|reflexivity].
    rewrite FE. reflexivity. }
  split.
  - exists kids'. split; [|split; [exact RD|apply by_name_sorted]].
    unfold read_hdf. rewrite PL'.
    destruct (string_dec f f) as [_|n]; [|exfalso; apply n; reflexivity].
    destruct (truthy g) as [s|]; [rewrite X|rewrite X]; rewrite (read_node kids ND); reflexivity.
  - exists f, g. split; [reflexivity|]. intros f' N.
    destruct (string_dec f f'); [congruence|reflexivity].
Qed.

(* Writing works for every path with a file name and groups below it. *)
Theorem C100_writes : forall ds dirs file groups kids,
  plain (Node kids) -> Forall (fun s => has_char slash s = false) (dirs ++ [file]) ->
  has_char dot file = true -> Forall (fun s => plain_name s /\ has_char dot s = false) groups ->
  exists ds', write_hdf ds (join (dirs ++ [file] ++ groups)) (Node kids) None MDot = Some ds' /\
    ds' (join (dirs ++ [file])) <> None /\
    forall f, f <> join (dirs ++ [file]) -> ds' f = ds f.
Proof.
  intros ds dirs file groups kids PT F1 HD F2. unfold write_hdf, place.
  assert (T : split_slash (join (dirs ++ [file] ++ groups)) = dirs ++ [file] ++ groups).
  { apply split_join; [destruct dirs; discriminate|]. rewrite app_assoc. apply Forall_app.
    split; [exact F1|]. eapply Forall_impl; [|exact F2]. intros s [[_ [_ A]] _]. exact A. }
  assert (S0 : split_hdf_path (fun s => is_some (ds s)) (join (dirs ++ [file] ++ groups)) None MDot
    = Some (join (dirs ++ [file]), match groups with [] => None | _ => Some (join groups) end)).
  { unfold split_hdf_path. rewrite T. rewrite (last_such_is _ _ (List.length dirs)).
    - replace (dirs ++ [file] ++ groups) with ((dirs ++ [file]) ++ groups) by (rewrite app_assoc; reflexivity).
      assert (Z : S (List.length dirs) = List.length (dirs ++ [file])) by (rewrite app_length; cbn; lia).
      rewrite Z, firstn_app, firstn_all, Nat.sub_diag, firstn_O, app_nil_r.
      rewrite skipn_app, skipn_all, Nat.sub_diag. cbn [skipn List.app]. rewrite app_nil_r.
      destruct groups; reflexivity.
    - rewrite !app_length. cbn. lia.
    - rewrite app_nth2 by lia. rewrite Nat.sub_diag. exact HD.
    - intros j Hj. rewrite app_nth2 by lia.
      destruct (j - List.length dirs)%nat as [|n] eqn:E; [lia|]. cbn [List.app nth].
      rewrite Forall_forall in F2. rewrite !app_length in Hj. cbn in Hj.
      apply (F2 (nth n groups "")). apply nth_In. lia. }
  rewrite S0, (write_top kids PT). destruct groups as [|g gs].
  - cbn [truthy]. eexists. split; [reflexivity|].
    split; [destruct (string_dec (join (dirs ++ [file])) (join (dirs ++ [file]))) as [_|n];
              [discriminate|exfalso; apply n; reflexivity]|].
    intros f N. destruct (string_dec (join (dirs ++ [file])) f); [congruence|reflexivity].
  - assert (PL : Forall plain_name (g :: gs)) by (eapply Forall_impl; [|exact F2]; intros s [A _]; exact A).
    assert (TR : truthy (Some (join (g :: gs))) = Some (join (g :: gs))).
    { unfold truthy. destruct (String.eqb_spec (join (g :: gs)) "") as [Z|Z]; [|reflexivity].
      assert (K : steps (join (g :: gs)) = g :: gs) by (apply steps_join; [discriminate|exact PL]).
      rewrite Z in K. discriminate. }
    rewrite TR, steps_join by (discriminate || exact PL).
    destruct (hput_ok (g :: gs)) as [r E]; [discriminate|]. rewrite E.
    eexists. split; [reflexivity|].
    split; [destruct (string_dec (join (dirs ++ [file])) (join (dirs ++ [file]))) as [_|n];
              [discriminate|exfalso; apply n; reflexivity]|].
    intros f N. destruct (string_dec (join (dirs ++ [file])) f); [congruence|reflexivity].
Qed.

(* Outside the claim: a name with a slash comes back as a bunch inside a bunch. *)
Theorem C100_slash_names : exists ds', write_hdf (fun _ => None) "m.hdf" (Node [("a/b", Leaf 1)]) None MDot
    = Some ds' /\ read_hdf ds' "m.hdf" None MDot = Some (Node [("a", Node [("b", Leaf 1)])]).
Proof. eexists. split; vm_compute; reflexivity. Qed.
(* Outside the claim: writing to one group of a file removes its other groups. *)
Theorem C100_groups_replaced : exists ds1 ds2,
  write_hdf (fun _ => None) "m.hdf/a" (Node [("x", Leaf 1)]) None MDot = Some ds1 /\
  write_hdf ds1 "m.hdf/b" (Node [("y", Leaf 2)]) None MDot = Some ds2 /\
  read_hdf ds2 "m.hdf/a" None MDot = None.
Proof. eexists. eexists. split; [|split]; vm_compute; reflexivity. Qed.

Example C100_ex :
  plain (Node [("z", Leaf 1); ("m", Node [("q", Leaf 2); ("p", Leaf 3)])]) /\
  exists ds', write_hdf (fun _ => None) "d.1/m.hdf/g/h" (Node [("z", Leaf 1); ("m", Node [("q", Leaf 2); ("p", Leaf 3)])]) None MDot
    = Some ds' /\
  read_hdf ds' "d.1/m.hdf/g/h" None MDot = Some (Node [("m", Node [("p", Leaf 3); ("q", Leaf 2)]); ("z", Leaf 1)]) /\
  read_hdf ds' "d.1/m.hdf/g" None MDot = Some (Node [("h", Node [("m", Node [("p", Leaf 3); ("q", Leaf 2)]); ("z", Leaf 1)])]) /\
  follow (Node [("z", Leaf 1); ("m", Node [("q", Leaf 2); ("p", Leaf 3)])]) ["m"; "p"] = Some (FNum 3).
Proof.
  split.
  - assert (A : forall k, (k = "z" \/ k = "m" \/ k = "q" \/ k = "p") -> plain_name k)
      by (intros k [->|[->|[->| ->]]]; repeat split; discriminate).
    repeat match goal with
           | |- plain _ => constructor
           | |- NoDup _ => constructor
           | |- Forall _ _ => constructor
           | |- plain_name _ => apply A; auto
           | |- ~ _ => cbn; intuition discriminate
           end.
  - eexists. split; [vm_compute; reflexivity|]. vm_compute. repeat split.
Qed.

(* ================================================================ *)
(* C101 A list of bunches becomes a bunch of lists                    *)

Theorem C101_concatenate : forall b bs r, concatenate (b :: bs) = Some r ->
  map fst r = map fst b /\
  forall k l, In (k, l) r ->
    List.length l = S (List.length bs) /\
    forall n, (n < List.length l)%nat ->
      exists first v, nget b k = Some first /\ nget (nth n (b :: bs) []) k = Some v /\
        (same_type first v -> nth n l (NInt 0) = v) /\
        (* a whole number in a list of fractions becomes a fraction *)
        (forall q z, first = NFrac q -> v = NInt z -> nth n l (NInt 0) = NFrac (inject_Z z)) /\
        (* a fraction in a list of whole numbers loses its fractional part *)
        (forall z q, first = NInt z -> v = NFrac q ->
           nth n l (NInt 0) = NInt (if Qle_bool 0 q then Qfloor q else Qceiling q)).
Proof.
  intros b bs r H. unfold concatenate in H. destruct (columns_spec _ _ _ H) as [A B].
  split; [exact A|]. intros k l HI. destruct (B k l HI) as [l0 [C E]].
  destruct (column_spec _ _ _ C) as [L V]. subst l.
  destruct l0 as [|first l1]; [discriminate|]. unfold fill.
  rewrite map_length. split; [rewrite L; reflexivity|]. intros n Hn.
  exists first, (nth n (first :: l1) (NInt 0)). rewrite L in Hn.
  split; [apply (V 0%nat); cbn; lia|]. split; [apply V; exact Hn|].
  rewrite <- L in Hn.
  assert (M : nth n (map (cast first) (first :: l1)) (NInt 0) = cast first (nth n (first :: l1) (NInt 0))).
  { rewrite (nth_indep _ (NInt 0) (cast first (NInt 0))) by (rewrite map_length; exact Hn).
    apply map_nth. }
  rewrite M. clear M. set (v := nth n (first :: l1) (NInt 0)). split; [|split].
  - destruct first, v; cbn; intros S; (contradiction || reflexivity).
  - intros q z -> ->. reflexivity.
  - intros z q -> ->. cbn [cast]. f_equal. destruct q as [p d]. cbn [Qnum Qden].
    unfold Qceiling, Qfloor, Qle_bool, Qopp. cbn [Qnum Qden].
    change (QArith_base.Qnum 0) with 0%Z. change (QArith_base.Qden 0) with 1%positive.
    rewrite Z.mul_0_l, Z.mul_1_r. destruct (Z.leb_spec 0 p) as [P|P].
    + apply Z.quot_div_nonneg; lia.
    + rewrite <- (Z.opp_involutive p) at 1. rewrite Z.quot_opp_l by lia.
      f_equal. apply Z.quot_div_nonneg; lia.
Qed.
(* It needs every name of the first bunch in every bunch, and nothing else. *)
Theorem C101_defined : forall bs,
  (exists r, concatenate bs = Some r) <->
  match bs with
  | [] => False
  | b :: _ => forall k, In k (map fst b) -> forall b', In b' bs -> nget b' k <> None
  end.
Proof.
  intros [|b bs]; [split; [intros [r H]; discriminate|contradiction]|]. unfold concatenate. split.
  - intros [r H] k HK b' HB. destruct (columns_spec _ _ _ H) as [A B].
    rewrite <- A in HK. apply in_map_iff in HK. destruct HK as [[k' l] [E HI]]. cbn in E. subst k'.
    destruct (B k l HI) as [l0 [C _]]. destruct (column_spec _ _ _ C) as [_ V].
    apply (In_nth _ _ []) in HB. destruct HB as [n [L F]]. rewrite <- F, V by exact L. discriminate.
  - intros H. apply columns_some. exact H.
Qed.

Example C101_ex :
  concatenate [[("a", NInt 1); ("b", NFrac (1#2))]; [("b", NInt 3); ("a", NFrac (-7#2)); ("c", NInt 9)]]
  = Some [("a", [NInt 1; NInt (-3)]); ("b", [NFrac (1#2); NFrac 3])].
Proof. reflexivity. Qed.

Print Assumptions C99_history.
Print Assumptions C99_delete_missing.
Print Assumptions C99_independent.
Print Assumptions C99_copy.
Print Assumptions C99_own_names.
Print Assumptions C99_delete_dict.
Print Assumptions C100_split.
Print Assumptions C100_split_raises.
Print Assumptions C100_round_trip.
Print Assumptions C100_writes.
Print Assumptions C100_split_none.
Print Assumptions C100_split_exists.
Print Assumptions C100_split_subgroup.
Print Assumptions C100_empty_group.
Print Assumptions C100_slash_names.
Print Assumptions C100_groups_replaced.
Print Assumptions C101_concatenate.
Print Assumptions C101_defined.
