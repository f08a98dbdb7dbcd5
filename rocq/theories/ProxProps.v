(* C17: delayed map reads. *)
From Coq Require Import Lqa.
From Verif Require Import Base SliceSpec ArrModel ArrLemmas PixModel PixLemmas2 WindModel ProxSpec ProxModel ProxLemmas.

(* what a section read must return: that section of the fully loaded map *)
Definition is_section {E} (swap neg : E -> E) (src : source) (file : farr E) (sel : pyslice * pyslice) (out : farr E) : Prop :=
  arr_eq out (get2 (load (if native src then fun v => v else swap) neg (flipped src) file) (fst sel) (snd sel)).

(* When every read makes a new array (hdf, and fits through sections), every history of reads is right. *)
Theorem C17_sections : forall {E} (swap neg : E -> E) src (file : farr E) sels, shared src = false ->
  (forall sel, In sel sels -> py_step (fst sel) <> 0 /\ py_step (snd sel) <> 0) ->
  exists outs, reads swap neg src file sels = Some outs /\ Forall2 (is_section swap neg src file) sels outs.
Proof. intros E swap neg src file sels H1 H2. exact (reads_spec swap neg src file sels file eq_refl eq_refl H2 (fun _ _ _ _ _ => eq_refl) (or_introl H1)). Qed.
Print Assumptions C17_sections.

(* When the reads share one array, it is right if the data is in native order and no sign is flipped, *)
Theorem C17_native_partial : forall {E} (swap neg : E -> E) src (file : farr E) sels, native src = true -> (forall c, flipped src c = false) ->
  (forall sel, In sel sels -> py_step (fst sel) <> 0 /\ py_step (snd sel) <> 0) ->
  exists outs, reads swap neg src file sels = Some outs /\ Forall2 (is_section swap neg src file) sels outs.
Proof.
  intros E swap neg src file sels H1 H2 H3. refine (reads_spec swap neg src file sels file eq_refl eq_refl H3 (fun _ _ _ _ _ => eq_refl) (or_intror (or_introl _))).
  intros c v. unfold fix1. rewrite H1, H2. reflexivity.
Qed.
Print Assumptions C17_native_partial.

(* or if no element is read twice. *)
Theorem C17_disjoint_partial : forall {E} (swap neg : E -> E) src (file : farr E) sels,
  (forall sel, In sel sels -> py_step (fst sel) <> 0 /\ py_step (snd sel) <> 0) ->
  ForallOrdPairs (disjoint_sections (f_ny file) (f_nx file)) sels ->
  exists outs, reads swap neg src file sels = Some outs /\ Forall2 (is_section swap neg src file) sels outs.
Proof. intros E swap neg src file sels H1 H2. exact (reads_spec swap neg src file sels file eq_refl eq_refl H1 (fun _ _ _ _ _ => eq_refl) (or_intror (or_intror H2))). Qed.
Print Assumptions C17_disjoint_partial.

(* Two-byte elements: the low and high byte as the machine reads them. *)
Definition bytes := (Z * Z)%type.
Definition swapb (v : bytes) : bytes := (snd v, fst v).
Definition all_ : pyslice := PS None None None.

(* A big-endian file read twice through the shared array: the second read differs from the first. *)
Theorem C17_reread_refuted : exists (file : farr bytes) o1 o2, reads swapb (fun v => v) (Src true false (fun _ => false)) file [(all_, all_); (all_, all_)] = Some [o1; o2] /\
  f_at o1 0 0 = (1, 0) /\ f_at o2 0 0 = (0, 1).
Proof. exists (FA 1 1 (fun _ _ => (0, 1))). eexists _, _. split; [cbv; reflexivity|]. split; reflexivity. Qed.
Print Assumptions C17_reread_refuted.

(* A file in native order with a sign flip for component 2 (U), read twice: the sign comes back. *)
Theorem C17_reread_sign_refuted : exists (file : farr Z) o1 o2, reads (fun v => v) Z.opp (Src true true (fun c => c =? 2)) file [(all_, all_); (all_, all_)] = Some [o1; o2] /\
  f_at o1 2 0 = -5 /\ f_at o2 2 0 = 5.
Proof. exists (FA 3 1 (fun _ _ => 5)). eexists _, _. split; [cbv; reflexivity|]. split; reflexivity. Qed.
Print Assumptions C17_reread_sign_refuted.

(* The component flipped is the one whose Stokes coordinate is U (3), in the IAU convention or with none stated. *)
Theorem C17_flip_index : forall crpix crval cdelt k conv, ~ (cdelt == 0)%Q -> 0 <= k -> (sky_at crval crpix cdelt (inject_Z k) == 3)%Q ->
  stokes_flip true crpix crval cdelt conv = match conv with None | Some IAU => k | _ => -1 end.
Proof.
  intros crpix crval cdelt k conv Hd Hk H. unfold stokes_flip, sky_at in *.
  rewrite (qround_int _ (k + 1)). { replace (k + 1 - 1 =? -1) with false by lia. destruct conv as [[]|]; lia. }
  rewrite inject_Z_plus. change (inject_Z 1) with 1%Q. setoid_replace (3 - crval)%Q with (cdelt * (inject_Z k + 1 - crpix))%Q by lra. field. exact Hd.
Qed.
Print Assumptions C17_flip_index.

Example C17_ex : ForallOrdPairs (disjoint_sections 3 4) [(all_, sl 0 2); (all_, sl 2 4)] /\ stokes_flip true 1 1 1 (Some IAU) = 2.
Proof.
  split; [|reflexivity]. constructor; [|constructor; constructor]. constructor; [|constructor].
  intros c p [[_ H1] [_ H2]]. cbn [fst snd] in *. rewrite sl_find_in in H1, H2 by lia. destruct (_ && _) eqn:E1 in H1; destruct (_ && _) eqn:E2 in H2; try congruence. lia.
Qed.
