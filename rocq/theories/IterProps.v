(* C26: nditer. *)
From Coq Require Import Sorted.
From Verif Require Import Base IterSpec IterModel IterLemmas.

(* For every shape and set of axes with positive lengths, nditer yields exactly the index tuples, each
   once, in row-major order, and stops. The property's full quantifier includes zero-length axes; see below. *)
Theorem C26_nditer_partial : forall shape axes,
  match axes with None => True | Some l => NoDup (map (fun a => a mod zlen shape) l) /\ (l <> [] -> shape <> []) end ->
  let dims := select_axes (has_axis (length shape) axes) 0 shape in
  (forall n, In (Some n) dims -> 0 < n) ->
  exists out, (forall fuel, (length out <= fuel)%nat -> nditer fuel shape axes = Some out) /\
    NoDup out /\ StronglySorted lex_lt out /\ forall I, In I out <-> Forall2 index_ok dims I.
Proof.
  intros shape axes H dims Hpos. exists (index_tuples dims). split; [intros fuel Hf; apply nditer_spec; assumption|].
  split; [apply index_tuples_NoDup|]. split; [apply index_tuples_sorted|apply index_tuples_In].
Qed.
Print Assumptions C26_nditer_partial.

Example C26_ex : nditer 10 [2; 3] None = Some [[Some 0; Some 0]; [Some 0; Some 1]; [Some 0; Some 2]; [Some 1; Some 0]; [Some 1; Some 1]; [Some 1; Some 2]] /\
  nditer 10 [2; 7; 2] (Some [-1; 0]) = Some [[Some 0; None; Some 0]; [Some 0; None; Some 1]; [Some 1; None; Some 0]; [Some 1; None; Some 1]] /\
  nditer 10 [] None = Some [[]].
Proof. repeat split; reflexivity. Qed.

(* an axis of length zero has no valid index, but a tuple is yielded *)
Theorem C26_zero_axis_refuted : exists shape out, nditer 10 shape None = Some out /\
  ~ (forall I, In I out <-> Forall2 index_ok (map Some shape) I).
Proof.
  exists [2; 0]. eexists. split; [reflexivity|]. intros H. specialize (H [Some 0; Some 0]). destruct H as [H _].
  specialize (H (or_introl eq_refl)). inversion H as [|? ? ? ? _ H2]; subst. inversion H2; subst. cbn in *. lia.
Qed.
Print Assumptions C26_zero_axis_refuted.
