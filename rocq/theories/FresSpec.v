(* Signed frequencies of a discrete spectrum, as numpy.fft.fftfreq lays them out. *)
From Verif Require Import Base.

(* frequency of entry i of a spectrum of n entries *)
Definition sfreq (n i : Z) : Z := if 2 * i <? n then i else i - n.
(* frequency k exists in a spectrum of n entries, and where it is *)
Definition has_freq (n k : Z) : Prop := - n <= 2 * k < n.
Definition fidx (n k : Z) : Z := if 0 <=? k then k else n + k.
