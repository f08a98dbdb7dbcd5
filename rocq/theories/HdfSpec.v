(* A file of maps: what is at each address after a history of writes. *)
From Coq Require Import List String Bool.
Import ListNotations.

Section S.
Context {M : Type}.
(* addresses as lists of names, [] the root; below p q: q is p or lies in the group p *)
Definition below (p q : list string) : Prop := exists r, q = p ++ r.
Inductive maps_after : list (option (list string) * M) -> list string -> option M -> Prop :=
| after_none q : maps_after [] q None
| after_new ops m q : maps_after (ops ++ [(None, m)]) q (match q with [] => Some m | _ => None end)
| after_here ops p m : maps_after (ops ++ [(Some p, m)]) p (Some m)
| after_erased ops p m q : below p q -> q <> p -> maps_after (ops ++ [(Some p, m)]) q None
| after_other ops p m q v : ~ below p q -> maps_after ops q v -> maps_after (ops ++ [(Some p, m)]) q v.
End S.
(* names the format itself uses *)
Definition free_address (p : list string) : Prop := ~ In "data"%string p /\ ~ In "wcs"%string p.
