(* C119: splitting strings. *)
From Coq Require Import ZArith List Ascii String Bool Arith Lia.
From Verif Require Import Base StrSpec StrModel StrLemmas.
Import ListNotations.
Local Open Scope nat_scope.
Ltac Zify.zify_post_hook ::= idtac.

(* the segments joined are the string; each is text without start characters, or a group, or, at the end, one that does not end; text comes before and after
   groups only *)
Theorem C119_groups (a start end_ : str) : List.length start <= List.length end_ ->
  exists segs, split_by_group a start end_ = Some segs /\ List.concat segs = a /\
    (forall k s, nth_error segs k = Some s ->
      (forall x, In x s -> ~ In x start) \/ is_group start end_ s \/ (S k = List.length segs /\ is_unfinished start end_ s)) /\
    (forall k s t, nth_error segs k = Some s -> nth_error segs (S k) = Some t -> is_group start end_ s \/ is_group start end_ t \/ is_unfinished start end_ t).
Proof.
  intros Len. destruct (sbg_ok start end_ Len a) as (segs & E & C & L). exists segs. split; [exact E|]. split; [exact C|]. clear E C. split.
  - induction L as [b|t l Ht Hl IH|b g l Hg Hl IH|b g Hg]; intros k s Hk.
    + destruct k; discriminate.
    + destruct k as [|k]; cbn in Hk; [injection Hk as <-; left; exact Ht|]. destruct (IH k s Hk) as [H|[H|[H1 H2]]]; [left; exact H|right; left; exact H|]. right. right. split; [cbn; lia|exact H2].
    + destruct k as [|k]; cbn in Hk; [injection Hk as <-; right; left; exact Hg|]. destruct (IH k s Hk) as [H|[H|[H1 H2]]]; [left; exact H|right; left; exact H|]. right. right. split; [cbn; lia|exact H2].
    + destruct k as [|[|k]]; cbn in Hk; [injection Hk as <-; right; right; split; [reflexivity|exact Hg]|discriminate|discriminate].
  - induction L as [b|t l Ht Hl IH|b g l Hg Hl IH|b g Hg]; intros k s u Hk Hk'.
    + destruct k; discriminate.
    + destruct k as [|k]; cbn in Hk, Hk'; [|apply (IH k); assumption]. right. inversion Hl; subst; cbn in Hk'; [discriminate| |]; injection Hk' as <-; [left|right]; assumption.
    + destruct k as [|k]; cbn in Hk, Hk'; [injection Hk as <-; left; exact Hg|apply (IH k); assumption].
    + destruct k as [|k]; cbn in Hk'; [discriminate|destruct k; discriminate].
Qed.

(* what is outside groups is well defined *)
Theorem C119_outer (a start end_ : str) : List.length start <= List.length end_ -> exists! m, outer start end_ a m.
Proof.
  intros Len. destruct (sbg_ok start end_ Len a) as (segs & E & C & L). assert (X : exists m, outer start end_ a m).
  { rewrite <- C. clear E C. induction L as [b|t l Ht Hl IH|b g l Hg Hl IH|b g Hg]; cbn.
    - exists []. constructor.
    - destruct IH as (m & Hm). exists (map Some t ++ m). apply closed_outer; [apply closed_text; exact Ht|exact Hm].
    - destruct IH as (m & Hm). exists (repeat None (List.length g) ++ m). apply outer_group; assumption.
    - exists (repeat None (List.length g)). rewrite app_nil_r. apply outer_unfinished. exact Hg. }
  destruct X as (m & Hm). exists m. split; [exact Hm|]. intros n Hn. exact (outer_fun start end_ Len a m Hm n Hn).
Qed.

(* the pieces joined by the separator give the string; the separators between them are outside groups, and no piece has another one outside groups *)
Theorem C119_split_outside (a sep start end_ : str) : List.length start <= List.length end_ -> sep <> [] ->
  exists pieces masks, split_outside a sep start end_ = Some pieces /\ join sep pieces = a /\
    Forall2 (outer start end_) pieces masks /\ outer start end_ a (join (map Some sep) masks) /\ Forall (fun m => ~ occurs (map Some sep) m) masks.
Proof.
  intros Len Ns. destruct (sbg_ok start end_ Len a) as (segs & E & C & L). unfold split_outside. rewrite E.
  destruct (oloop_ok start end_ Len sep Ns true segs L [] [] [] []) as (ps & ms & R & O2 & J & F & mr & Om & Jm).
  - constructor.
  - constructor.
  - constructor; [|constructor]. intros (p & q & O). destruct p; [|discriminate]. destruct sep; [contradiction|discriminate].
  - intros _. left. reflexivity.
  - cbn [rev] in R. rewrite R. exists ps, ms. cbn [option_map]. rewrite rev_involutive. split; [reflexivity|]. cbn [app join] in J, Jm. rewrite C in *. split; [exact J|]. split; [exact O2|]. split; [|exact F].
    rewrite Jm. exact Om.
Qed.
(* without groups it is str.split *)
Theorem C119_plain (a sep start end_ : str) : List.length start <= List.length end_ -> (forall x, In x a -> ~ In x start) -> a <> [] -> split_outside a sep start end_ = py_split a sep.
Proof.
  intros Len Hp Na. destruct (sbg_ok start end_ Len a) as (segs & E & C & L). assert (segs = [a]).
  { inversion L as [b|t l Ht Hl|b g l Hg Hl|b g Hg]; subst; cbn in *.
    - contradiction.
    - inversion Hl as [b|? ? ? ?|b g l' Hg Hl'|b g Hg]; subst; cbn in *.
      + rewrite app_nil_r. reflexivity.
      + exfalso. destruct (is_group_head start end_ g Hg) as (o & g' & -> & I). apply (Hp o); [|exact I]. apply in_app_iff. right. left. reflexivity.
      + exfalso. destruct Hg as (o & c & g' & (k & A & _) & -> & _). apply (Hp o); [|apply nth_error_In with k; exact A]. apply in_app_iff. right. left. reflexivity.
    - exfalso. destruct (is_group_head start end_ g Hg) as (o & g' & -> & I). apply (Hp o); [|exact I]. left. reflexivity.
    - exfalso. destruct Hg as (o & c & g' & (k & A & _) & -> & _). apply (Hp o); [|apply nth_error_In with k; exact A]. left. reflexivity. }
  subst segs. unfold split_outside. rewrite E. destruct a as [|c a]; [contradiction|]. cbn [oloop]. rewrite (proj2 (find_char_none start c)) by (apply Hp; left; reflexivity).
  destruct sep as [|x sep]; [reflexivity|]. destruct (py_split_ok (c :: a) (x :: sep) ltac:(discriminate)) as (t & toks & Es & _). rewrite Es. cbn [add_last app option_map]. rewrite rev_app_distr, rev_involutive. reflexivity.
Qed.

(* tokens without the escape character come back *)
Lemma eloop_token (d e : ascii) (t : str) : d <> e -> ~ In e t -> forall ostr rest, eloop d e false ostr (escape d e t ++ rest) = eloop d e false (ostr ++ t) rest.
Proof.
  intros Nde. induction t as [|x t IH]; intros He ostr rest; cbn [escape flat_map app].
  - rewrite app_nil_r. reflexivity.
  - assert (Nx : x <> e) by (intros ->; apply He; left; reflexivity). assert (Ht : ~ In e t) by (intros H; apply He; right; exact H). fold (escape d e t).
    destruct (Ascii.eqb_spec x d) as [->|Nd]; cbn [app eloop].
    + rewrite Ascii.eqb_refl. rewrite (proj2 (Ascii.eqb_neq d e)) by exact Nde. rewrite IH by exact Ht. rewrite <- app_assoc. reflexivity.
    + rewrite (proj2 (Ascii.eqb_neq x e)) by exact Nx. rewrite (proj2 (Ascii.eqb_neq x d)) by exact Nd. rewrite IH by exact Ht. rewrite <- app_assoc. reflexivity.
Qed.
Theorem C119_escape_partial (d e : ascii) (toks : list str) : d <> e -> Forall (fun t => ~ In e t) toks ->
  (toks = [[]] \/ exists l t, toks = l ++ [t] /\ t <> []) ->
  split_esc (join [d] (map (escape d e) toks)) [d] [e] = Some toks.
Proof.
  intros Nde He H. unfold split_esc. destruct H as [->|(l & t & -> & Nt)]; [reflexivity|].
  assert (X : eloop d e false [] (join [d] (map (escape d e) (l ++ [t]))) = l ++ [t]).
  { induction l as [|u l IH].
    - cbn [app map join]. inversion He; subst. rewrite <- (app_nil_r (escape d e t)). rewrite eloop_token by assumption. cbn. destruct t; [contradiction|reflexivity].
    - inversion He; subst. cbn [app map]. rewrite join_cons by (destruct l; discriminate). rewrite eloop_token by assumption. cbn [app eloop].
      rewrite (proj2 (Ascii.eqb_neq d e)) by exact Nde. rewrite Ascii.eqb_refl. cbn [app]. rewrite IH by assumption. reflexivity. }
  rewrite X. destruct (join [d] (map (escape d e) (l ++ [t]))) eqn:J; [|reflexivity]. exfalso. destruct (l ++ [t]) eqn:Q; [destruct l; discriminate|]. discriminate.
Qed.
(* an empty last token is dropped, and an escaped escape character too, so that no token can have one *)
Theorem C119_escape_refuted (d e : ascii) : d <> e ->
  (forall l, l <> [] -> Forall (fun t => ~ In e t) l -> split_esc (join [d] (map (escape d e) (l ++ [[]]))) [d] [e] = Some l) /\
  (forall s toks, split_esc s [d] [e] = Some toks -> Forall (fun t => ~ In e t) toks) /\ split_esc [e; e] [d] [e] = Some [].
Proof.
  intros Nde. split; [|split].
  - intros l Nl He. unfold split_esc.
    assert (X : eloop d e false [] (join [d] (map (escape d e) (l ++ [[]]))) = l).
    { clear Nl. induction l as [|u l IH]; [reflexivity|]. inversion He; subst. cbn [app map]. rewrite join_cons by (destruct l; discriminate). rewrite eloop_token by assumption. cbn [app eloop].
      rewrite (proj2 (Ascii.eqb_neq d e)) by exact Nde. rewrite Ascii.eqb_refl. cbn [app]. rewrite IH by assumption. reflexivity. }
    rewrite X. destruct (join [d] (map (escape d e) (l ++ [[]]))) eqn:J; [|reflexivity]. exfalso. destruct l as [|u l]; [contradiction|]. cbn [app map] in J. rewrite join_cons in J by (destruct l; discriminate).
    destruct (escape d e u); discriminate.
  - assert (X : forall s inesc ostr, ~ In e ostr -> Forall (fun t => ~ In e t) (eloop d e inesc ostr s)).
    { induction s as [|c s IH]; intros inesc ostr Ho; cbn [eloop].
      - destruct ostr; constructor; [exact Ho|constructor].
      - assert (Hc : c <> e -> ~ In e (ostr ++ [c])). { intros Nc I. apply in_app_iff in I. destruct I as [I|[I|[]]]; [contradiction|congruence]. }
        destruct inesc.
        + apply IH. destruct (Ascii.eqb_spec c e); [exact Ho|apply Hc; assumption].
        + destruct (Ascii.eqb_spec c e); [apply IH; exact Ho|]. destruct (Ascii.eqb_spec c d); [constructor; [exact Ho|apply IH; intros []]|apply IH; apply Hc; assumption]. }
    intros s toks. unfold split_esc. intros [= <-]. apply Forall_app. split; [destruct s; constructor; [intros []|constructor]|]. apply X. intros [].
  - cbn. rewrite Ascii.eqb_refl. reflexivity.
Qed.
(* a group whose start and end characters are the same never ends *)
Theorem C119_quotes_refuted (q : ascii) (a sep : str) : sep <> [] -> exists s, split_outside (q :: a) sep [q] [q] = Some [s].
Proof.
  intros Ns. destruct (C119_split_outside (q :: a) sep [q] [q] ltac:(cbn; lia) Ns) as (ps & ms & E & J & F2 & O & F). rewrite E.
  assert (U : is_unfinished [q] [q] (q :: a)).
  { exists q, q, a. split; [exists 0; split; [reflexivity|split; [reflexivity|intros j Hj; lia]]|]. split; [reflexivity|]. intros p r Ep Np. destruct p as [|x p]; [contradiction|]. injection Ep as -> _. cbn. rewrite Ascii.eqb_refl.
    assert (0 <= level x x p)%Z; [|lia]. clear. induction p as [|y p IH]; cbn; [lia|]. destruct (Ascii.eqb y x); lia. }
  pose proof (outer_fun [q] [q] (le_n 1) _ _ O _ (outer_unfinished [q] [q] (q :: a) U)) as M. destruct ps as [|p [|p2 ps]]; [|exists p; reflexivity|].
  - exfalso. cbn in J. discriminate.
  - exfalso. inversion F2 as [|? m ? ms' H1 H2]; subst. inversion H2 as [|? m2 ? ms'' H3 H4]; subst. rewrite join_cons in M by discriminate. destruct sep as [|z sep]; [contradiction|].
    assert (I : In (Some z) (repeat (@None ascii) (List.length (q :: a)))). { rewrite <- M. apply in_app_iff. right. apply in_app_iff. left. left. reflexivity. }
    apply repeat_spec in I. discriminate.
Qed.
Local Open Scope string_scope.
Notation "'s' x" := (list_ascii_of_string x) (at level 5, only parsing).
Example C119_ex : split_outside (s"a,(b,[c),d],e") (s",") (s"([{") (s")]}") = Some [s"a"; s"(b,[c)"; s"d]"; s"e"].
Proof. reflexivity. Qed.
Example C119_ex_nested : split_outside (s"f(a::(b))::c(::") (s"::") (s"(") (s")") = Some [s"f(a::(b))"; s"c(::"].
Proof. reflexivity. Qed.
Example C119_ex_escape : split_esc (s"a\,b,,c") (s",") (s"\") = Some [s"a,b"; s""; s"c"].
Proof. reflexivity. Qed.
Print Assumptions C119_split_outside.
