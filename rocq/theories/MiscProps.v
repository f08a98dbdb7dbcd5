(* C27 sexagesimal numbers, C29 cache_get, C33 nearest_product. *)
From Coq Require Import Lqa Qround.
From Verif Require Import Base MiscSpec MiscModel MiscLemmas.

(* from_sexa undoes to_sexa; minutes and seconds are in [0,60); the sign is that of x *)
Theorem C27_sexa_roundtrip x :
  exists sign deg min sec, to_sexa x = (sign, deg, min, sec) /\ (from_sexa (sign, deg, min, sec) == x)%Q /\
    (sign = 1 \/ sign = -1) /\ (sign = -1 <-> (x < 0)%Q) /\ 0 <= deg /\ 0 <= min < 60 /\ (0 <= sec < 60)%Q.
Proof.
  pose proof (to_sexa_spec x) as H. destruct (to_sexa x) as [[[sign deg] min] sec].
  exists sign, deg, min, sec. tauto.
Qed.
(* the formatted text is the same for -1/2 and 1/2 *)
Theorem C27_format_sign_refuted : exists x y, (x < 0)%Q /\ (0 < y)%Q /\ format_sexa_args x = format_sexa_args y.
Proof. exists (-1 # 2)%Q, (1 # 2)%Q. repeat split; vm_compute; reflexivity. Qed.
(* away from (-1,0) the printed numbers determine x: the sign is that of the degrees *)
Theorem C27_format_partial x : (0 <= x \/ x <= -1)%Q ->
  exists d m s, format_sexa_args x = (d, m, s) /\ (d < 0 <-> (x < 0)%Q) /\
    (x == inject_Z (if d <? 0 then -1 else 1) * (inject_Z (Z.abs d) + inject_Z m / 60 + s / 3600))%Q.
Proof.
  intros Hx. pose proof (to_sexa_spec x) as H. unfold format_sexa_args. destruct (to_sexa x) as [[[sign deg] min] sec] eqn:E.
  destruct H as (H1 & H2 & H3 & H4 & H5 & H6). exists (sign * deg), min, sec. split; [reflexivity|].
  unfold from_sexa in H6.
  assert (Hd : sign = -1 -> 0 < deg).
  { intros ->. destruct (Z.eq_dec deg 0) as [->|]; [|lia]. exfalso. assert (x < 0)%Q by (apply H2; reflexivity). destruct Hx as [Hx|Hx]; [lra|].
    assert (Hm : (inject_Z min <= inject_Z 59)%Q) by (rewrite <- Zle_Qle; lia). change (inject_Z 59) with 59%Q in Hm. change (inject_Z (-1)) with (-1)%Q in H6. change (inject_Z 0) with 0%Q in H6.
    assert (Hm2 : (inject_Z min / 60 <= 59 # 60)%Q) by (apply Qle_shift_div_r; [reflexivity|]; lra).
    assert (Hs2 : (sec / 3600 < 1 # 60)%Q) by (apply Qlt_shift_div_r; [reflexivity|]; lra). lra. }
  destruct H1 as [-> | ->].
  - assert (~ (x < 0)%Q) by (intros Hn; apply H2 in Hn; lia). split; [split; [nia|contradiction]|].
    replace (1 * deg) with deg by lia. replace (deg <? 0) with false by lia. rewrite Z.abs_eq by lia. symmetry. exact H6.
  - specialize (Hd eq_refl). split; [split; [intros _; apply H2; reflexivity|lia]|].
    replace (-1 * deg <? 0) with true by lia. replace (Z.abs (-1 * deg)) with deg by lia. symmetry. exact H6.
Qed.
Example C27_ex : exists d m s, format_sexa_args (-(3661 # 3600)) = (d, m, s) /\ d = -1 /\ m = 1 /\ (s == 1)%Q.
Proof. do 3 eexists. split; [vm_compute; reflexivity|]. repeat split. Qed.

(* For a cache with something in it: over any history of calls, a key already present is never evaluated and gives
   the stored value; any other key is evaluated exactly at its first call, and later calls give that value. *)
Theorem C29_cache_get_partial {V} (cache calls : list (Z * V)) : cache <> [] ->
  forall i k v, nth_error calls i = Some (k, v) ->
  exists w e, nth_error (cache_run cache calls) i = Some (k, w, e) /\
    match dict_get cache k with
    | Some u => w = u /\ e = false
    | None => (e = true /\ w = v /\ forall j v', (j < i)%nat -> nth_error calls j <> Some (k, v')) \/
              (e = false /\ exists j, (j < i)%nat /\ nth_error calls j = Some (k, w) /\ nth_error (cache_run cache calls) j = Some (k, w, true))
    end.
Proof. intros H. exact (proj2 (cache_run_spec calls cache H)). Qed.
(* a caller starting with cache = {} gets no caching at all: every call evaluates op *)
Theorem C29_empty_cache_refuted : forall V (calls : list (Z * V)), cache_run [] calls = map (fun c => (fst c, snd c, true)) calls.
Proof. intros V. induction calls as [|[k v] calls IH]; [reflexivity|]. cbn. rewrite IH. reflexivity. Qed.
Example C29_ex : cache_run [(7, 70)] [(1, 10); (7, 71); (1, 11); (2, 20)] = [(1, 10, true); (7, 70, false); (1, 10, false); (2, 20, true)].
Proof. reflexivity. Qed.

(* mode "above", factors >= 2: the smallest product of at least one factor that is not below n *)
Theorem C33_above_partial n F : 1 <= n -> F <> [] -> (forall f, In f F -> 2 <= f) ->
  exists b, nearest_product n F false = Some (Some b) /\
    n <= b /\ proper_product F b /\ (forall p, proper_product F p -> n <= p -> b <= p).
Proof. exact (above_spec n F). Qed.
(* mode "below": what is returned is a product not above n ... *)
Theorem C33_below_partial n F b : 0 <= n -> (forall f, In f F -> 2 <= f) ->
  nearest_product n F true = Some (Some b) -> b <= n /\ proper_product F b.
Proof. exact (below_sound n F b). Qed.
(* ... but not the largest: 9 = 3*3 is a product of 2 and 3 not above 10 *)
Theorem C33_below_refuted : exists n F b p, (forall f, In f F -> 2 <= f) /\ nearest_product n F true = Some (Some b) /\
  proper_product F p /\ p <= n /\ b < p.
Proof.
  exists 10, [2; 3], 8, 9. split; [intros f [<-|[<-|[]]]; lia|]. split; [vm_compute; reflexivity|]. split; [|lia].
  exists 3, 3. split; [change 3 with (1 * 3); apply prod_mul; [constructor|now right; left]|]. split; [now right; left|reflexivity].
Qed.
(* with 1 among the factors n itself is returned, product or not *)
Theorem C33_one_refuted : nearest_product 5 [1; 3] true = Some (Some 5) /\ ~ product_of [1; 3] 5.
Proof.
  split; [reflexivity|]. intros H.
  assert (G : forall p, product_of [1; 3] p -> p = 1 \/ p mod 3 = 0).
  { intros p Hp. induction Hp as [|p f Hp IH [<-|[<-|[]]]]; [now left| |right; apply Z_mod_mult]. rewrite Z.mul_1_r. exact IH. }
  destruct (G 5 H) as [E|E]; vm_compute in E; discriminate.
Qed.
(* n = 1 has the product 1 below it, but nothing is found *)
Theorem C33_none_refuted : nearest_product 1 [2; 3] true = Some None.
Proof. reflexivity. Qed.
Example C33_ex : nearest_product 13 [2; 3; 5] false = Some (Some 15) /\ nearest_product 14 [2; 3; 5] true = Some (Some 12).
Proof. split; vm_compute; reflexivity. Qed.

Print Assumptions C27_sexa_roundtrip.
Print Assumptions C27_format_sign_refuted.
Print Assumptions C27_format_partial.
Print Assumptions C29_cache_get_partial.
Print Assumptions C29_empty_cache_refuted.
Print Assumptions C33_above_partial.
Print Assumptions C33_below_partial.
Print Assumptions C33_below_refuted.
Print Assumptions C33_one_refuted.
Print Assumptions C33_none_refuted.
