(** Properties C06-C15: the message cache.  [final stamp n h] is the cache after
    constructing it with size [n] and performing the calls [h];
    [outputs stamp n h] are the results of these calls. *)
From Coq Require Import List Arith ZArith Lia Bool Sorted Permutation.
From Verif Require Import Base RclTime Trace Cache_Model Cache_Spec Cache_Proofs.
Import ListNotations.

(** Concrete messages for the examples: (identity, stamp). *)
Module Ex.
  Definition msg := (nat * time)%type.
  Definition st (m : msg) : time := snd m.
  Definition m (i : nat) (z : Z) : msg := (i, mkTime z RosClock).
  Definition ms (i : nat) (z : Z) : msg := (i, mkTime z SystemClock).
  Definition T (z : Z) : time := mkTime z RosClock.
  (** out-of-order arrivals, ties, a size change and a query *)
  Definition h1 : list (op msg) :=
    [Add (m 1 10); Add (m 2 30); Add (m 3 20); GetInterval (T 5) (T 25); Add (m 4 20);
     SetSize 0; SetSize 5; Add (m 5 25); Add (m 6 40)].
End Ex.

Section Props.
Context {E : Type} (stamp : E -> time).

(** C06: sorted by stamp; equal stamps in arrival order - exactly the last
    arrivals with that stamp. *)
Theorem C06_cache_sorted n h :
  nondecreasing (key stamp) (contents (final stamp n h)).
Proof. apply final_inv. Qed.

Theorem C06_cache_ties_in_arrival_order k n h t :
  0 < n -> one_clock stamp k h ->
  is_suffix (with_stamp stamp t (contents (final stamp n h))) (with_stamp stamp t (added h)).
Proof. apply final_suffix. Qed.

(** C07: bounded by the last non-zero size set, after every addition. *)
Theorem C07_cache_bounded n h e c :
  capacity None (SetSize n :: h) = Some c ->
  length (contents (final stamp n (h ++ [Add e]))) <= c.
Proof.
  intros Hc. rewrite final_snoc. eapply (add_bound stamp); [apply final_inv| |reflexivity].
  rewrite final_cap. destruct n; exact Hc.
Qed.

(** C07: changing the size removes nothing and adds nothing by itself. *)
Theorem C07_cache_resize_keeps_contents n h m :
  contents (final stamp n (h ++ [SetSize m])) = contents (final stamp n h).
Proof. rewrite final_snoc. cbn. destruct m; reflexivity. Qed.

(** C08: in-order arrivals: exactly the last N. *)
Theorem C08_cache_last_n_in_order k n (es : list E) :
  0 < n -> (forall e, In e es -> clk (stamp e) = k) -> nondecreasing (key stamp) es ->
  contents (final stamp n (map (fun e => Add e) es)) = lastn n es.
Proof. apply in_order_lastn. Qed.

(** C08: any order: an addition evicts exactly the [len + 1 - capacity] oldest-stamped
    messages (the front of the sorted contents) and inserts the new one. *)
Theorem C08_cache_evicts_exactly_the_oldest k n h e c :
  0 < n -> one_clock stamp k (h ++ [Add e]) -> capacity (Some n) h = Some c ->
  let before := contents (final stamp n h) in
  exists evicted kept,
    before = evicted ++ kept /\ length evicted = S (length before) - c /\
    (forall x y, In x evicted -> In y kept -> (key stamp x <= key stamp y)%Z) /\
    Permutation (contents (final stamp n (h ++ [Add e]))) (e :: kept).
Proof.
  intros Hn HO Hc before.
  exists (firstn (S (length before) - c) before), (skipn (S (length before) - c) before).
  pose proof (final_inv stamp n h) as (_ & HS & HC). fold before in HS.
  assert (Hcap : cap (final stamp n h) = Some c).
  { rewrite final_cap. destruct n; [lia|exact Hc]. }
  rewrite Hcap in HC.
  assert (HO' : one_clock stamp k h).
  { intros x Hx. apply HO. rewrite added_app. apply in_or_app; auto. }
  assert (He : clk (stamp e) = k).
  { apply HO. rewrite added_app. apply in_or_app; cbn; auto. }
  rewrite firstn_skipn. split; [reflexivity|]. split; [rewrite firstn_length; lia|]. split.
  - rewrite <- (firstn_skipn (S (length before) - c) before) in HS.
    apply StronglySorted_app in HS as (_ & _ & HS). exact HS.
  - rewrite final_snoc. cbn [step]. rewrite (add_spec stamp k c); auto.
    + apply ins_perm.
    + now apply final_one_clock.
Qed.

(** C09: getInterval is exact, from every reachable cache. *)
Theorem C09_getInterval_exact n h a b :
  (forall e, In e (contents (final stamp n h)) -> clk (stamp e) = clk a) -> clk b = clk a ->
  snd (step stamp (final stamp n h) (GetInterval a b)) =
  Elems (filter (fun e => (ns a <=? key stamp e)%Z && (key stamp e <=? ns b)%Z)
                (contents (final stamp n h))).
Proof.
  intros HA Hb. pose proof (final_inv stamp n h) as (_ & HS & _). cbn.
  rewrite (getInterval_spec stamp (clk a)); auto.
Qed.

(** C10: getSurroundingInterval returns the (unique) tightest surrounding slice. *)
Theorem C10_getSurroundingInterval_tightest n h a b :
  (forall e, In e (contents (final stamp n h)) -> clk (stamp e) = clk a) -> clk b = clk a ->
  exists r, snd (step stamp (final stamp n h) (GetSurrounding a b)) = Elems r /\
    surrounding stamp (ns a) (ns b) (contents (final stamp n h)) r /\
    (forall r', surrounding stamp (ns a) (ns b) (contents (final stamp n h)) r' -> r' = r).
Proof.
  intros HA Hb. pose proof (final_inv stamp n h) as (_ & HS & _). cbn.
  destruct (getSurrounding_spec stamp (clk a) a b (contents (final stamp n h))) as (r & Hr & H); auto.
  exists r. rewrite Hr. split; [reflexivity|]. split; auto.
  intros r' H'. eapply surrounding_unique; eauto.
Qed.

(** C11 *)
Theorem C11_getElemBeforeTime_exact n h t :
  (forall e, In e (contents (final stamp n h)) -> clk (stamp e) = clk t) ->
  exists r, snd (step stamp (final stamp n h) (GetBefore t)) = Elem r /\
    newest_before stamp (ns t) (contents (final stamp n h)) r.
Proof.
  intros HA. pose proof (final_inv stamp n h) as (_ & HS & _). cbn.
  destruct (getBefore_spec stamp (clk t) t (contents (final stamp n h))) as (r & Hr & H); auto.
  exists r. now rewrite Hr.
Qed.

Theorem C11_getElemAfterTime_exact n h t :
  (forall e, In e (contents (final stamp n h)) -> clk (stamp e) = clk t) ->
  exists r, snd (step stamp (final stamp n h) (GetAfter t)) = Elem r /\
    oldest_after stamp (ns t) (contents (final stamp n h)) r.
Proof.
  intros HA. pose proof (final_inv stamp n h) as (_ & HS & _). cbn.
  destruct (getAfter_spec stamp (clk t) t (contents (final stamp n h))) as (r & Hr & H); auto.
  exists r. now rewrite Hr.
Qed.

(** C12 *)
Theorem C12_getLatestTime_is_max n h :
  exists t, snd (step stamp (final stamp n h) GetLatest) = TimeOut t /\
    (contents (final stamp n h) = [] -> t = mkTime 0 SystemClock) /\
    (contents (final stamp n h) <> [] -> exists e, In e (contents (final stamp n h)) /\ t = stamp e) /\
    (forall e, In e (contents (final stamp n h)) -> (key stamp e <= ns t)%Z).
Proof.
  pose proof (final_inv stamp n h) as (_ & HS & _). cbn. eexists; split; [reflexivity|].
  destruct (getLatest_spec stamp _ HS) as (H1 & H2 & H3). auto.
Qed.

Theorem C12_getOldestTime_is_min n h :
  exists t, snd (step stamp (final stamp n h) GetOldest) = TimeOut t /\
    (contents (final stamp n h) = [] -> t = mkTime 0 SystemClock) /\
    (contents (final stamp n h) <> [] -> exists e, In e (contents (final stamp n h)) /\ t = stamp e) /\
    (forall e, In e (contents (final stamp n h)) -> (ns t <= key stamp e)%Z).
Proof.
  pose proof (final_inv stamp n h) as (_ & HS & _). cbn. eexists; split; [reflexivity|].
  destruct (getOldest_spec stamp _ HS) as (H1 & H2 & H3). auto.
Qed.

(** C13 *)
Theorem C13_cache_forwards_everything k n h :
  0 < n -> one_clock stamp k h -> forwarded (outputs stamp n h) = added h.
Proof. apply forwarded_all. Qed.

(** C13: each addition is forwarded by the very call that adds it. *)
Theorem C13_cache_forwards_immediately k n h e :
  0 < n -> one_clock stamp k (h ++ [Add e]) ->
  snd (step stamp (final stamp n h) (Add e)) = Forwarded e.
Proof.
  intros Hn HO.
  assert (HO' : one_clock stamp k h).
  { intros x Hx. apply HO. rewrite added_app. apply in_or_app; auto. }
  assert (He : clk (stamp e) = k).
  { apply HO. rewrite added_app. apply in_or_app; cbn; auto. }
  pose proof (final_inv stamp n h) as (_ & HS & HC).
  pose proof (final_cap stamp n h) as Hc. destruct n; [lia|]. cbn in Hc.
  destruct (capacity_some (S n) h Hn) as (c & Hc' & Hpos). rewrite Hc' in Hc.
  cbn [step]. rewrite (add_spec stamp k c); auto. now apply final_one_clock.
Qed.

(** C15: whatever the clock sources, the contents always share one source. *)
Theorem C15_cache_one_clock_source n h x y :
  In x (contents (final stamp n h)) -> In y (contents (final stamp n h)) ->
  clk (stamp x) = clk (stamp y).
Proof.
  intros Hx Hy. destruct (final_inv stamp n h) as ((k & HA) & _). now rewrite (HA x), (HA y).
Qed.

(** C15: no query ever changes the cache. *)
Theorem C15_queries_do_not_change_the_cache n h o :
  (forall m, o <> SetSize m) -> (forall e, o <> Add e) ->
  fst (step stamp (final stamp n h) o) = final stamp n h.
Proof. apply step_query_state. Qed.

(** C15: a start / reference time of another clock source throws. *)
Theorem C15_foreign_clock_query_throws n h e t b :
  In e (contents (final stamp n h)) -> clk t <> clk (stamp e) ->
  snd (step stamp (final stamp n h) (GetInterval t b)) = Failed Thrown /\
  snd (step stamp (final stamp n h) (GetBefore t)) = Failed Thrown /\
  snd (step stamp (final stamp n h) (GetAfter t)) = Failed Thrown.
Proof.
  intros He Ht. pose proof (final_inv stamp n h) as ((k & HA) & _ & _).
  assert (Hk : clk t <> k) by (rewrite <- (HA e He); auto).
  assert (Hne : contents (final stamp n h) <> []) by (intros H; rewrite H in He; destruct He).
  cbn. unfold getInterval, getElemBeforeTime, getElemAfterTime.
  rewrite (query_mixed_lt stamp k), (after_mixed stamp k); auto.
Qed.

(** C15: an end of another clock source: the call throws iff some message is not before the
    start, otherwise the answer is empty, as with any end. *)
Theorem C15_foreign_clock_end n h e a b :
  In e (contents (final stamp n h)) -> clk a = clk (stamp e) -> clk b <> clk (stamp e) ->
  (snd (step stamp (final stamp n h) (GetInterval a b)) = Failed Thrown /\
   (exists x, In x (contents (final stamp n h)) /\ (ns a <= key stamp x)%Z)) \/
  (snd (step stamp (final stamp n h) (GetInterval a b)) = Elems [] /\
   (forall x, In x (contents (final stamp n h)) -> (key stamp x < ns a)%Z)).
Proof.
  intros He Ha Hb. pose proof (final_inv stamp n h) as ((k & HA) & HS & _).
  cbn. rewrite (interval_mixed_end stamp k); auto; [|now rewrite <- (HA e He)|now rewrite <- (HA e He)].
  destruct (existsb _ _) eqn:Ex.
  - left. split; [reflexivity|]. apply existsb_exists in Ex as (x & Hx & Hle). exists x. split; auto. now apply Z.leb_le.
  - right. split; [reflexivity|]. intros x Hx. apply Z.nle_gt. intros Hle. apply Bool.not_true_iff_false in Ex. apply Ex.
    apply existsb_exists. exists x. split; auto. now apply Z.leb_le.
Qed.

(** C15: getSurroundingInterval of a single message compares nothing; of more it throws if the
    start is foreign, and if the end is and the newest message is after the start. *)
Theorem C15_foreign_clock_surrounding n h l e a b :
  contents (final stamp n h) = l ++ [e] ->
  (l = [] -> snd (step stamp (final stamp n h) (GetSurrounding a b)) = Elems [e]) /\
  (l <> [] -> clk a <> clk (stamp e) -> snd (step stamp (final stamp n h) (GetSurrounding a b)) = Failed Thrown) /\
  (l <> [] -> clk a = clk (stamp e) -> clk b <> clk (stamp e) ->
   snd (step stamp (final stamp n h) (GetSurrounding a b)) =
     if Z.ltb (ns a) (key stamp e) then Failed Thrown else Elems [e]).
Proof.
  intros El. pose proof (final_inv stamp n h) as ((k & HA) & _ & _). rewrite El in HA.
  assert (clk (stamp e) = k) as Ek by (apply HA, in_or_app; cbn; auto). rewrite Ek. cbn [step snd]. rewrite El.
  repeat split.
  - intros ->. reflexivity.
  - intros Hl Ha. rewrite (surrounding_mixed_start stamp k); auto. rewrite app_length. destruct l; [congruence|cbn; lia].
  - intros Hl Ha Hb. rewrite (surrounding_mixed_end stamp k); auto. now destruct (Z.ltb _ _).
Qed.

(** C15: adding a message of another source: either the size bound empties the
    cache first and the message becomes the only element, or the call throws,
    nothing is forwarded and the message is not inserted; the evictions done
    before the failure persist. *)
Theorem C15_foreign_clock_add n h e x c :
  capacity None (SetSize n :: h) = Some c ->
  In x (contents (final stamp n h)) -> clk (stamp e) <> clk (stamp x) ->
  let before := contents (final stamp n h) in
  let kept := skipn (S (length before) - c) before in
  (kept = [] /\ step stamp (final stamp n h) (Add e) = (mkState (Some c) [e], Forwarded e)) \/
  (kept <> [] /\ step stamp (final stamp n h) (Add e) = (mkState (Some c) kept, Failed Thrown)).
Proof.
  intros Hc Hx He before kept. pose proof (final_inv stamp n h) as ((k & HA) & _ & HC).
  assert (Hcap : cap (final stamp n h) = Some c) by (rewrite final_cap; destruct n; exact Hc).
  rewrite Hcap in HC. cbn [step].
  rewrite (add_mixed stamp c _ e k); auto. 2:{ rewrite <- (HA x Hx); auto. }
  fold before. fold kept. destruct kept as [|y t]; cbn; [left|right]; auto. split; [discriminate|reflexivity].
Qed.
End Props.

(** C08 refuted in its "most recent N" reading for out-of-order arrivals: after
    stamps 1,5,3,0 a cache of size 2 holds {0,5}: neither the two newest stamps
    {3,5} nor the last two arrivals {3,0}. *)
Theorem C08_most_recent_n_refuted :
  exists es : list Ex.msg,
    let c := contents (final Ex.st 2 (map (fun e => Add e) es)) in
    c <> lastn 2 es /\
    exists kept_ dropped_, In kept_ c /\ In dropped_ es /\ ~ In dropped_ c /\
      (key Ex.st kept_ < key Ex.st dropped_)%Z /\ In dropped_ (lastn 2 es).
Proof.
  exists [Ex.m 1 1; Ex.m 2 5; Ex.m 3 3; Ex.m 4 0]. vm_compute. split; [discriminate|].
  exists (Ex.m 4 0), (Ex.m 3 3). repeat split; auto. intros [H|[H|[]]]; discriminate.
Qed.

(** C14 refuted: Cache(0) leaves the capacity indeterminate and the first
    addition reads it. *)
Theorem C14_cache_size_zero_refuted :
  exists e : Ex.msg, outputs Ex.st 0 [Add e] = [Failed UB].
Proof. exists (Ex.m 1 1). reflexivity. Qed.

(** ... what does hold: any later non-zero size makes it usable, whatever was called before
    except an addition. *)
Theorem C14_cache_usable_once_sized {E} (stamp : E -> time) n h :
  0 < n -> (forall e, ~ In (Add e) h) -> forall h', final stamp 0 (h ++ SetSize n :: h') = final stamp n h'.
Proof.
  intros Hn Hna h'. unfold final. rewrite run_app. cbn [fst].
  assert (H : contents (fst (run stamp (ctor 0) h)) = []).
  { fold (final stamp 0 h). induction h as [|o h IH] using rev_ind; [reflexivity|].
    rewrite final_snoc.
    assert (Hc : contents (final stamp 0 h) = []).
    { apply IH. intros e He. apply (Hna e), in_or_app; auto. }
    destruct o as [[|m]|e| | | | | | ]; cbn; auto.
    exfalso. apply (Hna e), in_or_app; cbn; auto. }
  destruct n as [|n]; [lia|]. cbn [run step setCacheSize].
  rewrite H. now destruct (run stamp _ h').
Qed.

(** ** Non-vacuity *)
Example C06_C13_nonvacuous :
  one_clock Ex.st RosClock Ex.h1 /\
  contents (final Ex.st 3 Ex.h1) = [Ex.m 3 20; Ex.m 4 20; Ex.m 5 25; Ex.m 2 30; Ex.m 6 40] /\
  capacity None (SetSize 3 :: Ex.h1) = Some 5 /\
  forwarded (outputs Ex.st 3 Ex.h1) = [Ex.m 1 10; Ex.m 2 30; Ex.m 3 20; Ex.m 4 20; Ex.m 5 25; Ex.m 6 40].
Proof.
  split; [|vm_compute; auto].
  intros e He. cbn in He. repeat (destruct He as [<-|He]; [reflexivity|]). destruct He.
Qed.

Example C09_C12_nonvacuous :
  (forall e, In e (contents (final Ex.st 3 Ex.h1)) -> clk (Ex.st e) = clk (Ex.T 20)) /\
  snd (step Ex.st (final Ex.st 3 Ex.h1) (GetInterval (Ex.T 20) (Ex.T 25))) = Elems [Ex.m 3 20; Ex.m 4 20; Ex.m 5 25] /\
  snd (step Ex.st (final Ex.st 3 Ex.h1) (GetSurrounding (Ex.T 22) (Ex.T 26))) = Elems [Ex.m 4 20; Ex.m 5 25; Ex.m 2 30] /\
  snd (step Ex.st (final Ex.st 3 Ex.h1) (GetBefore (Ex.T 25))) = Elem (Some (Ex.m 4 20)) /\
  snd (step Ex.st (final Ex.st 3 Ex.h1) (GetAfter (Ex.T 19))) = Elem (Some (Ex.m 3 20)) /\
  snd (step Ex.st (final Ex.st 3 Ex.h1) GetLatest) = TimeOut (Ex.T 40).
Proof.
  split; [|vm_compute; auto].
  vm_compute. intros e He. repeat (destruct He as [<-|He]; [reflexivity|]). destruct He.
Qed.

Example C08_nonvacuous :
  nondecreasing (key Ex.st) [Ex.m 1 1; Ex.m 2 2; Ex.m 3 2; Ex.m 4 7] /\
  contents (final Ex.st 2 (map (fun e => Add e) [Ex.m 1 1; Ex.m 2 2; Ex.m 3 2; Ex.m 4 7])) = [Ex.m 3 2; Ex.m 4 7].
Proof. split; [|reflexivity]. repeat constructor; cbn; lia. Qed.

Example C15_nonvacuous :
  In (Ex.m 2 5) (contents (final Ex.st 2 [Add (Ex.m 1 1); Add (Ex.m 2 5)])) /\
  step Ex.st (final Ex.st 2 [Add (Ex.m 1 1); Add (Ex.m 2 5)]) (Add (Ex.ms 3 9)) =
    (mkState (Some 2) [Ex.m 2 5], Failed Thrown) /\
  step Ex.st (final Ex.st 1 [Add (Ex.m 1 1); Add (Ex.m 2 5)]) (Add (Ex.ms 3 9)) =
    (mkState (Some 1) [Ex.ms 3 9], Forwarded (Ex.ms 3 9)).
Proof. vm_compute. auto. Qed.

Example C15_queries_nonvacuous :
  contents (final Ex.st 2 [Add (Ex.m 1 1); Add (Ex.m 2 5)]) = [Ex.m 1 1] ++ [Ex.m 2 5] /\
  snd (step Ex.st (final Ex.st 2 [Add (Ex.m 1 1); Add (Ex.m 2 5)]) (GetInterval (Ex.T 3) (mkTime 9 SystemClock))) = Failed Thrown /\
  snd (step Ex.st (final Ex.st 2 [Add (Ex.m 1 1); Add (Ex.m 2 5)]) (GetInterval (Ex.T 6) (mkTime 9 SystemClock))) = Elems [] /\
  snd (step Ex.st (final Ex.st 2 [Add (Ex.m 1 1); Add (Ex.m 2 5)]) (GetSurrounding (Ex.T 3) (mkTime 9 SystemClock))) = Failed Thrown /\
  snd (step Ex.st (final Ex.st 2 [Add (Ex.m 1 1); Add (Ex.m 2 5)]) (GetSurrounding (Ex.T 5) (mkTime 9 SystemClock))) = Elems [Ex.m 2 5].
Proof. vm_compute. auto. Qed.

Print Assumptions C06_cache_sorted.
Print Assumptions C06_cache_ties_in_arrival_order.
Print Assumptions C07_cache_bounded.
Print Assumptions C07_cache_resize_keeps_contents.
Print Assumptions C08_cache_last_n_in_order.
Print Assumptions C08_cache_evicts_exactly_the_oldest.
Print Assumptions C08_most_recent_n_refuted.
Print Assumptions C09_getInterval_exact.
Print Assumptions C10_getSurroundingInterval_tightest.
Print Assumptions C11_getElemBeforeTime_exact.
Print Assumptions C11_getElemAfterTime_exact.
Print Assumptions C12_getLatestTime_is_max.
Print Assumptions C12_getOldestTime_is_min.
Print Assumptions C13_cache_forwards_everything.
Print Assumptions C13_cache_forwards_immediately.
Print Assumptions C14_cache_size_zero_refuted.
Print Assumptions C14_cache_usable_once_sized.
Print Assumptions C15_cache_one_clock_source.
Print Assumptions C15_queries_do_not_change_the_cache.
Print Assumptions C15_foreign_clock_query_throws.
Print Assumptions C15_foreign_clock_add.
Print Assumptions C15_foreign_clock_end.
Print Assumptions C15_foreign_clock_surrounding.
