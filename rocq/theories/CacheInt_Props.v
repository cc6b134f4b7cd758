(** C116: the integers of the cache's queries. *)
From Coq Require Import List ZArith Lia Bool.
From Verif Require Import Base RclTime Trace Cache_Model Cache_Spec Cache_Props CacheInt_Model CacheInt_Proofs.
Import ListNotations.
Open Scope Z_scope.

Section Props.
Context {E : Type} (stamp : E -> time).

(** A cache whose sizes are at most INT_MAX: every call of every history returns what it returns with unbounded
    integers, so what C09 - C12 say holds of the code's integers.
    Missing: the size is an unsigned int, and larger ones are accepted *)
Theorem C116_queries_exact_partial n (h : list (op E)) : Z.of_nat n <= int_max -> (forall m, In (SetSize m) h -> Z.of_nat m <= int_max) ->
  outputs_int stamp n h = outputs stamp n h.
Proof. intros Hn Hh. unfold outputs_int, outputs. rewrite run_same; auto. now apply ctor_fits. Qed.

(** In particular the element before a time is the newest one before it *)
Theorem C116_elem_before_partial n (h : list (op E)) t : Z.of_nat n <= int_max -> (forall m, In (SetSize m) h -> Z.of_nat m <= int_max) ->
  let s := fst (run_int stamp (ctor n) h) in
  (forall e, In e (contents s) -> clk (stamp e) = clk t) ->
  exists r, snd (step_int stamp s (GetBefore t)) = Elem r /\ newest_before stamp (ns t) (contents s) r.
Proof.
  intros Hn Hh s. unfold s. rewrite run_same by (auto using ctor_fits). intros HA. rewrite step_same; [now apply C11_getElemBeforeTime_exact|].
  apply run_fits; auto. now apply ctor_fits.
Qed.
Theorem C116_elem_after_partial n (h : list (op E)) t : Z.of_nat n <= int_max -> (forall m, In (SetSize m) h -> Z.of_nat m <= int_max) ->
  let s := fst (run_int stamp (ctor n) h) in
  (forall e, In e (contents s) -> clk (stamp e) = clk t) ->
  exists r, snd (step_int stamp s (GetAfter t)) = Elem r /\ oldest_after stamp (ns t) (contents s) r.
Proof.
  intros Hn Hh s. unfold s. rewrite run_same by (auto using ctor_fits). intros HA. rewrite step_same; [now apply C11_getElemAfterTime_exact|].
  apply run_fits; auto. now apply ctor_fits.
Qed.
Theorem C116_surrounding_partial n (h : list (op E)) a b : Z.of_nat n <= int_max -> (forall m, In (SetSize m) h -> Z.of_nat m <= int_max) ->
  let s := fst (run_int stamp (ctor n) h) in
  (forall e, In e (contents s) -> clk (stamp e) = clk a) -> clk b = clk a ->
  exists r, snd (step_int stamp s (GetSurrounding a b)) = Elems r /\ surrounding stamp (ns a) (ns b) (contents s) r.
Proof.
  intros Hn Hh s. unfold s. rewrite run_same by (auto using ctor_fits). intros HA Hb. rewrite step_same by (apply run_fits; auto; now apply ctor_fits).
  destruct (C10_getSurroundingInterval_tightest stamp n h a b HA Hb) as (r & R1 & R2 & _). eauto.
Qed.

(** With more than INT_MAX messages (at most UINT_MAX are possible), whatever they are: the interval around
    anything is undefined behaviour; there is never an element after a time; and there is none before a time if
    the newest one before it is not among the first 2^31 *)
Theorem C116_large_cache_refuted (s : state E) : int_max < Z.of_nat (length (contents s)) < 2 ^ 32 ->
  (forall a b, snd (step_int stamp s (GetSurrounding a b)) = Failed UB) /\
  (forall t, snd (step_int stamp s (GetAfter t)) = Failed UB \/ snd (step_int stamp s (GetAfter t)) = Elem None) /\
  (forall t l1 e l2, contents s = l1 ++ e :: l2 -> int_max < Z.of_nat (length l1) ->
     (forall x, In x (l1 ++ [e]) -> clk (stamp x) = clk t /\ ns (stamp x) < ns t) -> (forall x, In x l2 -> clk (stamp x) = clk t) ->
     snd (step_int stamp s (GetBefore t)) = Elem None).
Proof.
  intros H. split; [|split].
  - intros a b. cbn [step_int snd]. rewrite surrounding_big by exact H. reflexivity.
  - intros t. cbn [step_int snd]. destruct (elem_after_big stamp (contents s) t H) as [-> | ->]; cbn; auto.
  - intros t l1 e l2 Hc Hl H1 H2. cbn [step_int snd]. rewrite elem_before_exact by (unfold CacheInt_Model.size; lia).
    destruct (scan_up_passes (fun x => time_lt (stamp x) t) (contents s) (length (contents s)) (length (l1 ++ [e])) 0) as (j & Hj & Hle).
    + lia.
    + rewrite Hc, !app_length. cbn. lia.
    + intros i x Hi Hx. rewrite Hc in Hx. change (e :: l2) with ([e] ++ l2) in Hx. rewrite app_assoc, nth_error_app1 in Hx by auto. apply nth_error_In, H1 in Hx as [A B].
      unfold time_lt. rewrite A. destruct (clock_eqb_spec (clk t) (clk t)); [|congruence]. f_equal. now apply Z.ltb_lt.
    + intros x Hx. assert (clk (stamp x) = clk t) as A. { rewrite Hc in Hx. apply in_app_or in Hx as [Hx|[<-|Hx]]; auto; apply H1, in_or_app; cbn; auto. }
      unfold time_lt. rewrite A. destruct (clock_eqb_spec (clk t) (clk t)); [|congruence]. eauto.
    + rewrite Hj. cbn [bind query]. rewrite app_length in Hle. cbn in Hle. destruct (Z.ltb_spec (int_max + 1) (Z.of_nat j)); [reflexivity|lia].
Qed.
End Props.

(** Such caches exist: one of any size above INT_MAX, filled by as many messages with one stamp.  The queries find no message
    after an earlier time and, if there are two more than INT_MAX, none before a later time *)
Theorem C116_large_cache_reachable_refuted n : int_max < Z.of_nat n < 2 ^ 32 ->
  let e := mkTime 1 RosClock in
  let s := fst (run_int (fun t => t) (ctor n) (map (fun e => Add e) (repeat e n))) in
  contents s = repeat e n /\
  (exists r, snd (step (fun t => t) s (GetAfter (mkTime 0 RosClock))) = Elem (Some r)) /\
  (forall r, snd (step_int (fun t => t) s (GetAfter (mkTime 0 RosClock))) <> Elem (Some r)) /\
  snd (step_int (fun t => t) s (GetSurrounding e e)) = Failed UB /\
  (exists r, snd (step (fun t => t) s (GetSurrounding e e)) = Elems r) /\
  (int_max + 1 < Z.of_nat n -> snd (step_int (fun t => t) s (GetBefore (mkTime 2 RosClock))) = Elem None) /\
  (exists r, snd (step (fun t => t) s (GetBefore (mkTime 2 RosClock))) = Elem (Some r)).
Proof.
  intros H e s. assert (fst (run (fun t => t) (ctor n) (map (fun e => Add e) (repeat e n))) = s) as Hs by (unfold s; now rewrite run_adds). clearbody s. unfold int_max in H.
  assert (forall x, In x (repeat e n) -> x = e) as R by (intros x Hx; now apply repeat_spec in Hx).
  assert (contents s = repeat e n) as C.
  { rewrite <- Hs. change (contents (final (fun t => t) n (map (fun e => Add e) (repeat e n))) = repeat e n). rewrite (C08_cache_last_n_in_order (fun t => t) RosClock).
    - unfold lastn. rewrite repeat_length, Nat.sub_diag. reflexivity.
    - lia.
    - intros x Hx. now rewrite (R x Hx).
    - clear. induction n as [|n IH]; cbn; constructor; auto. apply Forall_forall. intros x Hx. apply repeat_spec in Hx as ->. lia. }
  assert (In e (contents s)) as I by (rewrite C; destruct n; [lia|left; auto]).
  assert (forall x, In x (contents s) -> x = e) as R' by (rewrite C; auto).
  assert (int_max < Z.of_nat (length (contents s)) < 2 ^ 32) as L by (rewrite C, repeat_length; exact H).
  destruct (C116_large_cache_refuted (fun t => t) s L) as (A & B & D). split; [exact C|]. split; [|split; [|split; [|split; [|split]]]].
  - destruct (C11_getElemAfterTime_exact (fun t => t) n (map (fun e => Add e) (repeat e n)) (mkTime 0 RosClock)) as (r & Hr & O); unfold final in *; rewrite Hs in *.
    + intros x Hx. now rewrite (R' x Hx).
    + destruct r as [r|]; [eauto|]. specialize (O e I). cbn in O. lia.
  - intros r. destruct (B (mkTime 0 RosClock)) as [-> | ->]; discriminate.
  - apply A.
  - destruct (C10_getSurroundingInterval_tightest (fun t => t) n (map (fun e => Add e) (repeat e n)) e e) as (r & Hr & _); unfold final in *; try rewrite Hs in *; eauto.
    intros x Hx. now rewrite (R' x Hx).
  - intros Hn. apply (D (mkTime 2 RosClock) (repeat e (n - 1)) e []).
    + rewrite C. change [e] with (repeat e 1). rewrite <- repeat_app. f_equal. lia.
    + rewrite repeat_length. lia.
    + intros x Hx. assert (x = e) as -> by (apply in_app_or in Hx as [Hx|[Hx|[]]]; auto; now apply repeat_spec in Hx). cbn. split; [auto|lia].
    + intros x [].
  - destruct (C11_getElemBeforeTime_exact (fun t => t) n (map (fun e => Add e) (repeat e n)) (mkTime 2 RosClock)) as (r & Hr & O); unfold final in *; rewrite Hs in *.
    + intros x Hx. now rewrite (R' x Hx).
    + destruct r as [r|]; [eauto|]. specialize (O e I). cbn in O. lia.
Qed.

(** The hypotheses hold of the sizes used in practice, and of a size the theorem is about *)
Example C116_example : outputs_int (fun t => t) 10 [Add (mkTime 1 RosClock); Add (mkTime 3 RosClock); GetBefore (mkTime 3 RosClock); GetAfter (mkTime 1 RosClock); GetSurrounding (mkTime 2 RosClock) (mkTime 2 RosClock)]
  = [Forwarded (mkTime 1 RosClock); Forwarded (mkTime 3 RosClock); Elem (Some (mkTime 1 RosClock)); Elem (Some (mkTime 3 RosClock)); Elems [mkTime 1 RosClock; mkTime 3 RosClock]].
Proof. reflexivity. Qed.
Example C116_example_large : exists n, int_max + 1 < Z.of_nat n < 2 ^ 32.
Proof. exists (Z.to_nat (2 ^ 31 + 5)). rewrite Z2Nat.id; unfold int_max; lia. Qed.

Print Assumptions C116_queries_exact_partial.
Print Assumptions C116_elem_before_partial.
Print Assumptions C116_elem_after_partial.
Print Assumptions C116_surrounding_partial.
Print Assumptions C116_large_cache_refuted.
Print Assumptions C116_large_cache_reachable_refuted.
