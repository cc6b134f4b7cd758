(** C101: connecting a Python synchronizer again. *)
From Coq Require Import List ZArith Bool Lia.
From Verif Require Import Base Py_Model PyRe_Model PySync_Spec PySync_Proofs PySync_Runs PySync_Policies PyRe_Spec PyRe_Proofs.
Import ListNotations.
Open Scope Z_scope.

Section Props.
Context {M : Type}.
Variable raises : list M -> bool.      (* which sets make a callback raise an exception *)
(** all calls of connectInput name at least one filter *)
Notation positive h := (forall k, In (Connect k) h -> (0 < k)%nat).

(** After the last call of connectInput the messages of its filters have the same results (sets
    passed on, exceptions) as if the synchronizer were new and there were no other filters; the
    former filters contribute no message to a set and their messages complete none. *)
Theorem C101_exact_only_new_inputs k0 n h1 k h2 s rs :
  (0 < k0)%nat -> positive h1 -> (0 < k)%nat -> no_connect h2 ->
  rexact raises (start k0 n) (h1 ++ Connect k :: h2) = Ok (s, rs) ->
  let g := S (connects h1) in let after := skipn (S (length h1)) rs in
  exists c, run (add_exact raises) (pysync_init (M := M) k n) (from_call g h2) = Ok (c, results g h2 after) /\
    delivered after = delivered (results g h2 after).
Proof.
  intros H0 H1 H2 H3 E. exact (reconnect raises same _ _ _ (exact_obeys raises) (exact_harmless raises) (exact_early raises) k0 n h1 k h2 s rs H0 H1 H2 H3 E).
Qed.
Theorem C101_approx_only_new_inputs slop hl k0 n h1 k h2 s rs :
  (0 < k0)%nat -> positive h1 -> (0 < k)%nat -> no_connect h2 ->
  rapprox raises slop hl (start k0 n) (h1 ++ Connect k :: h2) = Ok (s, rs) ->
  let g := S (connects h1) in let after := skipn (S (length h1)) rs in
  exists c, run (add_approx raises slop hl) (pysync_init (M := M) k n) (from_call g h2) = Ok (c, results g h2 after) /\
    delivered after = delivered (results g h2 after).
Proof.
  intros H0 H1 H2 H3 E. exact (reconnect raises (within slop) _ _ _ (approx_obeys raises slop hl) (approx_harmless raises slop hl) (approx_early raises slop hl) k0 n h1 k h2 s rs H0 H1 H2 H3 E).
Qed.

(** The former filters do not hinder the new ones: whatever the new filters alone can do without an
    exception happens also with the messages of the former filters in between - for
    TimeSynchronizer if those have stamps.  Missing: [C101_former_input_refuted]. *)
Theorem C101_exact_unhindered_partial k0 n h1 k h2 s1 r1 c rs :
  (0 < k0)%nat -> positive h1 -> (0 < k)%nat -> 0 <= n -> no_connect h2 ->
  rexact raises (start k0 n) h1 = Ok (s1, r1) -> locked (cur s1) = false ->
  proper has_stamp (calls k0 (h1 ++ [Connect k])) (S (connects h1)) h2 ->
  run (add_exact raises) (pysync_init (M := M) k n) (from_call (S (connects h1)) h2) = Ok (c, rs) ->
  Forall (fun r => snd r = false) rs ->
  exists s rs', rexact raises (start k0 n) (h1 ++ Connect k :: h2) = Ok (s, rs') /\
    results (S (connects h1)) h2 (skipn (S (length h1)) rs') = rs.
Proof.
  intros H0 H1 H2 H3 H4 E1 H5 H6 E2 H7.
  destruct (reconnect_exists raises same _ _ _ _ (exact_obeys raises) (exact_harmless raises) (exact_possible raises) k0 n h1 k h2 s1 r1 c rs) as (s & rs' & E); auto.
  exists s, rs'. split; [exact E|]. destruct (C101_exact_only_new_inputs k0 n h1 k h2 s rs' H0 H1 H2 H4 E) as (c' & E' & _). congruence.
Qed.
Theorem C101_approx_unhindered slop hl k0 n h1 k h2 s1 r1 c rs :
  (0 < k0)%nat -> positive h1 -> (0 < k)%nat -> 0 <= n -> no_connect h2 ->
  rapprox raises slop hl (start k0 n) h1 = Ok (s1, r1) -> locked (cur s1) = false ->
  proper any_header (calls k0 (h1 ++ [Connect k])) (S (connects h1)) h2 ->
  run (add_approx raises slop hl) (pysync_init (M := M) k n) (from_call (S (connects h1)) h2) = Ok (c, rs) ->
  Forall (fun r => snd r = false) rs ->
  exists s rs', rapprox raises slop hl (start k0 n) (h1 ++ Connect k :: h2) = Ok (s, rs') /\
    results (S (connects h1)) h2 (skipn (S (length h1)) rs') = rs.
Proof.
  intros H0 H1 H2 H3 H4 E1 H5 H6 E2 H7.
  destruct (reconnect_exists raises (within slop) _ _ _ _ (approx_obeys raises slop hl) (approx_harmless raises slop hl) (approx_possible raises slop hl) k0 n h1 k h2 s1 r1 c rs) as (s & rs' & E); auto.
  exists s, rs'. split; [exact E|]. destruct (C101_approx_only_new_inputs slop hl k0 n h1 k h2 s rs' H0 H1 H2 H4 E) as (c' & E' & _). congruence.
Qed.

(** The message of a former filter, at any time, passes nothing on, and raises an exception only
    because of its own header: no stamp (TimeSynchronizer), a header without stamp
    (ApproximateTimeSynchronizer, whatever allow_headerless). *)
Lemma nonempty_queues (s : resync M) k0 (h : list (rop M)) : map (@length _) (old s ++ [queues (cur s)]) = calls k0 h -> (0 < k0)%nat -> positive h -> queues (cur s) <> [].
Proof.
  intros A H0 H1 Z. rewrite Z in A. rewrite map_app in A. cbn in A.
  assert (In 0%nat (calls k0 h)) as Hin by (rewrite <- A; apply in_or_app; right; now left).
  destruct Hin as [Hin|Hin]; [lia|]. apply in_flat_map in Hin as ([|k] & Ho & Hin); [destruct Hin|]. destruct Hin as [->|[]]. apply H1 in Ho. lia.
Qed.
Theorem C101_exact_former_message k0 n h s rs g i m hd now s' out ex :
  (0 < k0)%nat -> positive h -> 0 <= n -> rexact raises (start k0 n) h = Ok (s, rs) -> g <> connects h ->
  rexact raises (start k0 n) (h ++ [On g i m hd now]) = Ok (s', rs ++ [(out, ex)]) ->
  out = [] /\ (ex = true <-> ~ has_stamp hd).
Proof.
  intros H0 H1 Hn E Hg E2. unfold rexact in *. rewrite rrun_app, E in E2. cbn [bind rrun] in E2.
  destruct (start_shape raises same _ _ _ (exact_obeys raises) (exact_harmless raises) _ _ _ _ _ H0 H1 E) as (A1 & A2 & A3 & A4).
  pose proof (nonempty_queues _ _ _ A4 H0 H1) as Hne. unfold rstep in E2. rewrite (proj2 (Nat.eqb_neq _ _)) in E2 by congruence.
  unfold exact_stale in E2. destruct (locked (cur s)) eqn:El; [discriminate|]. destruct (A1 El) as (HC & _).
  destruct (nth_error (old s) g) as [qs|]; [|discriminate]. destruct (nth_error qs i) as [q|]; [|discriminate].
  destruct hd as [| |t]; [cbn [bind] in E2; injection E2 as _ E2; apply app_inv_head in E2; injection E2 as <- <-; split; auto; split; auto; intros _ (t & X); discriminate..|].
  destruct (shorten_some (queue_size (cur s)) (put t m q)) as (q' & Eq); [now rewrite A2|]. rewrite Eq in E2.
  destruct (queues (cur s)) as [|q0 l] eqn:Eqs; [congruence|]. rewrite <- Eqs in *. rewrite exact_quiet in E2 by auto. cbn [bind] in E2.
  injection E2 as _ E2. apply app_inv_head in E2. injection E2 as <- <-. split; auto. split; [discriminate|]. intros X. elim X. now exists t.
Qed.
Theorem C101_approx_former_message slop hl k0 n h s rs g i m hd now s' out ex :
  (0 < k0)%nat -> positive h -> 0 <= n -> rapprox raises slop hl (start k0 n) h = Ok (s, rs) -> g <> connects h ->
  rapprox raises slop hl (start k0 n) (h ++ [On g i m hd now]) = Ok (s', rs ++ [(out, ex)]) ->
  out = [] /\ (ex = true <-> hd = BadStamp).
Proof.
  intros H0 H1 Hn E Hg E2. unfold rapprox in *. rewrite rrun_app, E in E2. cbn [bind rrun] in E2.
  destruct (start_shape raises (within slop) _ _ _ (approx_obeys raises slop hl) (approx_harmless raises slop hl) _ _ _ _ _ H0 H1 E) as (A1 & A2 & A3 & A4).
  pose proof (nonempty_queues _ _ _ A4 H0 H1) as Hne. unfold rstep in E2. rewrite (proj2 (Nat.eqb_neq _ _)) in E2 by congruence.
  assert (ST : forall t s1 o1 x1, approx_stale_stamped raises slop s g i m t = Ok (s1, o1, x1) -> o1 = [] /\ x1 = false).
  { intros t s1 o1 x1. unfold approx_stale_stamped. destruct (locked (cur s)) eqn:El; [discriminate|]. destruct (A1 El) as (HC & _).
    destruct (nth_error (old s) g) as [qs|]; [|discriminate]. destruct (nth_error qs i) as [q|]; [|discriminate].
    destruct (shorten_some (queue_size (cur s)) (put t m q)) as (q' & ->); [now rewrite A2|].
    destruct (existsb _ _); [now intros [= <- <- <-]|]. rewrite search_quiet by auto. now intros [= <- <- <-]. }
  unfold approx_stale in E2.
  destruct hd as [| |t]; [destruct hl|..];
    try (destruct (approx_stale_stamped raises slop s g i m _) as [[[s1 o1] x1]|] eqn:EA; [|discriminate]; destruct (ST _ _ _ _ EA) as [-> ->]);
    cbn [bind] in E2; injection E2 as _ E2; apply app_inv_head in E2; injection E2 as <- <-; split; auto; split; auto; discriminate.
Qed.
End Props.

(** a message without header of a former filter blocks a TimeSynchronizer for ever *)
Definition never : list nat -> bool := fun _ => false.
Theorem C101_former_input_refuted :
  exists s rs, rexact never (start 2 10) [On 0 0 1%nat (Stamp 5) 0; Connect 2; On 1 0 2%nat (Stamp 7) 0; On 0 1 3%nat NoHeader 0] = Ok (s, rs) /\
    (exists c, run (add_exact never) (pysync_init 2 10) [Add 0 2%nat (Stamp 7) 0; Add 1 4%nat (Stamp 7) 0] = Ok (c, [([], false); ([[2; 4]%nat], false)])) /\
    rstep (add_exact never) (fun s g i m hd _ => exact_stale never s g i m hd) s (On 1 1 4%nat (Stamp 7) 0) = Err Deadlock.
Proof. eexists _, _. split; [vm_compute; reflexivity|]. split; [eexists|]; vm_compute; reflexivity. Qed.
(** a Cache goes on adding the messages of the former filter *)
Theorem C101_cache_refuted :
  items (cache_run (pycache_init (M := nat) 10 false) [On 0 0 1%nat (Stamp 5) 0; Connect 1; On 1 0 2%nat (Stamp 6) 0; On 0 0 3%nat (Stamp 7) 0])
  = [(5, 1%nat); (6, 2%nat); (7, 3%nat)].
Proof. reflexivity. Qed.

(** Non-vacuity: two former inputs hold messages that would fit; after reconnecting to three filters the old
    filters go on with fitting stamps (one of them without header, for the approximate one) *)
Definition ph1 : list (rop nat) := [On 0 0 1%nat (Stamp 5) 0; On 0 1 2%nat (Stamp 6) 0].
Definition ph2 : list (rop nat) :=
  [On 1 0 3%nat (Stamp 5) 0; On 0 1 4%nat (Stamp 5) 0; On 1 1 5%nat (Stamp 5) 0; On 0 0 6%nat (Stamp 5) 0; On 1 2 7%nat (Stamp 5) 0; On 0 0 8%nat (Stamp 9) 0].
Example ph_exact : exists s, rexact never (start 2 10) (ph1 ++ Connect 3 :: ph2) =
  Ok (s, [([], false); ([], false); ([], false); ([], false); ([], false); ([], false); ([], false); ([[3; 5; 7]%nat], false); ([], false)]).
Proof. eexists. vm_compute. reflexivity. Qed.
Example ph_approx : exists s, rapprox never 3 false (start 2 10) (ph1 ++ Connect 3 :: ph2 ++ [On 0 1 9%nat BadStamp 0]) =
  Ok (s, [([], false); ([[1; 2]%nat], false); ([], false); ([], false); ([], false); ([], false); ([], false); ([[3; 5; 7]%nat], false); ([], false); ([], true)]).
Proof. eexists. vm_compute. reflexivity. Qed.
Example ph_hypotheses : connects ph1 = 0%nat /\ no_connect ph2 /\ proper has_stamp (calls 2 (ph1 ++ [Connect 3])) 1 ph2 /\
  from_call 1 ph2 = [Add 0 3%nat (Stamp 5) 0; Add 1 5%nat (Stamp 5) 0; Add 2 7%nat (Stamp 5) 0] /\
  exists c, run (add_exact never) (pysync_init 3 10) (from_call 1 ph2) = Ok (c, [([], false); ([], false); ([[3; 5; 7]%nat], false)]).
Proof.
  split; [reflexivity|]. split; [intros k H; cbn in H; repeat destruct H as [H|H]; try discriminate; destruct H|]. split; [|split; [reflexivity|eexists; vm_compute; reflexivity]].
  intros g i m hd now H. cbn in H. repeat destruct H as [H|H]; try (injection H as <- <- <- <- <-; eexists; split; [reflexivity|]; split; [lia|]; eexists; reflexivity). destruct H.
Qed.
Example ph_former : connects (ph1 ++ Connect 3 :: ph2) = 1%nat /\
  (exists s rs s' , rapprox never 3 true (start 2 10) (ph1 ++ Connect 3 :: ph2) = Ok (s, rs) /\
     rapprox never 3 true (start 2 10) ((ph1 ++ Connect 3 :: ph2) ++ [On 0 1 9%nat NoHeader 5]) = Ok (s', rs ++ [([], false)])) /\
  (exists s rs s' , rexact never (start 2 10) (ph1 ++ Connect 3 :: ph2) = Ok (s, rs) /\
     rexact never (start 2 10) ((ph1 ++ Connect 3 :: ph2) ++ [On 0 1 9%nat NoHeader 5]) = Ok (s', rs ++ [([], true)])).
Proof. split; [reflexivity|]. split; eexists _, _, _; split; vm_compute; reflexivity. Qed.

Print Assumptions C101_exact_only_new_inputs.
Print Assumptions C101_approx_only_new_inputs.
Print Assumptions C101_exact_unhindered_partial.
Print Assumptions C101_approx_unhindered.
Print Assumptions C101_exact_former_message.
Print Assumptions C101_approx_former_message.
Print Assumptions C101_former_input_refuted.
Print Assumptions C101_cache_refuted.
