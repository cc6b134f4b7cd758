(** Properties C03, C04, C05, C71: who works on whose message object.  [signal h e cbs] calls
    the callbacks and filters [cbs] of a filter with event [e] in heap [h] and returns the heap
    afterwards and, per user callback in calling order, the content it saw and the access it
    was given.  An access may also be used later (a callback may keep a shared_ptr): writes
    through distinct addresses never interfere. *)
From Coq Require Import List Arith Lia Bool.
From Verif Require Import Base Trace Event_Model Event_Spec Event_Proofs.
Import ListNotations.

Section Props.
Context {V T : Type}.
Notation heap := (heap V).
Notation event := (event T).
Notation node := (node V).
Notation obs := (obs V).
Notation op := (op V T).

(** C03: with several callbacks, or an event demanding copies, every callback sees the
    original content, no object existing before is changed (whatever the callbacks write), and
    the objects given for writing are new and pairwise distinct. *)
Theorem C03_isolated (cbs : list (callback V)) (h : heap) (e : event) v :
  const e = true -> nth_error h (msg e) = Some v -> 2 <= length cbs \/ need e = true ->
  exists h' os, signal h e (map (@User V) cbs) = Ok (h', os) /\ length os = length cbs /\
    (forall o, In o os -> seen o = v) /\ unchanged h h' /\ NoDup (writable (map acc os)) /\
    forall a, In a (writable (map acc os)) -> length h <= a.
Proof.
  intros Hc Hv Hcase.
  assert (HU : users (Filter (map (@User V) cbs)) = length cbs).
  { cbn [users]. clear. induction cbs as [|c l IH]; [reflexivity|]. cbn [map length]. rewrite <- IH. reflexivity. }
  assert (H : exists h' os, call_node h e (Filter (map (@User V) cbs)) = Ok (h', os) /\ Isolated v (length cbs) h h' os).
  { rewrite <- HU. destruct Hcase; [apply call_node_several; auto; lia|apply call_node_copying; auto]. }
  destruct H as (h' & os & H & [A1 A2 A3 A4 A5 A6]). exists h', os. split; [exact H|]. split; [auto|]. split; [auto|].
  split; [auto|]. split; [auto|]. intros a Ha. now apply A5 in Ha.
Qed.

(** Which callbacks get an object to write: exactly those asking for one. *)
Theorem C03_access (c : callback V) (h : heap) (e : event) v :
  const e = true -> nth_error h (msg e) = Some v ->
  exists h' o, call_callback h e c = Ok (h', o) /\ seen o = v /\
    acc o = match fm c with
            | ByValue => Private v
            | ConstRef | ConstSharedRef | ConstShared | EventConst => ReadOnly (msg e)
            | MutSharedRef | MutShared | EventMut | EventConstCopied =>
                Mutable (if need e then length h else msg e) end.
Proof.
  intros Hc Hv. destruct (need e) eqn:Hn.
  - destruct (call_callback_copying h e c v Hc Hn Hv) as (h' & o & H1 & HI & H2). exists h', o. split; auto.
    split; [apply (iso_seen _ _ _ _ _ HI); cbn; auto|]. rewrite H2. now destruct (fm c).
  - assert (Hr : read h (msg e) = Ok v) by (unfold read; now rewrite Hv).
    unfold call_callback, param. destruct (fm c); cbn [bind see put]; rewrite ?Hr; cbn [bind see put];
      try (eexists _, _; split; [reflexivity|split; reflexivity]);
      unfold copy_event, get_message; rewrite Hc; cbn; rewrite Hn; cbn; rewrite Hr; cbn;
      (eexists _, _; split; [reflexivity|split; reflexivity]).
Qed.

(** One callback and a no-copy event: the original object itself, nothing allocated. *)
Theorem C03_single_no_copy (c : callback V) (h : heap) (e : event) v :
  const e = true -> nth_error h (msg e) = Some v -> need e = false -> mutable_form (fm c) = true ->
  signal h e [User c] = Ok (write h (msg e) (writes c v), [mkObs v (Mutable (msg e))]).
Proof.
  intros Hc Hv Hn Hm. assert (Hr : read h (msg e) = Ok v) by (unfold read; now rewrite Hv).
  unfold signal. cbn. unfold call_callback, param.
  destruct (fm c); try discriminate; unfold copy_event, get_message; cbn; rewrite Hn; cbn; rewrite Hr; reflexivity.
Qed.

(** C71: the same through any network of filters passing the event on (PassThrough, Chain,
    Cache, Subscriber with callbacks): as soon as the message reaches two user callbacks,
    however they are distributed over the network, all of them are isolated. *)
Theorem C71_network_isolated (cbs : list node) (h : heap) (e : event) v :
  const e = true -> nth_error h (msg e) = Some v -> 2 <= all_users cbs \/ need e = true ->
  exists h' os, signal h e cbs = Ok (h', os) /\ length os = all_users cbs /\
    (forall o, In o os -> seen o = v) /\ unchanged h h' /\ NoDup (writable (map acc os)) /\
    forall a, In a (writable (map acc os)) -> length h <= a.
Proof.
  intros Hc Hv Hcase.
  assert (H : exists h' os, call_node h e (Filter cbs) = Ok (h', os) /\ Isolated v (all_users cbs) h h' os).
  { destruct Hcase; [apply (call_node_several (Filter cbs)); auto|apply (call_node_copying (Filter cbs)); auto]. }
  destruct H as (h' & os & H & [A1 A2 A3 A4 A5 A6]). exists h', os. split; [exact H|]. split; [auto|]. split; [auto|].
  split; [auto|]. split; [auto|]. intros a Ha. now apply A5 in Ha.
Qed.

(** C04, what holds: every event demands copies (messages added as pointers, or received by
    a Subscriber). *)
Theorem C04_sync_isolated_partial (cbs : list (callback9 V)) (h : heap) (es : list event) vs :
  (forall e, In e es -> const e = true /\ need e = true) ->
  (forall c, In c cbs -> length (fms c) = length es) ->
  Forall2 (fun e v => nth_error h (msg e) = Some v) es vs ->
  exists h' os, signal9 h es cbs = Ok (h', os) /\ length os = length cbs /\
    (forall o, In o os -> fst o = vs) /\ unchanged h h' /\ NoDup (flat_map (fun o => writable (snd o)) os) /\
    forall a, In a (flat_map (fun o => writable (snd o)) os) -> length h <= a.
Proof.
  intros He Hc HF. destruct (call9_copying (1 <? length cbs) cbs h es vs He Hc HF) as (h' & os & H & A & B & C & D & E & _).
  exists h', os. split; [exact H|]. split; [auto|]. split; [auto|]. split; [auto|]. split; [auto|].
  intros a Ha. now apply E in Ha.
Qed.

(** C05: programs over events never fail when they use created events. *)
Theorem C05_events_total (h : list op) : legal h -> exists s rs, run init h = Ok (s, rs) /\ length rs = length h.
Proof.
  intros HL. destruct (run_legal h HL) as (s & rs & Hr). exists s, rs. split; auto. now apply (run_good h s rs).
Qed.

(** getMessage of an event returns the same object each time, in any program. *)
Theorem C05_same_object (h1 h2 h3 : list op) k s rs a a' v v' :
  run init (h1 ++ Get k :: h2 ++ Get k :: h3) = Ok (s, rs) ->
  nth_error rs (length h1) = Some (Got a v) -> nth_error rs (length h1 + 1 + length h2) = Some (Got a' v') -> a' = a.
Proof.
  intros Hr Hp Hq.
  destruct (run_at h1 (Get k) (h2 ++ Get k :: h3) s rs Hr) as (s1 & r1 & s2 & r & Hr1 & Hs & Hn & r3 & Hr3 & -> & HG1 & HG2).
  rewrite Hp in Hn. injection Hn as <-.
  assert (HH : run init ((h1 ++ Get k :: h2) ++ Get k :: h3) = Ok (s, r1 ++ Got a v :: r3)) by (now rewrite <- app_assoc).
  destruct (run_at (h1 ++ Get k :: h2) (Get k) h3 s _ HH) as (t1 & q1 & t2 & q & Hq1 & Hs' & Hn' & q3 & Hq3 & _ & HGt1 & HGt2).
  rewrite app_length in Hn'. cbn [length] in Hn'. replace (length h1 + S (length h2)) with (length h1 + 1 + length h2) in Hn' by lia.
  rewrite Hq in Hn'. injection Hn' as <-.
  destruct (get_result s1 k s2 a v HG1 Hs) as (e & He & Ha & Hcp).
  (* from s2 to t1 *)
  destruct (run_at h1 (Get k) h2 t1 q1 Hq1) as (s1' & r1' & s2' & r' & Hr1' & Hs2 & _ & q4 & Hq4 & _ & _).
  rewrite Hr1 in Hr1'. injection Hr1' as <- <-. rewrite Hs in Hs2. injection Hs2 as <- _.
  destruct (run_extends h2 s2 t1 q4 HG2 Hq4) as [_ HE1].
  destruct (step_good t1 (Get k) t2 _ HGt1 Hs') as (_ & HE2 & _).
  destruct (extends_trans _ _ _ HE1 HE2 k e He) as (e' & He' & A1 & A2 & A3 & A4 & A5).
  destruct (get_result t1 k t2 a' v' HGt1 Hs') as (e2 & He2 & Ha' & _). rewrite He' in He2. injection He2 as <-.
  rewrite A1, A4, A2 in Ha'. destruct (const e || negb (need e)) eqn:Hc.
  - now subst.
  - specialize (Hcp eq_refl). rewrite (A5 a Hcp) in Ha'. exact Ha'.
Qed.

(** ... made at most once: a second getMessage changes nothing at all. *)
Theorem C05_copied_once (h : list op) k s rs s' rs' :
  run init (h ++ [Get k]) = Ok (s, rs) -> run init (h ++ [Get k; Get k]) = Ok (s', rs') -> s' = s.
Proof.
  intros Hr Hr'. change [Get k; Get k] with ([Get k] ++ [@Get V T k]) in Hr'. rewrite app_assoc, run_snoc, Hr in Hr'. cbn [bind] in Hr'.
  destruct (step s (Get k)) as [[s2 r]|] eqn:Hs'; [|discriminate]. cbn [bind] in Hr'. injection Hr' as <- _.
  rewrite run_snoc in Hr. destruct (run init h) as [[s1 r1]|] eqn:Hr1; [|discriminate]. cbn [bind] in Hr.
  destruct (run_good h s1 r1 Hr1) as [HG _].
  destruct (step s1 (Get k)) as [[s3 r3]|] eqn:Hs; [|discriminate]. cbn [bind] in Hr. injection Hr as <- _.
  assert (Hgot : exists a v, r3 = Got a v).
  { cbn [step] in Hs. destruct (nth_event s1 k) as [e0|]; [|discriminate]. cbn [bind] in Hs. destruct (get_message (mem s1) e0) as [[[h0 e1] b]|]; [|discriminate].
    cbn [bind] in Hs. destruct (read h0 b); [|discriminate]. cbn [bind] in Hs. injection Hs as _ <-. eauto. }
  destruct Hgot as (a & v & ->). destruct (get_result s1 k s3 a v HG Hs) as (e & He & Ha & Hcp).
  cbn [step] in Hs'. unfold nth_event in Hs'. rewrite He in Hs'. cbn [bind] in Hs'. unfold get_message in Hs'.
  assert (Hid : upd k e (evs s3) = evs s3).
  { apply list_eq_nth with (d := e); [apply upd_length|]. intros j Hj. rewrite upd_length in Hj. destruct (Nat.eq_dec k j) as [->|].
    - rewrite nth_upd_eq by auto. symmetry. now apply nth_error_nth.
    - now rewrite nth_upd_neq. }
  destruct (const e || negb (need e)).
  - cbn [bind] in Hs'. destruct (read (mem s3) (msg e)); [|discriminate]. cbn [bind] in Hs'. rewrite Hid in Hs'. injection Hs' as <- _. now destruct s3.
  - rewrite (Hcp eq_refl) in Hs'. cbn [bind] in Hs'. destruct (read (mem s3) a); [|discriminate]. cbn [bind] in Hs'. rewrite Hid in Hs'.
    injection Hs' as <- _. now destruct s3.
Qed.

(** MessageEvent<M const>, and MessageEvent<M> not demanding copies, return the message
    itself; a MessageEvent<M> demanding copies returns another object, of no other event. *)
Theorem C05_original_or_private (h : list op) k i s rs s' a v c w s'' :
  run init h = Ok (s, rs) -> nth_error (infos h) k = Some i ->
  step s (Get k) = Ok (s', Got a v) -> step s' (GetConst k) = Ok (s'', Got c w) ->
  if is_const i || negb (copies i) then a = c
  else a <> c /\ forall k' e, k' <> k -> nth_error (evs s') k' = Some e -> copied e <> Some a.
Proof.
  intros Hr Hi Hs Hs'. destruct (run_good h s rs Hr) as [HG _]. pose proof (run_expected h s rs Hr) as HE.
  destruct (get_result s k s' a v HG Hs) as (e & He & Ha & Hcp). destruct (step_good s (Get k) s' _ HG Hs) as (HG' & _).
  pose proof (step_expected h s (Get k) s' _ HG HE Hs) as [E1 E2]. rewrite infos_snoc in E2. cbn [describe] in E2.
  destruct (E2 k e i He Hi) as (A1 & _ & A3). cbn [step] in Hs'. unfold nth_event in Hs'. rewrite He in Hs'. cbn [bind] in Hs'.
  destruct (read (mem s') (msg e)); [|discriminate]. cbn [bind] in Hs'. injection Hs' as _ <- _.
  rewrite <- A1, <- A3. destruct (const e || negb (need e)); [auto|]. specialize (Hcp eq_refl). split.
  - apply (g_copied _ HG' k e a He Hcp).
  - intros k' e' Hne He' Hc'. apply Hne. eapply (g_distinct _ HG'); eauto.
Qed.

(** Receipt time and copy flag of every event are those given or inherited. *)
Theorem C05_metadata (h : list op) s rs :
  run init h = Ok (s, rs) ->
  length (evs s) = length (infos h) /\
  forall k e i, nth_error (evs s) k = Some e -> nth_error (infos h) k = Some i ->
    const e = is_const i /\ receipt e = received_at i /\ need e = copies i.
Proof. intros Hr. destruct (run_expected h s rs Hr) as [H1 H2]. auto. Qed.

(** Contents: when only MessageEvent<M const> are copied and every MessageEvent<M> demands
    copies, the message of an event always is the original content, and getMessage of a
    MessageEvent<M> yields what was last written through this very event, or the original. *)
Theorem C05_private_contents_partial (h1 h2 : list op) k i s rs a v :
  const_sources (h1 ++ Get k :: h2) -> all_copying (h1 ++ Get k :: h2) ->
  run init (h1 ++ Get k :: h2) = Ok (s, rs) -> nth_error rs (length h1) = Some (Got a v) ->
  nth_error (infos h1) k = Some i ->
  v = if is_const i then original i else match written h1 k with Some w => w | None => original i end.
Proof.
  intros HCS HAC Hr Hp Hi.
  destruct (run_at h1 (Get k) h2 s rs Hr) as (s1 & r1 & s2 & r & Hr1 & Hs & Hn & r3 & Hr3 & -> & HG1 & HG2).
  rewrite Hp in Hn. injection Hn as <-.
  assert (HCS1 : const_sources (h1 ++ [Get k]) /\ all_copying (h1 ++ [Get k])).
  { clear - HCS HAC. change (h1 ++ Get k :: h2) with (h1 ++ [Get k] ++ h2) in *. rewrite app_assoc in HCS, HAC.
    revert HCS HAC. generalize (h1 ++ [Get k]) as l. intros l. induction h2 as [|o h IH] using rev_ind.
    - rewrite app_nil_r. auto.
    - rewrite app_assoc. intros H1 H2. apply IH; eauto using const_sources_prefix, all_copying_prefix. }
  destruct HCS1 as [HCS1 HAC1].
  assert (Hr2 : run init (h1 ++ [Get k]) = Ok (s2, r1 ++ [Got a v])) by (rewrite run_snoc, Hr1; cbn [bind]; rewrite Hs; reflexivity).
  destruct (run_values _ _ _ HCS1 HAC1 Hr2) as [V1 V2 _ _]. destruct (run_expected _ _ _ Hr2) as [E1 E2].
  rewrite infos_snoc in V1, V2, E2. cbn [describe] in V1, V2, E2.
  destruct (get_result s1 k s2 a v HG1 Hs) as (e & He & Ha & Hcp). destruct (E2 k e i He Hi) as (A1 & _ & A3).
  specialize (V1 k e i He Hi). specialize (V2 k e i He Hi). rewrite written_snoc in V2.
  assert (Hv : nth_error (mem s2) a = Some v).
  { cbn [step] in Hs. destruct (nth_event s1 k) as [e0|]; [|discriminate]. cbn [bind] in Hs. destruct (get_message (mem s1) e0) as [[[h0 e1] b]|]; [|discriminate].
    cbn [bind] in Hs. unfold read in Hs. destruct (nth_error h0 b) eqn:E; [|discriminate]. cbn [bind] in Hs. injection Hs as E4 E5 E6. rewrite <- E4. cbn [mem]. congruence. }
  destruct (is_const i) eqn:Hic.
  - rewrite A1 in Ha. cbn [orb] in Ha. subst a. congruence.
  - assert (Hn : copies i = true) by (apply (HAC1 k i); [now rewrite infos_snoc|exact Hic]).
    rewrite A1, A3, Hn in Hcp. cbn in Hcp. rewrite (Hcp eq_refl) in V2. congruence.
Qed.

(** ... and getConstMessage always is the original content. *)
Theorem C05_original_kept_partial (h : list op) k i s rs s' a v :
  const_sources h -> all_copying h -> run init h = Ok (s, rs) -> nth_error (infos h) k = Some i ->
  step s (GetConst k) = Ok (s', Got a v) -> v = original i.
Proof.
  intros HCS HAC Hr Hi Hs. destruct (run_values _ _ _ HCS HAC Hr) as [V1 _ _ _].
  cbn [step] in Hs. unfold nth_event in Hs. destruct (nth_error (evs s) k) as [e|] eqn:He; [|discriminate]. cbn [bind] in Hs.
  unfold read in Hs. rewrite (V1 k e i He Hi) in Hs. cbn in Hs. now injection Hs as _ _ <-.
Qed.
End Props.

(** C04 is false: signal9.hpp ignores the copies it prepares.  Two callbacks taking non-const
    pointers, events added with nonconst_need_copy = false: the second sees what the first
    wrote. *)
Definition two_mutable : list (callback9 nat) :=
  [mkCallback9 [MutShared; MutShared] (fun k v => v + 100); mkCallback9 [ConstShared; ConstShared] (fun k v => v)].
Theorem C04_sync_isolated_refuted :
  ~ (forall (cbs : list (callback9 nat)) (h : heap nat) (es : list (event nat)) vs,
       2 <= length cbs -> (forall e, In e es -> const e = true) -> (forall c, In c cbs -> length (fms c) = length es) ->
       Forall2 (fun e v => nth_error h (msg e) = Some v) es vs ->
       exists h' os, signal9 h es cbs = Ok (h', os) /\ forall o, In o os -> fst o = vs).
Proof.
  intros H. destruct (H two_mutable [1; 2] [mkEvent true 0 None 0 false; mkEvent true 1 None 0 false] [1; 2]) as (h' & os & Hr & Hs).
  - cbn. lia.
  - intros e [<-|[<-|[]]]; reflexivity.
  - intros c [<-|[<-|[]]]; reflexivity.
  - repeat constructor.
  - cbn in Hr. injection Hr as <- <-. specialize (Hs ([101; 102], [ReadOnly 0; ReadOnly 1])). cbn in Hs.
    specialize (Hs (or_intror (or_introl eq_refl))). discriminate.
Qed.

(** C05, the last part is false for copies of a MessageEvent<M>: the copy's message is the
    source's private copy, so writing through the source shows in the copy. *)
Theorem C05_copies_never_shared_refuted :
  ~ (forall (h1 h2 : list (op nat nat)) k i s rs a v,
       all_copying (h1 ++ Get k :: h2) -> run init (h1 ++ Get k :: h2) = Ok (s, rs) ->
       nth_error rs (length h1) = Some (Got a v) -> nth_error (infos h1) k = Some i ->
       v = if is_const i then original i else match written h1 k with Some w => w | None => original i end).
Proof.
  intros H.
  assert (HA : all_copying ([New false 7 0 true; Copy 0 false; Write 0 9] ++ [Get 1])).
  { intros [|[|[|k]]] i Hi; cbn in Hi; try discriminate; injection Hi as <-; reflexivity. }
  specialize (H [New false 7 0 true; Copy 0 false; Write 0 9] [] 1 (mkInfo false 7 0 true) _ _ 2 9 HA eq_refl eq_refl eq_refl).
  discriminate.
Qed.

(** ** The hypotheses are met *)
(** Three callbacks, two of them writing, on a no-copy event: each sees 5. *)
Example C03_example :
  signal [5] (mkEvent true 0 None 11 false)
    [User (mkCallback MutShared (fun v => v + 1)); User (mkCallback ConstRef (fun v => v)); User (mkCallback EventMut (fun v => v * 10))]
  = Ok ([5; 6; 50], [mkObs 5 (Mutable 1); mkObs 5 (ReadOnly 0); mkObs 5 (Mutable 2)]).
Proof. reflexivity. Qed.
(** A pass-through filter with one callback beside two direct callbacks. *)
Example C71_example :
  signal [5] (mkEvent true 0 None 11 false)
    [Filter [User (mkCallback MutShared (fun v => v + 1))]; Filter [Filter [User (mkCallback MutShared (fun v => v * 10)); User (mkCallback ByValue (fun v => v))]]]
  = Ok ([5; 6; 50], [mkObs 5 (Mutable 1); mkObs 5 (Mutable 2); mkObs 5 (Private 5)]).
Proof. reflexivity. Qed.
Example C71_hyp : 2 <= all_users [Filter [User (mkCallback MutShared (fun v : nat => v + 1))];
   Filter [Filter [User (mkCallback MutShared (fun v => v * 10)); User (mkCallback ByValue (fun v => v))]]].
Proof. cbn. lia. Qed.
Example C04_example :
  signal9 [1; 2] [mkEvent true 0 None 0 true; mkEvent true 1 None 0 true] two_mutable
  = Ok ([1; 2; 101; 102], [([1; 2], [Mutable 2; Mutable 3]); ([1; 2], [ReadOnly 0; ReadOnly 1])]).
Proof. reflexivity. Qed.
(** A const event copied twice, both copies written, then read. *)
Definition events_program : list (op nat nat) :=
  [New true 7 3 true; Copy 0 false; CopyWith 0 false true; Write 1 8; Write 2 9; Get 1; Get 2; Get 1; GetConst 1; Get 0].
Example C05_example : exists s, run init events_program =
  Ok (s, [Created 0; Created 1; Created 2; Wrote; Wrote; Got 1 8; Got 2 9; Got 1 8; Got 0 7; Got 0 7]).
Proof. eexists. reflexivity. Qed.
Lemma split_list {A} (l h1 : list A) o h2 : l = h1 ++ o :: h2 -> exists p, nth_error l p = Some o /\ h1 = firstn p l.
Proof.
  intros ->. exists (length h1). rewrite nth_error_app2, Nat.sub_diag by lia. split; auto.
  rewrite firstn_app, Nat.sub_diag, firstn_all. cbn. now rewrite app_nil_r.
Qed.
Example C05_hyps : legal events_program /\ const_sources events_program /\ all_copying events_program.
Proof.
  split; [|split].
  - intros h1 o h2 E. destruct (split_list _ _ _ _ E) as (p & Hp & ->).
    do 10 (destruct p as [|p]; [injection Hp as <-; cbn; solve [lia|auto|eexists; split; reflexivity]|]). destruct p; discriminate.
  - intros h1 h2 k c o i E Ho Hi. destruct (split_list _ _ _ _ E) as (p & Hp & ->).
    do 10 (destruct p as [|p]; [injection Hp as <-; destruct Ho as [Ho|[nc Ho]]; try discriminate; injection Ho as <-; subst; cbn in Hi; injection Hi as <-; reflexivity|]).
    destruct p; discriminate.
  - intros [|[|[|[|k]]]] i Hi Hc; cbn in Hi; try discriminate; injection Hi as <-; try discriminate; reflexivity.
Qed.

Print Assumptions C03_isolated.
Print Assumptions C03_access.
Print Assumptions C03_single_no_copy.
Print Assumptions C71_network_isolated.
Print Assumptions C04_sync_isolated_partial.
Print Assumptions C04_sync_isolated_refuted.
Print Assumptions C05_events_total.
Print Assumptions C05_same_object.
Print Assumptions C05_copied_once.
Print Assumptions C05_original_or_private.
Print Assumptions C05_metadata.
Print Assumptions C05_private_contents_partial.
Print Assumptions C05_original_kept_partial.
Print Assumptions C05_copies_never_shared_refuted.
