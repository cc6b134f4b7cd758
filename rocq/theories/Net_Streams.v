(** Streams of messages over whole programs. *)
From Coq Require Import List Arith Lia Bool.
From Verif Require Import Base Net_Model Net_Spec Net_Flow Net_Wiring Net_Proofs Net_Chain.
Import ListNotations.

Section Streams.
Context {S M U : Type}.
Notation target := (target U).
Notation node := (node S M U).
Notation state := (state S M U).
Notation obs := (obs M U).
Notation op := (op S M U).
Notation class := (class S M).

(** ** one operation *)
Definition starts (hit : target -> bool) (o : op) : bool :=
  match o with Add n i _ => hit (ToInput n i) | Emit n _ => hit (ToOutput n) | _ => false end.

Lemma step_trace fuel (s s' : state) o r tr : step fuel s o = Ok (s', r, tr) ->
  (exists n i m, o = Add n i m /\ del s [] (ToInput n i) m s' tr) \/ (exists n m, o = Emit n m /\ em s [] n m s' tr) \/ tr = [].
Proof.
  destruct o as [c s0|n fs|c f s0|c i|n u|n k|n i m|n m|n]; cbn [step]; intros H.
  - injection H as <- <- <-. auto.
  - destruct (user s n); [|discriminate]. cbn [bind] in H. destruct (all_users s fs); [|discriminate]. cbn [bind] in H.
    destruct (connect_input s n fs); [|discriminate]. cbn [bind] in H. injection H as <- <- <-. auto.
  - destruct (user s c); [|discriminate]. cbn [bind] in H. destruct (user s f); [|discriminate]. cbn [bind] in H.
    destruct (add_filter s c f s0) as [[? ?]|]; [|discriminate]. cbn [bind] in H. injection H as <- <- <-. auto.
  - destruct (user s c) as [x|]; [|discriminate]. cbn [bind] in H. destruct (cls x); try discriminate. injection H as <- <- <-. auto.
  - destruct (user s n); [|discriminate]. cbn [bind] in H. destruct (register s n (ToUser u)) as [[? ?]|]; [|discriminate]. cbn [bind] in H.
    injection H as <- <- <-. auto.
  - destruct (user s n) as [x|]; [|discriminate]. cbn [bind] in H. destruct (forallb _ (cbs x)); [|discriminate].
    destruct (disconnect s (Some (n, k))); [|discriminate]. cbn [bind] in H. injection H as <- <- <-. auto.
  - destruct (user s n) as [x|]; [|discriminate]. cbn [bind] in H. destruct (i <? arity (cls x)); [|discriminate].
    destruct (deliver fuel s [] (ToInput n i) m) as [[? ?]|] eqn:Hd; [|discriminate]. cbn [bind] in H. injection H as <- <- <-.
    left. exists n, i, m. split; auto. eapply deliver_sound; eauto.
  - destruct (user s n) as [x|]; [|discriminate]. cbn [bind] in H. destruct (emits (cls x)); [|discriminate].
    destruct (emit (deliver fuel) s [] n m) as [[? ?]|] eqn:Hd; [|discriminate]. cbn [bind] in H. injection H as <- <- <-.
    right. left. exists n, m. split; auto. eapply emit_sound; eauto using deliver_sound.
  - destruct (user s n) as [x|]; [|discriminate]. cbn [bind] in H.
    destruct (if detaches (cls x) then disconnect_all s (ins x) else Ok s) as [s1|]; [|discriminate]. cbn [bind] in H.
    destruct (live s1 n); [|discriminate]. cbn [bind] in H. injection H as <- <- <-. auto.
Qed.

Lemma step_fed hit f fuel (s s' : state) o r tr :
  step fuel s o = Ok (s', r, tr) -> fed hit f s -> starts hit o = false -> acts hit tr = outputs f tr.
Proof.
  intros H HF Hs. destruct (step_trace _ _ _ _ _ _ H) as [(n & i & m & -> & Hd)|[(n & m & -> & Hd)| ->]]; [| |reflexivity]; cbn in Hs.
  - rewrite (proj1 (flow_fed hit f) _ _ _ _ _ _ Hd HF), Hs. reflexivity.
  - rewrite (proj1 (proj2 (flow_fed hit f)) _ _ _ _ _ _ Hd HF), Hs. reflexivity.
Qed.
Lemma step_heads c f fuel (s s' : state) o r tr : c <> f ->
  step fuel s o = Ok (s', r, tr) -> heads c f s -> starts (is_input f 0) o = false -> inputs f 0 tr = received_msgs c tr.
Proof.
  intros Hne H HF Hs. destruct (step_trace _ _ _ _ _ _ H) as [(n & i & m & -> & Hd)|[(n & m & -> & Hd)| ->]]; [| |reflexivity]; cbn in Hs.
  - rewrite (proj1 (flow_heads c f Hne) _ _ _ _ _ _ Hd HF). cbn [is_input]. now rewrite Hs.
  - apply (proj1 (proj2 (flow_heads c f Hne)) _ _ _ _ _ _ Hd HF).
Qed.
(** states of filters are kept by the operations that change the wiring *)
Lemma st_upd (s : state) g x y n : nth_error s g = Some x -> st y = st x -> state_of n (upd g y s) = state_of n s.
Proof.
  intros H E. unfold state_of. rewrite (nth_upd_case _ _ _ _ _ H). destruct (Nat.eqb_spec n g) as [->|]; [|reflexivity]. rewrite H. cbn. now rewrite E.
Qed.
Lemma st_register (s s' : state) f t k n : register s f t = Ok (s', k) -> state_of n s' = state_of n s.
Proof.
  unfold register. destruct (live s f) as [x|] eqn:Hl; [|discriminate]. cbn. intros H. injection H as <- <-. apply live_nth in Hl as [Hl _].
  now apply st_upd with x.
Qed.
Lemma st_disconnect (s s' : state) c n : disconnect s c = Ok s' -> state_of n s' = state_of n s.
Proof.
  destruct c as [[f k]|]; cbn; [|now intros H; injection H as <-]. destruct (live s f) as [x|] eqn:Hl; [|discriminate]. cbn. intros H. injection H as <-.
  apply live_nth in Hl as [Hl _]. now apply st_upd with x.
Qed.
Lemma st_disconnect_all l n : forall s s' : state, disconnect_all s l = Ok s' -> state_of n s' = state_of n s.
Proof.
  induction l as [|c l IH]; cbn [disconnect_all]; intros s s' H; [now injection H as <-|].
  destruct (disconnect s c) as [s1|] eqn:Hd; [|discriminate]. cbn [bind] in H. rewrite (IH _ _ H). eapply st_disconnect; eauto.
Qed.
Lemma st_connect_slots n fs m : forall i (s s' : state), connect_slots s n i fs = Ok s' -> state_of m s' = state_of m s.
Proof.
  induction fs as [|f fs IH]; cbn [connect_slots]; intros i s s' H; [now injection H as <-|].
  destruct (register s f (ToInput n i)) as [[s1 k]|] eqn:Hr; [|discriminate]. cbn [bind] in H.
  destruct (live s1 n) as [x|] eqn:Hl; [|discriminate]. cbn [bind] in H. apply live_nth in Hl as [Hl _].
  rewrite (IH _ _ _ H). erewrite st_upd by (eauto; reflexivity). eapply st_register; eauto.
Qed.
Lemma st_connect_input (s s' : state) n fs m : connect_input s n fs = Ok s' -> state_of m s' = state_of m s.
Proof.
  unfold connect_input. destruct (live s n) as [x|]; [|discriminate]. cbn [bind]. destruct (arity (cls x) <? length fs); [discriminate|].
  assert (Hm : (do s1 <- (if replaces (cls x) then disconnect_all s (ins x) else Ok s); connect_slots s1 n 0 fs) = Ok s' -> state_of m s' = state_of m s).
  { destruct (if replaces (cls x) then disconnect_all s (ins x) else Ok s) as [s1|] eqn:Hd; [|discriminate]. cbn [bind]. intros H.
    rewrite (st_connect_slots _ _ _ _ _ _ H). destruct (replaces (cls x)); [eapply st_disconnect_all; eauto|now injection Hd as <-]. }
  destruct (cls x); auto. intros H. now injection H as <-.
Qed.
Lemma st_kill_all l n : forall s : state, state_of n (kill_all s l) = state_of n s.
Proof.
  induction l as [|a l IH]; cbn [kill_all]; intros s; auto. rewrite IH. destruct (nth_error s a) as [x|] eqn:E; auto. now apply st_upd with x.
Qed.
Lemma st_grow (s : state) x n : n < length s -> state_of n (s ++ [x]) = state_of n s.
Proof. intros H. unfold state_of. now rewrite nth_error_app1. Qed.

Lemma st_step fuel (s s' : state) o r tr n : n < length s -> step fuel s o = Ok (s', r, tr) ->
  (forall n' i m, o <> Add n' i m) -> (forall n' m, o <> Emit n' m) -> state_of n s' = state_of n s.
Proof.
  intros Hn H HA HE. destruct o as [c s0|n' fs|c f s0|c i|n' u|n' k|n' i m|n' m|n']; cbn [step] in H.
  - injection H as <- <- <-. now apply st_grow.
  - destruct (user s n'); [|discriminate]. cbn [bind] in H. destruct (all_users s fs); [|discriminate]. cbn [bind] in H.
    destruct (connect_input s n' fs) eqn:Hc; [|discriminate]. cbn [bind] in H. injection H as <- <- <-. eapply st_connect_input; eauto.
  - destruct (user s c); [|discriminate]. cbn [bind] in H. destruct (user s f); [|discriminate]. cbn [bind] in H.
    destruct (add_filter s c f s0) as [[s1 r1]|] eqn:Ha; [|discriminate]. cbn [bind] in H. injection H as <- <- <-.
    unfold add_filter in Ha. destruct (live s c) as [xc|]; [|discriminate]. cbn [bind] in Ha. destruct (cls xc); try discriminate.
    destruct (live s f); [|discriminate]. cbn [bind] in Ha.
    destruct (disconnect (s ++ [fresh PassThrough s0 true]) (last xc)) as [s2|] eqn:E2; [|discriminate]. cbn [bind] in Ha.
    destruct (connect_input s2 (length s) [f]) as [s3|] eqn:E3; [|discriminate]. cbn [bind] in Ha.
    destruct (register s3 (length s) (ToOutput c)) as [[s4 k4]|] eqn:E4; [|discriminate]. cbn [bind] in Ha.
    destruct (live s4 c) as [x4|] eqn:E5; [|discriminate]. cbn [bind] in Ha.
    destruct (match rev (filters xc) with [] => _ | (_, q) :: _ => _ end) as [s6|] eqn:E6; [|discriminate]. cbn [bind] in Ha.
    destruct (live s6 c) as [x6|] eqn:E7; [|discriminate]. cbn [bind] in Ha. injection Ha as <- <-.
    apply live_nth in E5 as [E5 _], E7 as [E7 _]. erewrite st_upd by (eauto; reflexivity).
    assert (E56 : state_of n s6 = state_of n (upd c (set_chain x4 (filters x4) (Some (length s, k4))) s4)).
    { destruct (rev (filters xc)) as [|[b1 q] fl]; [now injection E6 as <-|]. eapply st_connect_input; eauto. }
    rewrite E56. erewrite st_upd by (eauto; reflexivity).
    rewrite (st_register _ _ _ _ _ _ E4), (st_connect_input _ _ _ _ _ E3), (st_disconnect _ _ _ _ E2). now apply st_grow.
  - destruct (user s c) as [x|]; [|discriminate]. cbn [bind] in H. destruct (cls x); try discriminate. now injection H as <- <- <-.
  - destruct (user s n'); [|discriminate]. cbn [bind] in H. destruct (register s n' (ToUser u)) as [[? ?]|] eqn:Hr; [|discriminate]. cbn [bind] in H.
    injection H as <- <- <-. eapply st_register; eauto.
  - destruct (user s n') as [x|]; [|discriminate]. cbn [bind] in H. destruct (forallb _ (cbs x)); [|discriminate].
    destruct (disconnect s (Some (n', k))) eqn:Hd; [|discriminate]. cbn [bind] in H. injection H as <- <- <-. eapply st_disconnect; eauto.
  - exfalso. eapply HA; eauto.
  - exfalso. eapply HE; eauto.
  - destruct (user s n') as [x|]; [|discriminate]. cbn [bind] in H.
    destruct (if detaches (cls x) then disconnect_all s (ins x) else Ok s) as [s1|] eqn:Hd; [|discriminate]. cbn [bind] in H.
    destruct (live s1 n') as [x1|]; [|discriminate]. cbn [bind] in H. injection H as <- <- <-.
    etransitivity; [apply (st_kill_all (n' :: map snd (filters x1)))|].
    destruct (detaches (cls x)); [eapply st_disconnect_all; eauto|now injection Hd as <-].
Qed.

Lemma step_comp n c fuel (s s' : state) o r tr : c <> Chain ->
  step fuel s o = Ok (s', r, tr) -> no_outputs_but_chains s -> clsof s n = Some c -> drives n o = false ->
  comp c (state_of n s) (received n tr) (outputs n tr) (state_of n s').
Proof.
  intros Hne H HN Hc Hdr.
  assert (Hx : exists x, nth_error s n = Some x /\ cls x = c).
  { unfold clsof in Hc. destruct (nth_error s n); [|discriminate]. cbn in Hc. injection Hc as Hc. eauto. }
  assert (Hq : tr = [] -> (forall n' i m, o <> Add n' i m) -> (forall n' m, o <> Emit n' m) -> comp c (state_of n s) (received n tr) (outputs n tr) (state_of n s')).
  { intros -> HA HE. cbn [received outputs flat_map]. rewrite (st_step fuel s s' o r [] n); auto; [|eapply clsof_lt; eauto].
    apply comp_nil. unfold state_of. destruct Hx as (x & -> & _). discriminate. }
  destruct (step_trace _ _ _ _ _ _ H) as [(n' & i & m & -> & Hd)|[(n' & m & -> & Hd)|E]].
  - apply (proj1 (flow_comp n c Hne) _ _ _ _ _ _ Hd); [auto|discriminate].
  - destruct (proj1 (proj2 (flow_comp n c Hne)) _ _ _ _ _ _ Hd (conj HN Hx)) as [A _]. cbn in Hdr. now rewrite Hdr in A.
  - apply Hq; auto.
    + intros n' i m ->. subst tr. cbn [step] in H. destruct (user s n') as [x|]; [|discriminate]. cbn [bind] in H.
      destruct (i <? arity (cls x)); [|discriminate]. destruct (deliver fuel s [] (ToInput n' i) m) as [[s1 t1]|] eqn:Hd; [|discriminate].
      cbn [bind] in H. injection H as <- <- ->. apply deliver_sound in Hd. inversion Hd.
    + intros n' m ->. subst tr. cbn [step] in H. destruct (user s n') as [x|]; [|discriminate]. cbn [bind] in H.
      destruct (emits (cls x)); [|discriminate]. destruct (emit (deliver fuel) s [] n' m) as [[s1 t1]|] eqn:Hd; [|discriminate].
      cbn [bind] in H. injection H as <- <- ->. apply (emit_sound (deliver fuel) (deliver_sound fuel)) in Hd. inversion Hd.
Qed.

(** ** from callbacks to [fed] *)
Lemma count_zero hit (l : list (nat * target)) : (forall k t, In (k, t) l -> hit t = false) -> count hit l = 0.
Proof.
  unfold count. induction l as [|[k t] l IH]; cbn; auto. intros H. rewrite (H k t) by auto. apply IH. intros; eapply H; eauto.
Qed.
Lemma count_one hit (l : list (nat * target)) k0 t0 : NoDup (map fst l) -> In (k0, t0) l -> hit t0 = true ->
  (forall k t, In (k, t) l -> hit t = true -> k = k0) -> count hit l = 1.
Proof.
  induction l as [|[k t] l IH]; cbn [map fst]; intros HN Hin Hh Hu; [destruct Hin|]. inversion HN as [|? ? Hni HN']; subst.
  unfold count. cbn [filter snd]. destruct (hit t) eqn:Ht.
  - assert (k = k0) as -> by (apply (Hu k t); cbn; auto). cbn [length]. f_equal. change (count hit l = 0). apply count_zero.
    intros k t1 Hi. destruct (hit t1) eqn:E; auto. exfalso. assert (k = k0) as -> by (apply (Hu k t1); cbn; auto).
    apply Hni. now apply (in_map fst) in Hi.
  - change (count hit l = 1). apply IH; auto.
    + destruct Hin as [E|Hin]; auto. injection E as -> ->. congruence.
    + intros k1 t1 Hi. apply Hu. cbn. auto.
Qed.

Lemma live_of (s : state) n : aliveof s n = true -> exists x, live s n = Ok x.
Proof. unfold aliveof, live. destruct (nth_error s n) as [x|]; [|discriminate]. intros ->. eauto. Qed.

Lemma fed_intro h (s : state) hit f :
  Inv h s ->
  (forall g k t, occ s g k t -> hit t = true -> g = f) ->
  (forall k k' t t', occ s f k t -> occ s f k' t' -> hit t = true -> hit t' = true -> k = k') ->
  (aliveof s f = true -> exists k t, occ s f k t /\ hit t = true) ->
  (forall c a p fl, filtersof s c = (a, p) :: fl -> hit (ToInput a 0) = false) ->
  (forall n, aliveof s n = true -> hit (ToOutput n) = true -> clsof s n = Some Chain /\ n <> f) ->
  fed hit f s.
Proof.
  intros HI H1 H2 H3 H4 H5. split.
  - intros g x Hl. destruct (live_view _ _ _ Hl) as (_ & _ & Ha & _ & _ & _ & _ & Vc). rewrite <- Vc. destruct (Nat.eqb_spec g f) as [->|Hne].
    + destruct (H3 Ha) as (k & t & Ho & Ht). apply (count_one hit _ k t); auto; [apply (i_nodup _ _ HI)|].
      intros k' t' Hi Ht'. eapply H2; eauto.
    + apply count_zero. intros k t Hi. destruct (hit t) eqn:E; auto. exfalso. apply Hne. eapply H1; eauto.
  - intros c x a p fl Hl _ Hf. destruct (live_view _ _ _ Hl) as (_ & _ & _ & _ & _ & Vf & _). apply (H4 c a p fl). congruence.
  - intros n x Hl Hh. destruct (live_view _ _ _ Hl) as (_ & Vc & Va & _). destruct (H5 n Va Hh) as [E Hn]. split; auto. congruence.
Qed.
(** not fed by anybody *)
Lemma unfed_intro h (s : state) hit :
  Inv h s ->
  (forall g k t, occ s g k t -> hit t = false) ->
  (forall c a p fl, filtersof s c = (a, p) :: fl -> hit (ToInput a 0) = false) ->
  (forall n, aliveof s n = true -> hit (ToOutput n) = false) ->
  fed hit (length s) s.
Proof.
  intros HI H1 H2 H3. apply (fed_intro h); auto.
  - intros g k t Ho Ht. rewrite (H1 _ _ _ Ho) in Ht. discriminate.
  - intros k k' t t' Ho _ Ht. rewrite (H1 _ _ _ Ho) in Ht. discriminate.
  - intros Ha. apply aliveof_lt in Ha. lia.
  - intros n Ha Ht. rewrite (H3 n Ha) in Ht. discriminate.
Qed.
Lemma outputs_live n :
  (forall (s : state) L t m s' tr, del s L t m s' tr -> aliveof s n = false -> outputs n tr = []) /\
  (forall (s : state) L g m s' tr, em s L g m s' tr -> aliveof s n = false -> outputs n tr = []) /\
  (forall (s : state) L g ms s' tr, ems s L g ms s' tr -> aliveof s n = false -> outputs n tr = []) /\
  (forall (s : state) L l m s' tr, cal s L l m s' tr -> aliveof s n = false -> outputs n tr = []).
Proof.
  assert (HW : forall s s' : state, same_wiring s s' -> aliveof s n = false -> aliveof s' n = false).
  { intros s s' Hw. destruct (views_wiring _ _ Hw) as (_ & _ & _ & _ & _ & _ & _ & -> & _). auto. }
  apply flow_mut; intros; try reflexivity; auto.
  - cbn [outputs flat_map]. apply H. eapply HW; [|exact H0]. apply set_st_wire. now apply live_nth in e.
  - cbn [outputs flat_map]. destruct (live_view _ _ _ e) as (_ & _ & Ha & _). destruct (Nat.eqb_spec n0 n) as [->|]; [congruence|]. apply H; auto.
  - rewrite outputs_app, H, H0; auto. eapply HW; [|exact H1]. eapply (proj1 (proj2 flow_wiring)); eauto.
  - rewrite outputs_app, H, H0; auto. eapply HW; [|exact H1]. eapply (proj1 flow_wiring); eauto.
Qed.
Lemma step_outputs_dead fuel (s s' : state) o r tr n : step fuel s o = Ok (s', r, tr) -> aliveof s n = false -> outputs n tr = [].
Proof.
  intros H Hn. destruct (step_trace _ _ _ _ _ _ H) as [(n' & i & m & -> & Hd)|[(n' & m & -> & Hd)| ->]]; [| |reflexivity].
  - eapply (proj1 (outputs_live n)); eauto.
  - eapply (proj1 (proj2 (outputs_live n))); eauto.
Qed.
Lemma step_unfed h hit fuel (s s' : state) o r tr : Inv h s ->
  (forall g k t, occ s g k t -> hit t = false) ->
  (forall c a p fl, filtersof s c = (a, p) :: fl -> hit (ToInput a 0) = false) ->
  (forall n, aliveof s n = true -> hit (ToOutput n) = false) ->
  step fuel s o = Ok (s', r, tr) -> starts hit o = false -> acts hit tr = [].
Proof.
  intros HI H1 H2 H3 H Hs. rewrite (step_fed hit (length s) fuel s s' o r tr H (unfed_intro h s hit HI H1 H2 H3) Hs).
  eapply step_outputs_dead; eauto. destruct (aliveof s (length s)) eqn:E; auto. apply aliveof_lt in E. lia.
Qed.

(** ** whole programs *)
(** [at_ops fuel s h P]: [P] holds of every operation of the execution of [h] from [s] *)
Lemma run_streams {X} (A B : list obs -> list X) fuel h2 : forall h1 (s0 s1 s2 : state) rs1 rs2,
  (forall a b, A (a ++ b) = A a ++ A b) -> (forall a b, B (a ++ b) = B a ++ B b) -> A [] = B [] ->
  run fuel s0 h1 = Ok (s1, rs1) -> run fuel s1 h2 = Ok (s2, rs2) ->
  (forall ha o hb sa rsa sb r tr, h2 = ha ++ o :: hb -> run fuel s0 (h1 ++ ha) = Ok (sa, rsa) -> run fuel s1 ha = Ok (sa, skipn (length rs1) rsa) ->
     step fuel sa o = Ok (sb, r, tr) -> A tr = B tr) ->
  A (trace rs2) = B (trace rs2).
Proof.
  induction h2 as [|o h2 IH] using rev_ind; intros h1 s0 s1 s2 rs1 rs2 HA HB H0 H1 H2 HP.
  - cbn in H2. injection H2 as <- <-. exact H0.
  - apply run_snoc in H2 as (sa & rsa & r & tr & Ha & Hs & -> & _). unfold trace. rewrite !flat_map_app. cbn [flat_map snd]. rewrite !app_nil_r.
    rewrite HA, HB. f_equal.
    + apply (IH h1 s0 s1 sa rs1); auto. intros ha o' hb sa' rsa' sb r' tr' -> Hr1 Hr2 Hs'. eapply (HP ha o' (hb ++ [o])); eauto. now rewrite <- app_assoc.
    + eapply (HP h2 o [] sa (rs1 ++ rsa)); eauto.
      * eapply run_cat; eauto.
      * rewrite skipn_app, skipn_all, Nat.sub_diag. cbn. auto.
Qed.

(** persistence of callbacks along a program *)
Lemma run_len fuel h2 : forall (s1 s2 : state) h1 s0 rs1 rs2, run fuel s0 h1 = Ok (s1, rs1) -> s0 = [] -> run fuel s1 h2 = Ok (s2, rs2) ->
  length s1 <= length s2 /\ (forall n, n < length s1 -> clsof s2 n = clsof s1 n /\ internalof s2 n = internalof s1 n /\ (aliveof s2 n = true -> aliveof s1 n = true)).
Proof.
  induction h2 as [|o h2 IH] using rev_ind; intros s1 s2 h1 s0 rs1 rs2 H1 -> H2.
  - cbn in H2. injection H2 as <- <-. split; auto.
  - apply run_snoc in H2 as (sa & rsa & r & tr & Ha & Hs & -> & _). destruct (IH _ _ _ _ _ _ H1 eq_refl Ha) as [L D].
    pose proof (run_inv _ _ _ _ (run_cat _ _ _ _ _ _ _ _ H1 Ha)) as HI. pose proof (step_stepped _ _ _ _ _ _ _ HI Hs) as HS.
    pose proof (sp_len _ _ _ _ HS). split; [lia|]. intros n Hn. destruct (D n Hn) as (D1 & D2 & D3).
    rewrite (sp_cls _ _ _ _ HS), (sp_int _ _ _ _ HS) by lia. repeat split; auto. intros Ha2. apply D3. apply (sp_dead _ _ _ _ HS); auto. lia.
Qed.
Lemma never_snoc (p : op -> bool) h o : never p (h ++ [o]) -> never p h /\ p o = false.
Proof. intros H. split; [intros x Hx; apply H|apply H]; apply in_or_app; cbn; auto. Qed.
Lemma never_app (p : op -> bool) h1 h2 : never p (h1 ++ h2) <-> never p h1 /\ never p h2.
Proof.
  unfold never. split; [intros H; split; intros o Ho; apply H, in_or_app; auto|].
  intros [H1 H2] o Ho. apply in_app_or in Ho as [Ho|Ho]; auto.
Qed.
Lemma times_app (p : op -> bool) h1 h2 : times p (h1 ++ h2) = times p h1 + times p h2.
Proof. unfold times. now rewrite filter_app, app_length. Qed.
Lemma times_never (p : op -> bool) h : times p h = 0 <-> never p h.
Proof.
  unfold times, never. split.
  - intros H o Ho. destruct (p o) eqn:E; auto. assert (Hin : In o (filter p h)) by (apply filter_In; auto). destruct (filter p h); [contradiction|discriminate].
  - intros H. induction h as [|o h IH]; cbn; auto. rewrite (H o) by (cbn; auto). apply IH. intros x Hx. apply H. cbn; auto.
Qed.

Lemma keep_input fuel h2 g k n i : forall h1 (s1 s2 : state) rs1 rs2,
  run fuel [] h1 = Ok (s1, rs1) -> run fuel s1 h2 = Ok (s2, rs2) ->
  never (connects n) h2 -> never (destroys n) h2 -> occ s1 g k (ToInput n i) -> aliveof s2 g = true -> occ s2 g k (ToInput n i).
Proof.
  induction h2 as [|o h2 IH] using rev_ind; intros h1 s1 s2 rs1 rs2 H1 H2 Hc Hd Ho Hg.
  - cbn in H2. injection H2 as <- <-. exact Ho.
  - apply run_snoc in H2 as (sa & rsa & r & tr & Ha & Hs & -> & _). apply never_snoc in Hc as [Hc Hc'], Hd as [Hd Hd'].
    pose proof (run_inv _ _ _ _ (run_cat _ _ _ _ _ _ _ _ H1 Ha)) as HI. pose proof (step_stepped _ _ _ _ _ _ _ HI Hs) as HS.
    pose proof (i_dead _ _ (run_inv _ _ _ _ H1) _ _ _ Ho) as Hg1. pose proof (aliveof_lt _ _ Hg1) as Lg.
    destruct (run_len _ _ _ _ _ _ _ _ H1 eq_refl Ha) as [L D].
    assert (Hga : aliveof sa g = true) by (apply (sp_dead _ _ _ _ HS); auto; lia).
    apply (sp_keep_in _ _ _ _ HS); auto. eapply IH; eauto.
Qed.
Lemma no_new_input fuel h2 g k n i : forall h1 (s1 s2 : state) rs1 rs2,
  run fuel [] h1 = Ok (s1, rs1) -> run fuel s1 h2 = Ok (s2, rs2) -> n < length s1 ->
  never (connects n) h2 -> occ s2 g k (ToInput n i) -> occ s1 g k (ToInput n i).
Proof.
  induction h2 as [|o h2 IH] using rev_ind; intros h1 s1 s2 rs1 rs2 H1 H2 Hn Hc Ho.
  - cbn in H2. injection H2 as <- <-. exact Ho.
  - apply run_snoc in H2 as (sa & rsa & r & tr & Ha & Hs & -> & _). apply never_snoc in Hc as [Hc Hc'].
    pose proof (run_inv _ _ _ _ (run_cat _ _ _ _ _ _ _ _ H1 Ha)) as HI. pose proof (step_stepped _ _ _ _ _ _ _ HI Hs) as HS.
    destruct (run_len _ _ _ _ _ _ _ _ H1 eq_refl Ha) as [L D]. apply (sp_new_in _ _ _ _ HS) in Ho; auto; [|lia]. eapply IH; eauto.
Qed.

Lemma is_input_true n i (t : target) : is_input n i t = true -> t = ToInput n i.
Proof. destruct t; cbn; try discriminate. intros H. apply andb_true_iff in H as [A B]. apply Nat.eqb_eq in A, B. now subst. Qed.
Lemma is_input_refl n i : is_input n i (ToInput n i : target) = true.
Proof. cbn. now rewrite !Nat.eqb_refl. Qed.
Lemma is_output_true n (t : target) : is_output n t = true -> t = ToOutput n.
Proof. destruct t; cbn; try discriminate. intros H. apply Nat.eqb_eq in H. now subst. Qed.

(** a filter that is nobody's first *)
Lemma not_first h (s : state) n i : Ch h s -> never (joins n) h -> forall c a p fl, filtersof s c = (a, p) :: fl -> is_input n i (ToInput a 0 : target) = false.
Proof.
  intros HC Hj c a p fl E. destruct (is_input n i (ToInput a 0 : target)) eqn:Hi; auto. exfalso. apply is_input_true in Hi. injection Hi as -> _.
  assert (Hin : In (n, p) (filtersof s c)) by (rewrite E; cbn; auto). pose proof (ch_joins _ _ _ _ _ HC Hin) as H1.
  rewrite (proj2 (times_never (joins n) h) Hj) in H1. lia.
Qed.

(** ** connectInput *)
Theorem connect_streams fuel h1 n fs h2 (s : state) rs c :
  run fuel [] (h1 ++ ConnectInput n fs :: h2) = Ok (s, rs) ->
  clsof s n = Some c -> c <> Source ->
  (replaces c = true \/ times (connects n) (h1 ++ ConnectInput n fs :: h2) = 1) ->
  never (joins n) (h1 ++ ConnectInput n fs :: h2) ->
  never (connects n) h2 -> never (destroys n) h2 -> never (feeds n) h2 ->
  forall i, inputs n i (trace (skipn (Datatypes.S (length h1)) rs)) =
    match nth_error fs i with Some f => outputs f (trace (skipn (Datatypes.S (length h1)) rs)) | None => [] end.
Proof.
  intros Hrun Hcls Hns Hcond Hj Hc Hd Hf i. set (o0 := ConnectInput n fs) in *.
  replace (h1 ++ o0 :: h2) with ((h1 ++ [o0]) ++ h2) in * by (now rewrite <- app_assoc).
  apply run_app in Hrun as (s1 & rs1 & rs2 & H1 & H2 & -> & L1).
  replace (skipn (Datatypes.S (length h1)) (rs1 ++ rs2)) with rs2.
  2:{ rewrite app_length in L1. cbn in L1. replace (Datatypes.S (length h1)) with (length rs1) by lia. rewrite skipn_app, skipn_all, Nat.sub_diag. reflexivity. }
  pose proof H1 as H1'. apply run_snoc in H1' as (s0 & rs0 & r0 & tr0 & H0 & Hstep & _ & _).
  pose proof (run_inv _ _ _ _ H0) as HI0. pose proof (run_inv _ _ _ _ H1) as HI1.
  unfold o0 in Hstep. cbn [step] in Hstep. destruct (user s0 n) as [x|] eqn:Hu; [|discriminate]. cbn [bind] in Hstep. destruct (all_users s0 fs); [|discriminate]. cbn [bind] in Hstep.
  destruct (connect_input s0 n fs) as [s1'|] eqn:Hci; [|discriminate]. cbn [bind] in Hstep. injection Hstep as -> _ _.
  destruct (user_view _ _ _ Hu) as (_ & _ & Cn & An & In_ & Ln).
  assert (Hconn : connects n o0 = true) by (cbn; apply Nat.eqb_refl).
  assert (Ht : times (connects n) (h1 ++ [o0]) = times (connects n) h1 + 1) by (rewrite times_snoc, Hconn; auto).
  assert (Hfirst : replaces (cls x) = false -> times (connects n) (h1 ++ [o0]) <= 1 -> forall g k i, ~ occ s0 g k (ToInput n i)).
  { intros _ Hle g k i' Ho. destruct (i_held _ _ HI0 _ _ _ _ Ho) as (_ & _ & _ & _ & D). specialize (D In_). lia. }
  destruct (connect_input_eff (h1 ++ [o0]) s0 n fs s1 (cls x) (inv_snoc _ _ _ HI0) Hci Cn Hfirst) as (_ & SB & _ & _ & _ & P & Q & _).
  { intros _. lia. }
  destruct (run_len _ _ _ _ _ _ _ _ H1 eq_refl H2) as [_ RL].
  assert (Ln1 : n < length s1) by (now rewrite (sb_len _ _ SB)).
  assert (Ecls : c = cls x).
  { destruct (RL n Ln1) as (E & _). rewrite (sb_cls _ _ SB), Cn in E. congruence. }
  subst c.
  assert (Hcond1 : forall ha hb, h2 = ha ++ hb -> replaces (cls x) = true \/ times (connects n) ((h1 ++ [o0]) ++ ha) <= 1).
  { intros ha hb ->. destruct Hcond as [E|E]; auto. right. rewrite !times_app in *. lia. }
  assert (Hsrc : forall g k i, occ s1 g k (ToInput n i) -> nth_error fs i = Some g).
  { intros g k i' Ho. destruct (P g k i' Ho) as [[E Hold]|[_ E]]; auto. exfalso.
    destruct Hcond as [E'|E']; [congruence|]. eapply (Hfirst E); eauto. rewrite times_app in E'. lia. }
  assert (Hrel : match nth_error fs i with Some f => inputs n i (trace rs2) = outputs f (trace rs2) | None => inputs n i (trace rs2) = [] end).
  2:{ destruct (nth_error fs i); exact Hrel. }
  assert (Hstarts : forall ha o hb, h2 = ha ++ o :: hb -> starts (is_input n i) o = false).
  { intros ha o hb ->. assert (Hfo : feeds n o = false) by (apply Hf, in_or_app; cbn; auto). destruct o; cbn in *; auto.
    rewrite Hfo. reflexivity. }
  assert (Hmid : forall ha o hb sa rsa, h2 = ha ++ o :: hb -> run fuel [] ((h1 ++ [o0]) ++ ha) = Ok (sa, rsa) -> run fuel s1 ha = Ok (sa, skipn (length rs1) rsa) ->
     Inv ((h1 ++ [o0]) ++ ha) sa /\ Ch ((h1 ++ [o0]) ++ ha) sa /\
     (forall g k, occ sa g k (ToInput n i) -> occ s1 g k (ToInput n i) /\ insof sa n i = Some (g, k)) /\
     (forall c a p fl, filtersof sa c = (a, p) :: fl -> is_input n i (ToInput a 0 : target) = false)).
  { intros ha o hb sa rsa E Hra Hrb. pose proof (run_inv _ _ _ _ Hra) as HIa. pose proof (run_chains _ _ _ _ Hra) as HCa.
    split; [auto|]. split; [auto|]. split.
    - intros g k Ho. split.
      + eapply no_new_input; [exact H1|exact Hrb|exact Ln1| |exact Ho]. intros o1 Ho1. apply Hc. rewrite E. apply in_or_app; auto.
      + destruct (i_held _ _ HIa _ _ _ _ Ho) as (c' & D1 & D2 & D3 & _).
        destruct (run_len _ _ _ _ _ _ _ _ H1 eq_refl Hrb) as [_ RLa]. destruct (RLa n Ln1) as (Ec & _).
        rewrite (sb_cls _ _ SB), Cn in Ec. rewrite Ec in D1. injection D1 as <-. apply D3. eapply Hcond1. exact E.
    - apply (not_first ((h1 ++ [o0]) ++ ha)); auto. rewrite E in Hj. rewrite app_assoc in Hj. apply never_app in Hj. tauto. }
  destruct (nth_error fs i) as [f|] eqn:Ef.
  - apply (run_streams (inputs n i) (outputs f) fuel h2 (h1 ++ [o0]) [] s1 s rs1 rs2); auto using inputs_app, outputs_app.
    intros ha o hb sa rsa sb r tr E Hra Hrb Hs. destruct (Hmid ha o hb sa rsa E Hra Hrb) as (HIa & HCa & Hone & Hnf).
    rewrite <- acts_inputs. apply (step_fed _ _ fuel sa sb o r); auto; [|eapply Hstarts; eauto].
    apply (fed_intro ((h1 ++ [o0]) ++ ha)); auto.
    + intros g k t Ho Hh. apply is_input_true in Hh. subst t. destruct (Hone _ _ Ho) as [D _]. apply Hsrc in D. congruence.
    + intros k k' t t' Ho Ho' Hh Hh'. apply is_input_true in Hh, Hh'. subst t t'. destruct (Hone _ _ Ho) as [_ D]. destruct (Hone _ _ Ho') as [_ D']. congruence.
    + intros Ha. destruct (Q Hns i f Ef) as (k & Hk). exists k, (ToInput n i). split; [|apply is_input_refl].
      eapply keep_input; [exact H1|exact Hrb| | |exact Hk|exact Ha]; intros o1 Ho1; [apply Hc|apply Hd]; rewrite E; apply in_or_app; auto.
    + intros m _ Hh. cbn in Hh. discriminate.
  - apply (run_streams (inputs n i) (fun _ => []) fuel h2 (h1 ++ [o0]) [] s1 s rs1 rs2); auto using inputs_app.
    intros ha o hb sa rsa sb r tr E Hra Hrb Hs. destruct (Hmid ha o hb sa rsa E Hra Hrb) as (HIa & HCa & Hone & Hnf).
    rewrite <- acts_inputs. apply (step_unfed ((h1 ++ [o0]) ++ ha) (is_input n i) fuel sa sb o r tr HIa); auto; [|eapply Hstarts; eauto].
    intros g k t Ho. destruct (is_input n i t) eqn:Hh; auto. apply is_input_true in Hh. subst t. destruct (Hone _ _ Ho) as [D _]. apply Hsrc in D. congruence.
Qed.
End Streams.
