(** Who can be connected to whom; destruction in the right order; networks without cycles. *)
From Coq Require Import List Arith Lia Bool.
From Verif Require Import Base Net_Model Net_Spec Net_Flow Net_Wiring Net_Proofs Net_Chain Net_Streams Net_Links Net_Life.
Import ListNotations.

Section Rank.
Context {S M U : Type}.
Notation target := (target U).
Notation node := (node S M U).
Notation state := (state S M U).
Notation obs := (obs M U).
Notation op := (op S M U).
Notation class := (class S M).

(** [g] calls an input of [n], or [n] remembers a connection to [g] *)
Definition linked (s : state) (n g : nat) : Prop := (exists k i, occ s g k (ToInput n i)) \/ (exists i k, insof s n i = Some (g, k)).
Definition out_linked (s : state) (c g : nat) : Prop := (exists k, occ s g k (ToOutput c)) \/ (exists k, lastof s c = Some (g, k)).
Definition moved (s s' : state) (A B : nat -> nat -> Prop) : Prop :=
  (forall n g, linked s' n g -> linked s n g \/ A n g) /\ (forall c g, out_linked s' c g -> out_linked s c g \/ B c g).
Definition none (_ _ : nat) : Prop := False.

Lemma moved_refl s : moved s s none none. Proof. split; auto. Qed.
Lemma moved_trans a b c (A B A' B' : nat -> nat -> Prop) : moved a b A B -> moved b c A' B' -> moved a c (fun n g => A n g \/ A' n g) (fun n g => B n g \/ B' n g).
Proof.
  intros [H1 H2] [H3 H4]. split.
  - intros n g H. destruct (H3 _ _ H) as [H'|H']; auto. destruct (H1 _ _ H') as [H''|H'']; auto.
  - intros n g H. destruct (H4 _ _ H) as [H'|H']; auto. destruct (H2 _ _ H') as [H''|H'']; auto.
Qed.
Lemma moved_weaken s s' (A B A' B' : nat -> nat -> Prop) : moved s s' A B -> (forall n g, A n g -> A' n g) -> (forall n g, B n g -> B' n g) -> moved s s' A' B'.
Proof. intros [H1 H2] HA HB. split; intros n g H; [destruct (H1 _ _ H)|destruct (H2 _ _ H)]; auto. Qed.
Lemma moved_sub (s s' : state) : (forall g k t, occ s' g k t -> occ s g k t) -> (forall n i, insof s' n i = insof s n i) -> (forall n, lastof s' n = lastof s n) -> moved s s' none none.
Proof.
  intros H1 H2 H3. split.
  - intros n g [(k & i & H)|(i & k & H)]; left; [left; eauto|right]. exists i, k. now rewrite <- H2.
  - intros n g [(k & H)|(k & H)]; left; [left; eauto|right]. exists k. now rewrite <- H3.
Qed.

Lemma moved_register (s s' : state) f t k : register s f t = Ok (s', k) ->
  moved s s' (fun n g => g = f /\ exists i, t = ToInput n i) (fun c g => g = f /\ t = ToOutput c).
Proof.
  intros H. destruct (register_eff _ _ _ _ _ H) as [_ _ _ R3 _ R5 _ R7]. pose proof (occ_snoc s s' f k t R3) as Ho. split.
  - intros n g [(k' & i & H')|(i & k' & H')].
    + apply Ho in H' as [H'|(-> & -> & E)]; [left; left; eauto|right; eauto].
    + left. right. exists i, k'. now rewrite <- R5.
  - intros n g [(k' & H')|(k' & H')].
    + apply Ho in H' as [H'|(-> & -> & E)]; [left; left; eauto|right; eauto].
    + left. right. exists k'. now rewrite <- R7.
Qed.
Lemma moved_disconnect (s s' : state) c : disconnect s c = Ok s' -> moved s s' none none.
Proof.
  destruct c as [[f k]|]; [|cbn; intros H; injection H as <-; apply moved_refl]. intros H. destruct (disconnect_eff _ _ _ _ H) as [_ R2 _ R4 _ R6].
  apply moved_sub; auto. intros g k' t. unfold occ. rewrite R2. destruct (Nat.eqb_spec g f) as [->|]; auto. apply erase_sub.
Qed.
Lemma moved_disconnect_all l : forall s s' : state, disconnect_all s l = Ok s' -> moved s s' none none.
Proof.
  induction l as [|c l IH]; cbn [disconnect_all]; intros s s' H; [injection H as <-; apply moved_refl|].
  destruct (disconnect s c) as [s1|] eqn:Hd; [|discriminate]. cbn [bind] in H.
  eapply moved_weaken; [eapply moved_trans; [eapply moved_disconnect; eauto|eapply IH; eauto]| |]; unfold none; tauto.
Qed.
Lemma nth_upd_cases {A} (d v : A) l : forall i j, nth j (upd i v l) d = nth j l d \/ nth j (upd i v l) d = v.
Proof.
  induction l as [|a l IH]; intros [|i] [|j]; cbn; auto. all: destruct l; cbn; auto.
Qed.
Lemma moved_set_ins (s : state) n x i f k : nth_error s n = Some x ->
  moved s (upd n (set_ins x (upd i (Some (f, k)) (ins x))) s) (fun n' g => n' = n /\ g = f) none.
Proof.
  intros Hn. set (s' := upd n _ s).
  assert (H1 : forall g k t, occ s' g k t -> occ s g k t).
  { intros g k' t. unfold occ, cbsof, s'. rewrite (nth_upd_case _ _ _ _ _ Hn). destruct (Nat.eqb_spec g n) as [->|]; auto. now rewrite Hn. }
  assert (H3 : forall n, lastof s' n = lastof s n).
  { intros m. unfold lastof, s'. rewrite (nth_upd_case _ _ _ _ _ Hn). destruct (Nat.eqb_spec m n) as [->|]; auto. now rewrite Hn. }
  split.
  - intros m g [(k' & i' & H)|(i' & k' & H)]; [left; left; eauto|]. unfold insof, s' in H. rewrite (nth_upd_case _ _ _ _ _ Hn) in H.
    destruct (Nat.eqb_spec m n) as [->|]; [|left; right; unfold insof; eauto]. cbn in H.
    destruct (nth_upd_cases None (Some (f, k)) (ins x) i i') as [E|E]; rewrite E in H.
    + left. right. exists i', k'. unfold insof. now rewrite Hn.
    + injection H as -> ->. auto.
  - intros m g [(k' & H)|(k' & H)]; [left; left; eauto|]. left. right. exists k'. now rewrite <- H3.
Qed.
Lemma moved_connect_slots n fs : forall i (s s' : state), connect_slots s n i fs = Ok s' -> moved s s' (fun n' g => n' = n /\ In g fs) none.
Proof.
  induction fs as [|f fs IH]; cbn [connect_slots]; intros i s s' H; [injection H as <-; eapply moved_weaken; [apply moved_refl| |]; unfold none; tauto|].
  destruct (register s f (ToInput n i)) as [[s1 k]|] eqn:Hr; [|discriminate]. cbn [bind] in H. destruct (live s1 n) as [x|] eqn:Hl; [|discriminate]. cbn [bind] in H.
  apply live_nth in Hl as [Hn _].
  eapply moved_weaken; [eapply moved_trans; [eapply moved_register; eauto|eapply moved_trans; [eapply moved_set_ins; eauto|eapply IH; eauto]]| |]; cbn.
  - intros n' g [(-> & i' & E)|[[-> ->]|[-> Hin]]]; auto. injection E as -> _. auto.
  - unfold none. intros n' g [(_ & E)|[[]|[]]]. discriminate.
Qed.
Lemma moved_connect_input (s s' : state) n fs : connect_input s n fs = Ok s' -> moved s s' (fun n' g => n' = n /\ In g fs) none.
Proof.
  unfold connect_input. destruct (live s n) as [x|]; [|discriminate]. cbn [bind]. destruct (arity (cls x) <? length fs); [discriminate|].
  assert (Hm : (do s1 <- (if replaces (cls x) then disconnect_all s (ins x) else Ok s); connect_slots s1 n 0 fs) = Ok s' -> moved s s' (fun n' g => n' = n /\ In g fs) none).
  { destruct (if replaces (cls x) then disconnect_all s (ins x) else Ok s) as [s1|] eqn:Hd; [|discriminate]. cbn [bind]. intros H.
    assert (Hd' : moved s s1 none none) by (destruct (replaces (cls x)); [eapply moved_disconnect_all; eauto|injection Hd as <-; apply moved_refl]).
    eapply moved_weaken; [eapply moved_trans; [exact Hd'|eapply moved_connect_slots; eauto]| |]; unfold none; tauto. }
  destruct (cls x); auto. intros H. injection H as <-. eapply moved_weaken; [apply moved_refl| |]; unfold none; tauto.
Qed.
Lemma moved_add_filter (s s' : state) c f s0 i : add_filter s c f s0 = Ok (s', i) ->
  moved s s' (fun n g => (n = length s /\ g = f) \/ (n = f /\ exists f' fl, rev (filtersof s c) = (f', g) :: fl)) (fun c' g => c' = c /\ g = length s).
Proof.
  unfold add_filter. destruct (live s c) as [xc|] eqn:Hc; [|discriminate]. cbn [bind]. destruct (cls xc) eqn:Ec; try discriminate.
  destruct (live s f) as [xf|] eqn:Hf; [|discriminate]. cbn [bind].
  destruct (disconnect (s ++ [fresh PassThrough s0 true]) (last xc)) as [s2|] eqn:E2; [|discriminate]. cbn [bind].
  destruct (connect_input s2 (length s) [f]) as [s3|] eqn:E3; [|discriminate]. cbn [bind].
  destruct (register s3 (length s) (ToOutput c)) as [[s4 k]|] eqn:E4; [|discriminate]. cbn [bind].
  destruct (live s4 c) as [x4|] eqn:E5; [|discriminate]. cbn [bind]. set (s5 := upd c _ s4).
  destruct (match rev (filters xc) with [] => Ok s5 | (_, q) :: _ => connect_input s5 f [q] end) as [s6|] eqn:E6; [|discriminate]. cbn [bind].
  destruct (live s6 c) as [x6|] eqn:E7; [|discriminate]. cbn [bind]. intros H. injection H as <- <-.
  assert (M1 : moved s (s ++ [fresh PassThrough s0 true]) none none).
  { destruct (grow_eff s PassThrough s0 true) as [_ G1 _ G3 G4 _ _ _ _ _]. apply moved_sub; auto. intros g k' t. unfold occ. now rewrite G1. }
  pose proof (moved_disconnect _ _ _ E2) as M2. pose proof (moved_connect_input _ _ _ _ E3) as M3. pose proof (moved_register _ _ _ _ _ E4) as M4.
  assert (M5 : moved s4 s5 none (fun c' g => c' = c /\ g = length s)).
  { apply live_nth in E5 as [Hn _].
    assert (H1 : forall g k t, occ s5 g k t -> occ s4 g k t).
    { intros g k' t. unfold occ, cbsof, s5. rewrite (nth_upd_case _ _ _ _ _ Hn). destruct (Nat.eqb_spec g c) as [->|]; auto. now rewrite Hn. }
    split.
    - intros m g [(k' & i' & H)|(i' & k' & H)]; [left; left; eauto|]. left. right. exists i', k'. unfold insof, s5 in *. rewrite (nth_upd_case _ _ _ _ _ Hn) in H.
      destruct (Nat.eqb_spec m c) as [->|]; auto. now rewrite Hn.
    - intros m g [(k' & H)|(k' & H)]; [left; left; eauto|]. unfold lastof, s5 in H. rewrite (nth_upd_case _ _ _ _ _ Hn) in H.
      destruct (Nat.eqb_spec m c) as [->|]; [|left; right; unfold lastof; eauto]. cbn in H. injection H as <- <-. auto. }
  destruct (live_view _ _ _ Hc) as (_ & _ & _ & _ & _ & Vf & _).
  assert (M6 : moved s5 s6 (fun n g => n = f /\ exists f' fl, rev (filtersof s c) = (f', g) :: fl) none).
  { rewrite Vf. destruct (rev (filters xc)) as [|[f' q] fl].
    - injection E6 as <-. eapply moved_weaken; [apply moved_refl| |]; unfold none; tauto.
    - eapply moved_weaken; [eapply moved_connect_input; eauto| |]; [|auto]. cbn. intros n g [-> [->|[]]]. eauto. }
  assert (M7 : moved s6 (upd c (set_chain x6 (filters x6 ++ [(f, length s)]) (last x6)) s6) none none).
  { destruct (push_eff s6 c x6 f (length s) E7) as [_ G1 _ G3 G4 _ _ _ _ _]. apply moved_sub; auto. intros g k' t. unfold occ. now rewrite G1. }
  eapply moved_weaken; [eapply moved_trans; [exact M1|eapply moved_trans; [exact M2|eapply moved_trans; [exact M3|eapply moved_trans; [exact M4|
    eapply moved_trans; [exact M5|eapply moved_trans; [exact M6|exact M7]]]]]]| |]; cbn; unfold none.
  - intros n g [[]|[[]|[(-> & [->|[]])|[(-> & i' & E)|[[]|[(-> & X)|[]]]]]]]; auto. discriminate.
  - intros n g [[]|[[]|[[]|[(-> & E)|[(-> & ->)|[[]|[]]]]]]]; auto. injection E as ->. auto.
Qed.

Definition new_links (s : state) (o : op) (n g : nat) : Prop :=
  match o with
  | ConnectInput n' fs => n' = n /\ In g fs
  | AddFilter c f _ => (n = length s /\ g = f) \/ (n = f /\ exists f' fl, rev (filtersof s c) = (f', g) :: fl)
  | _ => False
  end.
Definition new_outs (s : state) (o : op) (c g : nat) : Prop := match o with AddFilter c' _ _ => c = c' /\ g = length s | _ => False end.
Lemma step_moved fuel (s s' : state) o r tr : step fuel s o = Ok (s', r, tr) -> moved s s' (new_links s o) (new_outs s o).
Proof.
  assert (HW : same_wiring s s' -> moved s s' (new_links s o) (new_outs s o)).
  { intros HW. destruct (views_wiring _ _ HW) as (_ & V1 & _ & V3 & V4 & _). eapply moved_weaken; [apply moved_sub; auto| |]; unfold none; try tauto.
    intros g k t. unfold occ. now rewrite V1. }
  destruct o as [c s0|n fs|c f s0|c i|n u|n k|n i m|n m|n]; cbn [step]; intros H.
  - injection H as <- <- <-. destruct (grow_eff s c s0 false) as [_ G1 _ G3 G4 _ _ _ _ _].
    eapply moved_weaken; [apply moved_sub; auto| |]; unfold none; try tauto. intros g k' t. unfold occ. now rewrite G1.
  - destruct (user s n) as [x|] eqn:Hu; [|discriminate]. cbn [bind] in H. destruct (all_users s fs); [|discriminate]. cbn [bind] in H.
    destruct (connect_input s n fs) as [s1|] eqn:Hc; [|discriminate]. cbn [bind] in H. injection H as <- <- <-.
    eapply moved_weaken; [eapply moved_connect_input; eauto| |]; unfold none; cbn; [intros ? ? [-> ?]; auto|tauto].
  - destruct (user s c) as [xc|] eqn:Huc; [|discriminate]. cbn [bind] in H. destruct (user s f) as [xf|] eqn:Huf; [|discriminate]. cbn [bind] in H.
    destruct (add_filter s c f s0) as [[s1 i1]|] eqn:Ha; [|discriminate]. cbn [bind] in H. injection H as <- <- <-. eapply moved_add_filter; eauto.
  - destruct (user s c) as [x|] eqn:Hu; [|discriminate]. cbn [bind] in H. destruct (cls x); try discriminate. injection H as <- <- <-. apply HW, same_wiring_refl.
  - destruct (user s n) as [x|] eqn:Hu; [|discriminate]. cbn [bind] in H. destruct (register s n (ToUser u)) as [[s1 k]|] eqn:Hr; [|discriminate].
    cbn [bind] in H. injection H as <- <- <-. eapply moved_weaken; [eapply moved_register; eauto| |]; cbn.
    + intros n' g [_ [i E]]. discriminate.
    + intros n' g [_ E]. discriminate.
  - destruct (user s n) as [x|] eqn:Hu; [|discriminate]. cbn [bind] in H. destruct (forallb _ (cbs x)); [|discriminate].
    destruct (disconnect s (Some (n, k))) as [s1|] eqn:Hd; [|discriminate]. cbn [bind] in H. injection H as <- <- <-.
    eapply moved_weaken; [eapply moved_disconnect; eauto| |]; unfold none; tauto.
  - destruct (user s n) as [x|] eqn:Hu; [|discriminate]. cbn [bind] in H. destruct (i <? arity (cls x)); [|discriminate].
    destruct (deliver fuel s [] (ToInput n i) m) as [[s1 tr1]|] eqn:Hd; [|discriminate]. cbn [bind] in H. injection H as <- <- <-.
    apply HW. apply deliver_sound in Hd. eapply (proj1 flow_wiring); eauto.
  - destruct (user s n) as [x|] eqn:Hu; [|discriminate]. cbn [bind] in H. destruct (emits (cls x)); [|discriminate].
    destruct (emit (deliver fuel) s [] n m) as [[s1 tr1]|] eqn:Hd; [|discriminate]. cbn [bind] in H. injection H as <- <- <-.
    apply HW. apply (emit_sound (deliver fuel) (deliver_sound fuel)) in Hd. eapply (proj1 (proj2 flow_wiring)); eauto.
  - destruct (user s n) as [x|] eqn:Hu; [|discriminate]. cbn [bind] in H.
    destruct (if detaches (cls x) then disconnect_all s (ins x) else Ok s) as [s1|] eqn:Hd; [|discriminate]. cbn [bind] in H.
    destruct (live s1 n) as [x1|] eqn:Hl; [|discriminate]. cbn [bind] in H. injection H as <- <- <-.
    assert (Hd' : moved s s1 none none) by (destruct (detaches (cls x)); [eapply moved_disconnect_all; eauto|injection Hd as <-; apply moved_refl]).
    pose proof (kill_all_eff (n :: map snd (filters x1)) s1) as [_ K1 _ K3 K4 _ _ _ _ _].
    eapply moved_weaken; [eapply moved_trans; [exact Hd'|apply moved_sub; [|exact K3|exact K4]]| |]; unfold none; cbn; try tauto.
    intros g k t. unfold occ. rewrite K1. destruct (existsb _ _); [intros []|auto].
Qed.

(** *** along a program *)
Record Up (h : list op) (s : state) : Prop := mkUp {
  up_in : forall n g, linked s n g ->
    (exists c, In (g, n) (filtersof s c)) \/
    (exists fs, In (ConnectInput n fs) h /\ In g fs) \/
    (exists c j f' p, nth_error (filtersof s c) j = Some (f', g) /\ nth_error (filtersof s c) (Datatypes.S j) = Some (n, p));
  up_out : forall c g, out_linked s c g -> exists f, In (f, g) (filtersof s c)
}.
Theorem run_up fuel h : forall (s : state) rs, run fuel [] h = Ok (s, rs) -> Up h s.
Proof.
  induction h as [|o h IH] using rev_ind; intros s rs H.
  - cbn in H. injection H as <- <-. split.
    + intros n g [(k & i & H)|(i & k & H)]; [unfold occ, cbsof in H; now destruct g|unfold insof in H; now destruct n].
    + intros n g [(k & H)|(k & H)]; [unfold occ, cbsof in H; now destruct g|unfold lastof in H; now destruct n].
  - apply run_snoc in H as (s1 & rs1 & r & tr & H1 & H2 & _ & _). destruct (IH _ _ H1) as [U1 U2]. pose proof (run_inv _ _ _ _ H1) as HI.
    pose proof (step_stepped _ _ _ _ _ _ _ HI H2) as HS. destruct (step_moved _ _ _ _ _ _ H2) as [M1 M2]. pose proof (sp_filters _ _ _ _ HS) as F.
    assert (Hnth : forall c j x, nth_error (filtersof s1 c) j = Some x -> nth_error (filtersof s c) j = Some x).
    { intros c j x Hj. rewrite F, nth_error_app1; auto. apply nth_error_Some. congruence. }
    split.
    + intros n g Hl. destruct (M1 _ _ Hl) as [Hl1|Hnew].
      * destruct (U1 _ _ Hl1) as [(c & Hc)|[(fs & X1 & X2)|(c & j & f' & p & X1 & X2)]].
        -- left. exists c. rewrite F. apply in_or_app; auto.
        -- right. left. exists fs. split; auto. apply in_or_app; auto.
        -- right. right. exists c, j, f', p. auto.
      * destruct o as [| n' fs|c f s0| | | | | |]; cbn in Hnew; try contradiction.
        -- destruct Hnew as [-> Hin]. right. left. exists fs. split; auto. apply in_or_app. cbn; auto.
        -- destruct Hnew as [[-> ->]|(-> & f' & fl & Hrev)].
           ++ left. exists c. rewrite F. cbn. rewrite Nat.eqb_refl. apply in_or_app; cbn; auto.
           ++ right. right. exists c, (length fl), f', (length s1).
              assert (E : filtersof s1 c = rev fl ++ [(f', g)]) by (rewrite <- (rev_involutive (filtersof s1 c)), Hrev; reflexivity).
              split; rewrite F; cbn [pushes]; rewrite Nat.eqb_refl, E, <- app_assoc; cbn [app].
              ** rewrite nth_error_app2; rewrite rev_length; [|lia]. now rewrite Nat.sub_diag.
              ** rewrite nth_error_app2; rewrite rev_length; [|lia]. now replace (Datatypes.S (length fl) - length fl) with 1 by lia.
    + intros c g Hl. destruct (M2 _ _ Hl) as [Hl1|Hnew].
      * destruct (U2 _ _ Hl1) as (f & Hf). exists f. rewrite F. apply in_or_app; auto.
      * destruct o; cbn in Hnew; try contradiction. destruct Hnew as [-> ->]. exists f. rewrite F. cbn. rewrite Nat.eqb_refl. apply in_or_app; cbn; auto.
Qed.

(** ** destruction *)
Lemma disconnect_all_total l : forall s : state, (forall g k, In (Some (g, k)) l -> aliveof s g = true) -> exists s', disconnect_all s l = Ok s' /\ (forall n, aliveof s' n = aliveof s n).
Proof.
  induction l as [|c l IH]; intros s H; cbn [disconnect_all]; [eauto|].
  assert (Hd : exists s1, disconnect s c = Ok s1 /\ forall n, aliveof s1 n = aliveof s n).
  { destruct c as [[f k]|]; [|exists s; auto]. destruct (live_of s f) as (x & Hx); [eapply H; cbn; eauto|].
    destruct (disconnect s (Some (f, k))) as [s1|] eqn:E; [|cbn in E; rewrite Hx in E; discriminate].
    exists s1. split; auto. intros n. destruct (disconnect_eff _ _ _ _ E) as [SB _ _ _ _ _]. apply (sb_alive _ _ SB). }
  destruct Hd as (s1 & -> & Ha). cbn [bind]. destruct (IH s1) as (s2 & E & Ha2); [intros g k Hin; rewrite Ha; eapply H; cbn; eauto|].
  exists s2. split; auto. intros n. now rewrite Ha2.
Qed.

Lemma in_added c f (h : list op) : In f (added c h) -> exists s0, In (AddFilter c f s0) h.
Proof.
  unfold added. intros H. apply in_flat_map in H as (o & Ho & H). destruct o; try contradiction. destruct (Nat.eqb_spec c0 c) as [->|]; [|contradiction].
  destruct H as [->|[]]. eauto.
Qed.

Lemma connected_lt fuel h n fs : forall (s : state) rs, run fuel [] h = Ok (s, rs) -> In (ConnectInput n fs) h -> n < length s.
Proof.
  induction h as [|o h IH] using rev_ind; intros s rs H Hin; [destruct Hin|].
  apply run_snoc in H as (s1 & rs1 & r & tr & H1 & H2 & _ & _). pose proof (sp_len _ _ _ _ (step_stepped _ _ _ _ _ _ _ (run_inv _ _ _ _ H1) H2)) as HL.
  apply in_app_or in Hin as [Hin|[->|[]]]; [specialize (IH _ _ H1 Hin); lia|].
  destruct (step_users _ _ _ _ _ _ n H2) as (_ & _ & L); [cbn; now rewrite Nat.eqb_refl|lia].
Qed.
Lemma connected_users fuel h n fs g : forall (s : state) rs, run fuel [] h = Ok (s, rs) -> In (ConnectInput n fs) h -> In g fs -> g < length s /\ internalof s g = false /\ internalof s n = false.
Proof.
  induction h as [|o h IH] using rev_ind; intros s rs H Hin Hg; [destruct Hin|].
  apply run_snoc in H as (s1 & rs1 & r & tr & H1 & H2 & _ & _). pose proof (step_stepped _ _ _ _ _ _ _ (run_inv _ _ _ _ H1) H2) as HS.
  assert (Hold : n < length s1 -> g < length s1 /\ internalof s1 g = false -> internalof s1 n = false -> g < length s /\ internalof s g = false /\ internalof s n = false).
  { intros Hn [A B] C. pose proof (sp_len _ _ _ _ HS). split; [lia|]. now rewrite !(sp_int _ _ _ _ HS). }
  apply in_app_or in Hin as [Hin|[->|[]]].
  { destruct (IH _ _ H1 Hin Hg) as (A & B & C). apply Hold; auto. eapply connected_lt; eauto. }
  cbn [step] in H2. destruct (user s1 n) as [x|] eqn:Hu; [|discriminate]. cbn [bind] in H2. destruct (user_view _ _ _ Hu) as (_ & _ & _ & _ & In_ & Ln).
  destruct (all_users s1 fs) eqn:E; [|discriminate]. apply Hold; auto. clear -E Hg. induction fs as [|f fs IH]; [destruct Hg|]. cbn in E. destruct (user s1 f) eqn:Eu; [|discriminate]. cbn [bind] in E.
  destruct Hg as [->|Hg]; auto. destruct (user_view _ _ _ Eu) as (_ & _ & _ & _ & A & B). auto.
Qed.

Lemma upstream_links fuel h n (s : state) rs : run fuel [] h = Ok (s, rs) -> internalof s n = false -> upstream_alive n h ->
  forall i g k, insof s n i = Some (g, k) -> aliveof s g = true.
Proof.
  intros H Hi [Hc Ha] i g k Hg. pose proof (run_chains _ _ _ _ H) as HC. destruct (run_up _ _ _ _ H) as [U1 _].
  destruct (U1 n g) as [(c & Hin)|[(fs & X1 & X2)|(c & j & f' & p & X1 & X2)]]; [right; eauto| | |].
  - destruct (ch_node _ _ HC _ _ _ Hin) as (_ & _ & _ & _ & _ & D & _). congruence.
  - destruct (connected_users _ _ _ _ _ _ _ H X1 X2) as (A & B & _). eapply never_destroyed; eauto.
  - apply nth_error_In in X1, X2. destruct (ch_node _ _ HC _ _ _ X1) as (D1 & D2 & _ & _ & _ & _ & ->).
    eapply never_destroyed; eauto; [eapply clsof_lt; eauto|].
    assert (Hadd : In n (added c h)) by (rewrite <- (ch_hist _ _ HC); apply in_map_iff; exists (n, p); auto).
    apply in_added in Hadd as (s0 & Hadd). eauto.
Qed.
Lemma user_of (s : state) n : aliveof s n = true -> internalof s n = false -> exists x, user s n = Ok x.
Proof. intros Ha Hi. destruct (live_of _ _ Ha) as (x & Hx). destruct (live_view _ _ _ Hx) as (_ & _ & _ & V & _). exists x. unfold user. rewrite Hx. cbn. now rewrite <- V, Hi. Qed.

Theorem destroy_total fuel h n (s : state) rs : run fuel [] h = Ok (s, rs) -> n < length s -> internalof s n = false -> never (destroys n) h -> upstream_alive n h ->
  exists s', step fuel s (Destroy n) = Ok (s', Done, []).
Proof.
  intros H Hn Hi Hd Hu. pose proof (never_destroyed _ _ _ _ _ H Hn Hi Hd) as Ha. destruct (user_of _ _ Ha Hi) as (x & Hx). cbn [step]. rewrite Hx. cbn [bind].
  destruct (user_view _ _ _ Hx) as (_ & Nx & _).
  destruct (disconnect_all_total (ins x) s) as (s1 & E & Ha1).
  { intros g k Hin. apply In_nth with (d := None) in Hin as (i & Hl & Hin). eapply (upstream_links fuel h n s rs H Hi Hu i g k). unfold insof. now rewrite Nx. }
  destruct (detaches (cls x)).
  - rewrite E. cbn [bind]. destruct (live_of s1 n) as (x1 & ->); [now rewrite Ha1|]. cbn [bind]. eauto.
  - cbn [bind]. destruct (live_of s n Ha) as (x1 & ->). cbn [bind]. eauto.
Qed.

(** ** networks without cycles *)
Definition own (s : state) (p : nat) : nat := match find (fun x => Nat.eqb (snd x) p) (flat_map (@filters S M U) s) with Some (f, _) => f | None => 0 end.
Lemma filtersof_in (s : state) f p : In (f, p) (flat_map (@filters S M U) s) <-> exists c, In (f, p) (filtersof s c).
Proof.
  rewrite in_flat_map. split.
  - intros (x & Hx & Hin). apply In_nth_error in Hx as (c & Hc). exists c. unfold filtersof. now rewrite Hc.
  - intros (c & Hin). unfold filtersof in Hin. destruct (nth_error s c) as [x|] eqn:E; [|destruct Hin]. exists x. split; auto. eapply nth_error_In; eauto.
Qed.
Lemma own_of h (s : state) c f p : Ch h s -> In (f, p) (filtersof s c) -> own s p = f.
Proof.
  intros HC Hin. unfold own. destruct (find _ _) as [[f' p']|] eqn:E.
  - apply find_some in E as [E1 E2]. cbn in E2. apply Nat.eqb_eq in E2. subst p'. apply filtersof_in in E1 as (c' & E1).
    apply In_nth_error in E1 as (j' & E1), Hin as (j & Hin). destruct (ch_inj _ _ HC _ _ _ _ _ _ _ Hin E1) as [-> ->]. congruence.
  - exfalso. assert (Hi : In (f, p) (flat_map (@filters S M U) s)) by (apply filtersof_in; eauto). apply (find_none _ _ E) in Hi. cbn in Hi. now rewrite Nat.eqb_refl in Hi.
Qed.

Theorem acyclic_ranked fuel h (s : state) rs rin rout : run fuel [] h = Ok (s, rs) -> acyclic rin rout h ->
  ranked (fun n => if internalof s n then 3 * rout (own s n) - 1 else 3 * rin n) (fun n => if internalof s n then 3 * rout (own s n) - 2 else 3 * rout n) s.
Proof.
  intros H [A1 A2 A3 A4 A5]. pose proof (run_inv _ _ _ _ H) as HI. pose proof (run_chains _ _ _ _ H) as HC. destruct (run_up _ _ _ _ H) as [U1 U2].
  assert (Hadd : forall c f p, In (f, p) (filtersof s c) -> In f (added c h)).
  { intros c f p Hin. rewrite <- (ch_hist _ _ HC). apply in_map_iff. exists (f, p). auto. }
  split.
  - intros n Hc Ha. destruct (internalof s n) eqn:Ei.
    + destruct (ch_int _ _ HC _ Ei) as (c & f & Hin). rewrite (own_of _ _ _ _ _ HC Hin). pose proof (A5 c f (Hadd _ _ _ Hin)). lia.
    + assert (E : added n h = []).
      { rewrite <- (ch_hist _ _ HC). destruct (filtersof s n) as [|[f p] fl] eqn:Ef; auto. exfalso. apply Hc. eapply (ch_node _ _ HC n f p). rewrite Ef. cbn; auto. }
      specialize (A1 n E). lia.
  - intros g k t Ho. destruct t as [u|n i|c]; auto; cbn [rank_of].
    + destruct (U1 n g) as [(c & Hin)|[(fs & X1 & X2)|(c & j & f' & p & X1 & X2)]]; [left; eauto| | |].
      * destruct (ch_node _ _ HC _ _ _ Hin) as (_ & _ & D3 & _ & _ & D6 & _). rewrite D3, D6, (own_of _ _ _ _ _ HC Hin). pose proof (A5 c g (Hadd _ _ _ Hin)). lia.
      * destruct (connected_users _ _ _ _ _ _ _ H X1 X2) as (_ & B1 & B2). rewrite B1, B2. pose proof (A2 n fs g X1 X2). lia.
      * pose proof (nth_error_In _ _ X1) as I1. pose proof (nth_error_In _ _ X2) as I2.
        destruct (ch_node _ _ HC _ _ _ I1) as (_ & _ & _ & _ & _ & D6 & _). destruct (ch_node _ _ HC _ _ _ I2) as (_ & _ & D3 & _).
        rewrite D3, D6, (own_of _ _ _ _ _ HC I1). pose proof (A4 c j f' n) as A. rewrite <- (ch_hist _ _ HC), !nth_error_map, X1, X2 in A. specialize (A eq_refl eq_refl). lia.
    + destruct (U2 c g) as (f & Hin); [left; eauto|]. destruct (ch_node _ _ HC _ _ _ Hin) as (_ & D2 & _ & _ & _ & D6 & _). rewrite D2, D6, (own_of _ _ _ _ _ HC Hin).
      pose proof (A5 c f (Hadd _ _ _ Hin)). lia.
  - intros c f p fl _ Ef. assert (Hin : In (f, p) (filtersof s c)) by (rewrite Ef; cbn; auto). destruct (ch_node _ _ HC _ _ _ Hin) as (_ & D2 & D3 & _). rewrite D2, D3.
    pose proof (A3 c f) as A. rewrite <- (ch_hist _ _ HC), Ef in A. specialize (A eq_refl). lia.
Qed.

Theorem acyclic_total fuel h (s : state) rs rin rout n : run fuel [] h = Ok (s, rs) -> acyclic rin rout h -> detached_all h s ->
  n < length s -> internalof s n = false -> never (destroys n) h ->
  (forall x i m fuel', nth_error s n = Some x -> i < arity (cls x) -> 3 * rin n + 1 < fuel' -> succeeds (step fuel' s (Add n i m))) /\
  (forall x m fuel', nth_error s n = Some x -> emits (cls x) = true -> 3 * rin n + 1 < fuel' -> succeeds (step fuel' s (Emit n m))).
Proof.
  intros H HA HD Hn Hi Hnd. pose proof (acyclic_ranked _ _ _ _ _ _ H HA) as HR. pose proof (clean_network _ _ _ _ H HD) as HS.
  pose proof (never_destroyed _ _ _ _ _ H Hn Hi Hnd) as Ha. destruct (user_of _ _ Ha Hi) as (y & Hy). destruct (user_view _ _ _ Hy) as (_ & Ny & Cy & _). split.
  - intros x i m fuel' Hx Har Hf. rewrite Ny in Hx. injection Hx as ->. cbn [step]. rewrite Hy. cbn [bind]. destruct (Nat.ltb_spec i (arity (cls x))); [|lia].
    apply succeeds_bind; [|intros [s1 tr1] _; cbn; auto]. eapply deliver_total; eauto.
    + cbn. rewrite Hi. lia.
    + intros n' [].
  - intros x m fuel' Hx Hem Hf. rewrite Ny in Hx. injection Hx as ->. cbn [step]. rewrite Hy. cbn [bind]. rewrite Hem.
    apply succeeds_bind; [|intros [s1 tr1] _; cbn; auto].
    assert (Hs : succeeds (deliver (Datatypes.S fuel') s [] (ToOutput n) m)).
    { eapply deliver_total; eauto; [|intros n' []]. cbn. rewrite Hi. pose proof (ra_self _ _ _ HR n) as Hself. cbn in Hself. rewrite Hi in Hself.
      assert (clsof s n <> Some Chain) by (rewrite Cy; intros E; injection E as E; rewrite E in Hem; discriminate). specialize (Hself H0 Ha). lia. }
    cbn [deliver] in Hs. destruct (live_of _ _ Ha) as (z & Hz). rewrite Hz in Hs. exact Hs.
Qed.

(** ** filters by their creation *)
Lemma run_res fuel h : forall (s0 s : state) rs i o, run fuel s0 h = Ok (s, rs) -> nth_error h i = Some o ->
  exists sa rsa sb r tr rsb, run fuel s0 (firstn i h) = Ok (sa, rsa) /\ step fuel sa o = Ok (sb, r, tr) /\ run fuel sb (skipn (Datatypes.S i) h) = Ok (s, rsb) /\
    rs = rsa ++ (r, tr) :: rsb /\ length rsa = i.
Proof.
  induction h as [|o' h IH]; intros s0 s rs i o H Hi; [destruct i; discriminate|]. cbn [run] in H.
  destruct (step fuel s0 o') as [[[s1 r1] tr1]|] eqn:Es; [|discriminate]. cbn [bind] in H. destruct (run fuel s1 h) as [[s2 rs2]|] eqn:Er; [|discriminate]. cbn [bind] in H.
  injection H as <- <-. destruct i as [|i].
  - cbn in Hi. injection Hi as ->. exists s0, [], s1, r1, tr1, rs2. cbn. auto.
  - cbn in Hi. destruct (IH _ _ _ _ _ Er Hi) as (sa & rsa & sb & r & tr & rsb & A1 & A2 & A3 & -> & A4). exists sa, ((r1, tr1) :: rsa), sb, r, tr, rsb.
    cbn [firstn run]. rewrite Es. cbn [bind]. rewrite A1. cbn [bind skipn]. repeat split; auto. cbn. lia.
Qed.
Lemma created_view fuel h (s : state) rs cl n : run fuel [] h = Ok (s, rs) -> created cl n h rs -> clsof s n = Some cl /\ internalof s n = false /\ n < length s.
Proof.
  intros H (x0 & i & tr & Hi & Hr). destruct (run_res _ _ _ _ _ _ _ H Hi) as (sa & rsa & sb & r & tr' & rsb & A1 & A2 & A3 & -> & A4).
  rewrite nth_error_app2, A4, Nat.sub_diag in Hr by lia. cbn in Hr. injection Hr as -> ->. cbn [step] in A2. injection A2 as <- <- <-.
  assert (E : run fuel [] (firstn i h ++ [New cl x0]) = Ok (sa ++ [fresh cl x0 false], rsa ++ [(Created (length sa), [])])) by (eapply run_cat; eauto; reflexivity).
  destruct (run_len _ _ _ _ _ _ _ _ E eq_refl A3) as [L D]. rewrite app_length in L, D. cbn in L, D. destruct (D (length sa)) as (D1 & D2 & _); [lia|].
  rewrite D1, D2. destruct (grow_eff sa cl x0 false) as [_ _ _ _ _ _ G6 _ G8 _]. rewrite G6, G8, Nat.eqb_refl. repeat split; auto; lia.
Qed.
Lemma quiet_state fuel h2 n : forall (s1 s2 : state) h1 rs1 rs2, run fuel [] h1 = Ok (s1, rs1) -> run fuel s1 h2 = Ok (s2, rs2) -> n < length s1 ->
  (forall o, In o h2 -> quiet o = true) -> state_of n s2 = state_of n s1.
Proof.
  induction h2 as [|o h2 IH] using rev_ind; intros s1 s2 h1 rs1 rs2 H1 H2 Hn Hq.
  - cbn in H2. now injection H2 as <- <-.
  - apply run_snoc in H2 as (sa & rsa & r & tr & Ha & Hs & _ & _). rewrite <- (IH _ _ _ _ _ H1 Ha Hn) by (intros; apply Hq, in_or_app; auto).
    assert (Hqo : quiet o = true) by (apply Hq, in_or_app; cbn; auto). destruct (run_len _ _ _ _ _ _ _ _ H1 eq_refl Ha) as [L _].
    eapply st_step; eauto; [lia| |]; intros; intros ->; discriminate.
Qed.
Lemma created_state fuel h (s : state) rs cl x0 n : run fuel [] h = Ok (s, rs) -> creates cl x0 n h rs -> (forall o, In o h -> quiet o = true) ->
  exists x, nth_error s n = Some x /\ cls x = cl /\ st x = x0.
Proof.
  intros H Hc Hq. destruct (created_view fuel h s rs cl n H (ex_intro _ x0 Hc)) as (V1 & V2 & V3). destruct Hc as (i & tr & Hi & Hr).
  destruct (run_res _ _ _ _ _ _ _ H Hi) as (sa & rsa & sb & r & tr' & rsb & A1 & A2 & A3 & -> & A4).
  rewrite nth_error_app2, A4, Nat.sub_diag in Hr by lia. cbn in Hr. injection Hr as -> ->. cbn [step] in A2. injection A2 as <- <- <-.
  assert (E : run fuel [] (firstn i h ++ [New cl x0]) = Ok (sa ++ [fresh cl x0 false], rsa ++ [(Created (length sa), [])])) by (eapply run_cat; eauto; reflexivity).
  assert (Hst : state_of (length sa) s = Some x0).
  { erewrite (quiet_state fuel (skipn (Datatypes.S i) h) (length sa)); [|exact E|exact A3| |].
    - unfold state_of. rewrite nth_error_grow, Nat.eqb_refl. reflexivity.
    - rewrite app_length. cbn. lia.
    - intros o Ho. apply Hq. rewrite <- (firstn_skipn (Datatypes.S i) h). apply in_or_app; auto. }
  unfold state_of in Hst. unfold clsof in V1. destruct (nth_error s (length sa)) as [x|]; [|discriminate]. exists x. cbn in *. split; auto. split; congruence.
Qed.
Lemma clean_detached fuel h (s : state) rs : run fuel [] h = Ok (s, rs) -> clean_destroys h rs -> detached_all h s.
Proof.
  intros H HC ha n hb E. destruct (HC ha n hb E) as (Hj & cl & Hcr & Hd). split; auto. exists cl. destruct (created_view _ _ _ _ _ _ H Hcr) as (V & _). split; auto.
  destruct cl; cbn; try contradiction; auto.
Qed.
End Rank.
