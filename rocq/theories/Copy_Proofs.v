(** Proofs about copied policies. *)
From Coq Require Import List Arith Bool Lia.
From Verif Require Import Base Trace Copy_Model Copy_Spec.
Import ListNotations.

Section Generic.
Context {S I O : Type}.
Context (pinit : S) (pstep : S -> I -> res (S * list O)) (pcopy : S -> S) (passign : S -> S -> S).
Context (is_drop : O -> bool).
Notation step := (step pinit pstep pcopy passign is_drop).
Notation run := (run pinit pstep pcopy passign is_drop).
Notation run_policy := (run_policy pstep).
Notation op := (op I).
Notation object := (object S).
Notation calls := (list (target * O)).

Lemma run_policy_snoc s h x :
  run_policy s (h ++ [x]) = (do '(s1, o1) <- run_policy s h; do '(s2, o2) <- pstep s1 x; Ok (s2, o1 ++ o2)).
Proof.
  revert s. induction h as [|y h IH]; intros s; cbn.
  - destruct (pstep s x) as [[s2 o2]|]; cbn; [now rewrite app_nil_r|reflexivity].
  - destruct (pstep s y) as [[s1 o1]|]; cbn; [|reflexivity]. rewrite IH. destruct (run_policy s1 h) as [[s2 o2]|]; cbn; [|reflexivity].
    destruct (pstep s2 x) as [[s3 o3]|]; cbn; [now rewrite app_assoc|reflexivity].
Qed.
Lemma run_policy_app s h1 h2 :
  run_policy s (h1 ++ h2) = (do '(s1, o1) <- run_policy s h1; do '(s2, o2) <- run_policy s1 h2; Ok (s2, o1 ++ o2)).
Proof.
  revert s. induction h1 as [|y h IH]; intros s; cbn.
  - destruct (run_policy s h2) as [[s2 o2]|]; reflexivity.
  - destruct (pstep s y) as [[s1 o1]|]; cbn; [|reflexivity]. rewrite IH. destruct (run_policy s1 h) as [[s2 o2]|]; cbn; [|reflexivity].
    destruct (run_policy s2 h2) as [[s3 o3]|]; cbn; [now rewrite app_assoc|reflexivity].
Qed.

Lemma run_snoc w h o :
  run w (h ++ [o]) = (do '(w1, c1) <- run w h; do '(w2, c2) <- step w1 o; Ok (w2, c1 ++ c2)).
Proof.
  revert w. induction h as [|y h IH]; intros w; cbn [app Copy_Model.run].
  - cbn [bind]. destruct (step w o) as [[w2 c2]|]; cbn; [now rewrite app_nil_r|reflexivity].
  - destruct (step w y) as [[w1 c1]|]; cbn [bind]; [|reflexivity]. rewrite IH. destruct (run w1 h) as [[w2 c2]|]; cbn [bind]; [|reflexivity].
    destruct (step w2 o) as [[w3 c3]|]; cbn [bind]; [now rewrite app_assoc|reflexivity].
Qed.
Lemma run_app w h1 h2 :
  run w (h1 ++ h2) = (do '(w1, c1) <- run w h1; do '(w2, c2) <- run w1 h2; Ok (w2, c1 ++ c2)).
Proof.
  revert w. induction h1 as [|y h IH]; intros w; cbn [app Copy_Model.run].
  - cbn [bind]. destruct (run w h2) as [[w2 c2]|]; reflexivity.
  - destruct (step w y) as [[w1 c1]|]; cbn [bind]; [|reflexivity]. rewrite IH. destruct (run w1 h) as [[w2 c2]|]; cbn [bind]; [|reflexivity].
    destruct (run w2 h2) as [[w3 c3]|]; cbn [bind]; [now rewrite app_assoc|reflexivity].
Qed.

Lemma known_snoc (h : list op) o : known (h ++ [o]) = note (known h) o.
Proof. unfold known. now rewrite fold_left_app. Qed.

Lemma allowed_prefix (h : list op) h2 : allowed (h ++ h2) -> allowed h.
Proof. intros H h1 o h3 ->. apply (H h1 o (h3 ++ h2)). now rewrite <- app_assoc. Qed.
Lemma copied_when_prefix P (h : list op) h2 : copied_when P (h ++ h2) -> copied_when P h.
Proof. intros H h1 o h3 k f -> Ho Hf. apply (H h1 o (h3 ++ h2) k f); auto. now rewrite <- app_assoc. Qed.

Lemma sets_for_app k (a b : calls) : sets_for k (a ++ b) = sets_for k a ++ sets_for k b.
Proof. apply flat_map_app. Qed.
Lemma drops_for_app c (a b : calls) : drops_for c (a ++ b) = drops_for c a ++ drops_for c b.
Proof. apply flat_map_app. Qed.

Lemma sets_for_deliver k p cbs (outs : list O) :
  sets_for k (flat_map (deliver is_drop p cbs) outs) =
  if Nat.eqb p k then filter (fun o => negb (is_drop o)) outs else [].
Proof.
  induction outs as [|o outs IH]; [now destruct (Nat.eqb p k)|]. cbn [flat_map]. rewrite sets_for_app, IH. unfold deliver at 1.
  cbn [filter]. destruct (is_drop o); cbn [negb].
  - replace (sets_for k (map _ cbs)) with (@nil O); [reflexivity|]. clear. induction cbs as [|c cbs IH]; [reflexivity|exact IH].
  - cbn. now destruct (Nat.eqb p k).
Qed.
Lemma drops_for_deliver c p cbs (outs : list O) :
  drops_for c (flat_map (deliver is_drop p cbs) outs) =
  flat_map (fun o => if is_drop o then repeat o (count_occ Nat.eq_dec cbs c) else []) outs.
Proof.
  induction outs as [|o outs IH]; [reflexivity|]. cbn [flat_map]. rewrite drops_for_app, IH. f_equal. unfold deliver.
  destruct (is_drop o); [|reflexivity]. clear. induction cbs as [|c' cbs IH]; [reflexivity|]. cbn [map count_occ].
  unfold drops_for in *. cbn [flat_map fst snd]. rewrite IH. destruct (Nat.eq_dec c' c) as [->|Hn].
  - now rewrite Nat.eqb_refl.
  - now apply Nat.eqb_neq in Hn as ->.
Qed.
Lemma flat_map_never (outs : list O) : flat_map (fun o => if is_drop o then repeat o 0 else []) outs = [].
Proof. induction outs as [|o l IH]; [reflexivity|]. cbn [flat_map filter]. rewrite IH. now destruct (is_drop o). Qed.
Lemma flat_map_once (outs : list O) : flat_map (fun o => if is_drop o then repeat o 1 else []) outs = filter is_drop outs.
Proof. induction outs as [|o l IH]; [reflexivity|]. cbn [flat_map filter]. rewrite IH. now destruct (is_drop o). Qed.

(** ** What is true of every object *)
Definition describes (f : facts I) (b : object) (k : nat) (cs : calls) : Prop :=
  (is_sync f = true -> parent b = Some k) /\
  exists s1 o1 o2, run_policy pinit (inherited f) = Ok (s1, o1) /\ run_policy s1 (own f) = Ok (content b, o2) /\
    sets_for k cs = filter (fun o => negb (is_drop o)) o2.
Record Good (h : list op) (w : list object) (cs : calls) : Prop := mkGood {
  go_length : length w = length (known h);
  go_objects : forall k f b, nth_error (known h) k = Some f -> nth_error w k = Some b -> describes f b k cs;
  go_fresh : forall k, length w <= k -> sets_for k cs = [] }.

Definition faithful (l : list I) : Prop := forall s o, run_policy pinit l = Ok (s, o) -> pcopy s = s.

Lemma describes_lineage f b k cs :
  describes f b k cs -> exists o, run_policy pinit (lineage f) = Ok (content b, o).
Proof.
  intros (_ & s1 & o1 & o2 & H1 & H2 & _). unfold lineage. rewrite run_policy_app, H1. cbn [bind]. rewrite H2. cbn [bind]. eauto.
Qed.

Lemma describes_calls f b b' k cs cs' :
  describes f b k cs -> parent b' = parent b -> content b' = content b -> sets_for k cs' = [] -> describes f b' k (cs ++ cs').
Proof.
  intros (A & s1 & o1 & o2 & H1 & H2 & H3) Hp Hc Hs. split; [rewrite Hp; auto|]. exists s1, o1, o2.
  rewrite Hc, sets_for_app, Hs, app_nil_r. auto.
Qed.

Lemma add_object h w cs o f b :
  Good h w cs -> note (known h) o = known h ++ [f] -> describes f b (length w) cs -> Good (h ++ [o]) (w ++ [b]) (cs ++ []).
Proof.
  intros [GL GO GF] Hn HD. rewrite app_nil_r. constructor; rewrite ?known_snoc, ?Hn.
  - rewrite !app_length, GL. reflexivity.
  - intros k f' b' Hf Hb. destruct (Nat.lt_ge_cases k (length w)) as [Hk|Hk].
    + rewrite nth_error_app1 in Hf by lia. rewrite nth_error_app1 in Hb by lia. eauto.
    + assert (k = length w) as ->.
      { apply Nat.le_antisymm; auto. assert (k < length (w ++ [b])) by (apply nth_error_Some; congruence). rewrite app_length in *. cbn in *. lia. }
      rewrite nth_error_app2 in Hb by lia. rewrite nth_error_app2 in Hf by lia. rewrite GL, Nat.sub_diag in Hf. rewrite Nat.sub_diag in Hb.
      cbn in Hf, Hb. injection Hf as <-. injection Hb as <-. exact HD.
  - intros k Hk. rewrite app_length in Hk. cbn in Hk. apply GF. lia.
Qed.

Lemma nth_error_upd {A} k j (x : A) l : nth_error (upd k x l) j = if Nat.eqb k j then (if j <? length l then Some x else None) else nth_error l j.
Proof.
  revert k j. induction l as [|y l IH]; intros [|k] [|j]; try reflexivity; cbn [upd nth_error].
  - destruct (Nat.eqb_spec (Datatypes.S k) (Datatypes.S j)) as [E|E]; reflexivity.
  - rewrite IH. reflexivity.
Qed.

Lemma step_Good h w cs o w' cs' :
  Good h w cs -> allowed (h ++ [o]) -> copied_when faithful (h ++ [o]) -> step w o = Ok (w', cs') -> Good (h ++ [o]) w' (cs ++ cs').
Proof.
  intros HG HA HC Hs. pose proof HG as [GL GO GF]. specialize (HA h o [] eq_refl).
  assert (Hcopy : forall k f b, o = CopyPolicy k \/ o = Construct k -> nth_error (known h) k = Some f -> nth_error w k = Some b ->
            forall p sy, (sy = true -> p = Some (length w)) -> describes (mkFacts (lineage f) [] sy) (mkObject p [] (pcopy (content b))) (length w) cs).
  { intros k f b Ho Hf Hb p sy Hp. destruct (describes_lineage f b k cs (GO k f b Hf Hb)) as (o1 & H1).
    split; [exact Hp|]. exists (content b), o1, []. cbn [inherited own content Copy_Spec.run_policy].
    rewrite (HC h o [] k f eq_refl Ho Hf _ _ H1). split; [exact H1|]. split; [reflexivity|]. apply GF. auto. }
  assert (Hget : forall k b, nth_error w k = Some b -> exists f, nth_error (known h) k = Some f).
  { intros k b Hb. destruct (nth_error (known h) k) as [f|] eqn:Hf; [eauto|]. apply nth_error_None in Hf.
    assert (k < length w) by (apply nth_error_Some; congruence). lia. }
  destruct o as [|k|k|k j|k c|k x]; cbn [Copy_Model.step] in Hs.
  - injection Hs as <- <-. apply (add_object h w cs _ (mkFacts [] [] false)); auto. split; [discriminate|].
    exists pinit, [], []. cbn. split; [reflexivity|]. split; [reflexivity|]. apply GF. auto.
  - destruct (nth_error w k) as [b|] eqn:Hb; [|discriminate]. injection Hs as <- <-. destruct (Hget k b Hb) as [f Hf].
    apply (add_object h w cs _ (mkFacts (lineage f) [] false)); auto.
    + cbn [note]. now rewrite Hf.
    + eapply Hcopy; eauto. discriminate.
  - destruct (nth_error w k) as [b|] eqn:Hb; [|discriminate]. injection Hs as <- <-. destruct (Hget k b Hb) as [f Hf].
    apply (add_object h w cs _ (mkFacts (lineage f) [] true)); auto.
    + cbn [note]. now rewrite Hf.
    + eapply Hcopy; eauto.
  - contradiction.
  - destruct (nth_error w k) as [b|] eqn:Hb; [|discriminate]. injection Hs as <- <-. constructor; rewrite ?known_snoc; cbn [note].
    + now rewrite upd_length.
    + intros j f b' Hf Hb'. rewrite nth_error_upd in Hb'. destruct (Nat.eqb_spec k j) as [<-|Hkj].
      * destruct (k <? length w); [|discriminate]. injection Hb' as <-. eapply describes_calls; eauto; reflexivity.
      * eapply describes_calls; eauto; reflexivity.
    + intros j Hj. rewrite upd_length in Hj. rewrite app_nil_r. auto.
  - destruct (nth_error w k) as [b|] eqn:Hb; [|discriminate]. destruct (Hget k b Hb) as [f Hf].
    destruct HA as (f' & Hf' & Hsync). rewrite Hf in Hf'. injection Hf' as <-.
    pose proof (GO k f b Hf Hb) as (Hp & s1 & o1 & o2 & H1 & H2 & H3). rewrite (Hp Hsync) in Hs.
    destruct (pstep (content b) x) as [[s outs]|] eqn:Hx; [|discriminate]. cbn [bind] in Hs. injection Hs as <- <-.
    assert (Hk : k < length w) by (apply nth_error_Some; congruence).
    constructor; rewrite ?known_snoc; cbn [note]; rewrite ?Hf.
    + now rewrite !upd_length.
    + intros j g b' Hg Hb'. rewrite nth_error_upd in Hb'. rewrite nth_error_upd in Hg. destruct (Nat.eqb_spec k j) as [<-|Hkj].
      * assert (Hk' : k < length (known h)) by lia. apply Nat.ltb_lt in Hk, Hk'. rewrite Hk in Hb'. rewrite Hk' in Hg.
        injection Hb' as <-. injection Hg as <-. split; [auto|]. cbn [inherited own content is_sync]. exists s1, o1, (o2 ++ outs).
        split; [exact H1|]. split; [now rewrite run_policy_snoc, H2; cbn [bind]; rewrite Hx|].
        rewrite sets_for_app, sets_for_deliver, Nat.eqb_refl, H3. now rewrite filter_app.
      * eapply describes_calls; eauto. rewrite sets_for_deliver. apply Nat.eqb_neq in Hkj as ->. reflexivity.
    + intros j Hj. rewrite upd_length in Hj. rewrite sets_for_app, sets_for_deliver, (GF j Hj).
      destruct (Nat.eqb_spec k j); [lia|reflexivity].
Qed.

Lemma run_Good h w cs :
  allowed h -> copied_when faithful h -> run [] h = Ok (w, cs) -> Good h w cs.
Proof.
  revert w cs. induction h as [|o h IH] using rev_ind; intros w cs HA HC Hr.
  - cbn in Hr. injection Hr as <- <-. constructor; auto. intros [|k] f b H; discriminate H.
  - rewrite run_snoc in Hr. destruct (run [] h) as [[w1 c1]|]; [|discriminate]. cbn [bind] in Hr.
    destruct (step w1 o) as [[w2 c2]|] eqn:Hs; [|discriminate]. cbn [bind] in Hr. injection Hr as <- <-.
    apply step_Good with w1; auto. apply IH; eauto using allowed_prefix, copied_when_prefix.
Qed.

(** ** Nothing fails *)
Lemma known_good (P : I -> Prop) (h : list op) :
  adding P h -> forall k f, nth_error (known h) k = Some f -> Forall P (lineage f).
Proof.
  induction h as [|o h IH] using rev_ind; intros HP k f.
  - destruct k; discriminate.
  - assert (HP' : adding P h) by (intros k' x Hx; apply (HP k' x); apply in_or_app; auto). specialize (IH HP').
    assert (Hadd : forall l g, (forall k f, nth_error l k = Some f -> Forall P (lineage f)) -> Forall P (lineage g) ->
              nth_error (l ++ [g]) k = Some f -> Forall P (lineage f)).
    { intros l g Hl Hg H. destruct (Nat.lt_ge_cases k (length l)) as [Hk|Hk].
      - rewrite nth_error_app1 in H by auto. eauto.
      - rewrite nth_error_app2 in H by auto. destruct (k - length l) as [|[|m]]; cbn in H; try discriminate. now injection H as <-. }
    rewrite known_snoc. destruct o as [|j|j|j j'|j c|j x]; cbn [note]; eauto.
    + apply Hadd; auto. constructor.
    + destruct (nth_error (known h) j) as [g|] eqn:Hg; eauto. apply Hadd; auto. unfold lineage at 1. cbn. rewrite app_nil_r. eauto.
    + destruct (nth_error (known h) j) as [g|] eqn:Hg; eauto. apply Hadd; auto. unfold lineage at 1. cbn. rewrite app_nil_r. eauto.
    + destruct (nth_error (known h) j) as [g|] eqn:Hg; eauto. rewrite nth_error_upd. destruct (Nat.eqb_spec j k) as [->|]; eauto.
      destruct (k <? length (known h)); [|discriminate]. intros H. injection H as <-. unfold lineage. cbn [inherited own].
      rewrite app_assoc. apply Forall_app. split; [now apply (IH k g)|]. constructor; [|constructor]. apply (HP k). apply in_or_app. cbn; auto.
Qed.

Lemma run_ok (P : I -> Prop) h :
  (forall l, Forall P l -> exists s o, run_policy pinit l = Ok (s, o)) ->
  allowed h -> copied_when faithful h -> adding P h -> exists w cs, run [] h = Ok (w, cs).
Proof.
  intros Hok. induction h as [|o h IH] using rev_ind; intros HA HC HP; [eexists _, _; reflexivity|].
  assert (HP' : adding P h) by (intros k' x Hx; apply (HP k' x); apply in_or_app; auto).
  destruct IH as (w & cs & Hr); eauto using allowed_prefix, copied_when_prefix.
  assert (HG : Good h w cs) by (apply run_Good; eauto using allowed_prefix, copied_when_prefix).
  rewrite run_snoc, Hr. cbn [bind]. destruct HG as [GL GO GF]. specialize (HA h o [] eq_refl).
  assert (Hget : forall k, k < length (known h) -> exists b, nth_error w k = Some b).
  { intros k Hk. destruct (nth_error w k) eqn:E; [eauto|]. apply nth_error_None in E. lia. }
  destruct o as [|k|k|k j|k c|k x]; cbn [Copy_Model.step].
  - cbn; eauto.
  - destruct (Hget k HA) as [b ->]. cbn; eauto.
  - destruct (Hget k HA) as [b ->]. cbn; eauto.
  - contradiction.
  - destruct (Hget k HA) as [b ->]. cbn; eauto.
  - destruct HA as (f & Hf & Hs). destruct (Hget k) as [b Hb]; [apply nth_error_Some; congruence|]. rewrite Hb.
    pose proof (GO k f b Hf Hb) as HD. destruct HD as [Hp HD']. rewrite (Hp Hs).
    destruct (describes_lineage f b k cs (conj Hp HD')) as (o1 & H1).
    destruct (Hok (lineage f ++ [x])) as (s' & o' & H2).
    { apply Forall_app. split; [eapply known_good; eauto|]. constructor; [|constructor]. apply (HP k). apply in_or_app; cbn; auto. }
    rewrite run_policy_snoc, H1 in H2. cbn [bind] in H2. destruct (pstep (content b) x) as [[s2 o2]|]; [|discriminate]. cbn; eauto.
Qed.

(** ** Drop callbacks *)
Definition unregistered (c : nat) (w : list object) : Prop :=
  forall k b, nth_error w k = Some b -> count_occ Nat.eq_dec (drop_callbacks b) c = 0.

Lemma unregistered_app c w b : unregistered c w -> count_occ Nat.eq_dec (drop_callbacks b) c = 0 -> unregistered c (w ++ [b]).
Proof.
  intros Hw Hb k b' H. destruct (Nat.lt_ge_cases k (length w)) as [Hk|Hk].
  - rewrite nth_error_app1 in H by auto. eauto.
  - rewrite nth_error_app2 in H by auto. destruct (k - length w) as [|[|m]]; cbn in H; try discriminate. now injection H as <-.
Qed.

Lemma step_unregistered c w o w' cs :
  (forall k, o <> RegisterDrop k c) -> unregistered c w -> step w o = Ok (w', cs) -> unregistered c w' /\ drops_for c cs = [].
Proof.
  intros Hn Hu Hs. destruct o as [|k|k|k j|k c'|k x]; cbn [Copy_Model.step] in Hs.
  - injection Hs as <- <-. split; [|reflexivity]. now apply unregistered_app.
  - destruct (nth_error w k) as [b|]; [|discriminate]. injection Hs as <- <-. split; [|reflexivity]. now apply unregistered_app.
  - destruct (nth_error w k) as [b|]; [|discriminate]. injection Hs as <- <-. split; [|reflexivity]. now apply unregistered_app.
  - destruct (nth_error w k) as [a|] eqn:Ha; [|discriminate]. destruct (nth_error w j) as [b|]; [|discriminate]. injection Hs as <- <-.
    split; [|reflexivity]. intros i b' H. rewrite nth_error_upd in H. destruct (Nat.eqb_spec k i) as [->|]; eauto.
    destruct (i <? length w); [|discriminate]. injection H as <-. cbn. eauto.
  - destruct (nth_error w k) as [b|] eqn:Hb; [|discriminate]. injection Hs as <- <-. split; [|reflexivity]. intros i b' H.
    rewrite nth_error_upd in H. destruct (Nat.eqb_spec k i) as [->|]; eauto. destruct (i <? length w); [|discriminate]. injection H as <-.
    cbn [drop_callbacks]. rewrite count_occ_app, (Hu i b Hb). cbn. destruct (Nat.eq_dec c' c) as [->|]; [|reflexivity]. now elim (Hn i).
  - destruct (nth_error w k) as [b|] eqn:Hb; [|discriminate]. destruct (parent b) as [p|]; [|discriminate].
    destruct (pstep (content b) x) as [[s outs]|]; [|discriminate]. cbn [bind] in Hs. injection Hs as <- <-. split.
    + intros i b' H. rewrite nth_error_upd in H. destruct (Nat.eqb_spec k i) as [->|]; eauto.
      destruct (i <? length w); [|discriminate]. injection H as <-. cbn. eauto.
    + rewrite drops_for_deliver, (Hu k b Hb). apply flat_map_never.
Qed.

Lemma run_unregistered c h w w' cs :
  (forall k, ~ In (RegisterDrop k c) h) -> unregistered c w -> run w h = Ok (w', cs) -> unregistered c w' /\ drops_for c cs = [].
Proof.
  revert w cs. induction h as [|o h IH]; intros w cs Hn Hu Hr; cbn [Copy_Model.run] in Hr.
  - injection Hr as <- <-. auto.
  - destruct (step w o) as [[w1 c1]|] eqn:Hs; [|discriminate]. cbn [bind] in Hr. destruct (run w1 h) as [[w2 c2]|] eqn:Hr2; [|discriminate].
    cbn [bind] in Hr. injection Hr as <- <-.
    destruct (step_unregistered c w o w1 c1) as [A1 A2]; auto. { intros k ->. apply (Hn k). now left. }
    destruct (IH w1 c2) as [B1 B2]; auto. { intros k H. apply (Hn k). now right. }
    split; auto. now rewrite drops_for_app, A2, B2.
Qed.

(** [c] is registered on object [k] only, once *)
Definition registered_at (c k : nat) (w : list object) : Prop :=
  (exists b, nth_error w k = Some b /\ count_occ Nat.eq_dec (drop_callbacks b) c = 1) /\
  forall j b, j <> k -> nth_error w j = Some b -> count_occ Nat.eq_dec (drop_callbacks b) c = 0.

Lemma registered_app c k w b :
  registered_at c k w -> count_occ Nat.eq_dec (drop_callbacks b) c = 0 -> registered_at c k (w ++ [b]).
Proof.
  intros [(b0 & H1 & H2) H3] Hb. assert (Hk : k < length w) by (apply nth_error_Some; congruence). split.
  - exists b0. rewrite nth_error_app1 by auto. auto.
  - intros j b' Hj H. destruct (Nat.lt_ge_cases j (length w)) as [Hl|Hl].
    + rewrite nth_error_app1 in H by auto. eauto.
    + rewrite nth_error_app2 in H by auto. destruct (j - length w) as [|[|m]]; cbn in H; try discriminate. now injection H as <-.
Qed.

Lemma registered_upd c k w j b b' :
  registered_at c k w -> nth_error w j = Some b ->
  count_occ Nat.eq_dec (drop_callbacks b') c = count_occ Nat.eq_dec (drop_callbacks b) c -> registered_at c k (upd j b' w).
Proof.
  intros [(b0 & H1 & H2) H3] Hj Hc. assert (Hk : k < length w) by (apply nth_error_Some; congruence). split.
  - rewrite nth_error_upd. destruct (Nat.eqb_spec j k) as [->|].
    + apply Nat.ltb_lt in Hk as ->. exists b'. split; auto. rewrite H1 in Hj. injection Hj as ->. congruence.
    + eauto.
  - intros i b1 Hi. rewrite nth_error_upd. destruct (Nat.eqb_spec j i) as [->|]; [|eauto].
    destruct (i <? length w); [|discriminate]. intros H. injection H as <-. rewrite Hc. eauto.
Qed.

Lemma run_registered c k h w w' cs b :
  (forall j, ~ In (RegisterDrop j c) h) -> no_assign h -> registered_at c k w -> nth_error w k = Some b -> run w h = Ok (w', cs) ->
  registered_at c k w' /\
  exists b' o, nth_error w' k = Some b' /\ run_policy (content b) (added_to k h) = Ok (content b', o) /\ drops_for c cs = filter is_drop o.
Proof.
  revert w w' cs b. induction h as [|o h IH]; intros w w' cs b Hn Ha Hu Hb Hr; cbn [Copy_Model.run] in Hr.
  - injection Hr as <- <-. split; auto. exists b, []. auto.
  - destruct (step w o) as [[w1 c1]|] eqn:Hs; [|discriminate]. cbn [bind] in Hr. destruct (run w1 h) as [[w2 c2]|] eqn:Hr2; [|discriminate].
    cbn [bind] in Hr. injection Hr as <- <-.
    assert (Hk : k < length w) by (apply nth_error_Some; congruence).
    assert (Hn' : forall j, ~ In (RegisterDrop j c) h) by (intros j H; apply (Hn j); now right).
    assert (Ha' : no_assign h) by (intros j j' H; apply (Ha j j'); now right).
    assert (Hquiet : forall b1, registered_at c k w1 -> nth_error w1 k = Some b1 -> content b1 = content b -> c1 = [] ->
              added_to k (o :: h) = added_to k h -> registered_at c k w2 /\
              exists b' o', nth_error w2 k = Some b' /\ run_policy (content b) (added_to k (o :: h)) = Ok (content b', o') /\
                drops_for c (c1 ++ c2) = filter is_drop o').
    { intros b1 R1 R2 R3 -> ->. destruct (IH w1 w2 c2 b1 Hn' Ha' R1 R2 Hr2) as (A & b' & o' & B1 & B2 & B3).
      split; auto. exists b', o'. rewrite <- R3. auto. }
    destruct o as [|j|j|j j'|j c'|j x]; cbn [Copy_Model.step] in Hs.
    + injection Hs as <- <-. apply (Hquiet b); auto. { now apply registered_app. } now rewrite nth_error_app1.
    + destruct (nth_error w j) as [b1|]; [|discriminate]. injection Hs as <- <-. apply (Hquiet b); auto. { now apply registered_app. } now rewrite nth_error_app1.
    + destruct (nth_error w j) as [b1|]; [|discriminate]. injection Hs as <- <-. apply (Hquiet b); auto. { now apply registered_app. } now rewrite nth_error_app1.
    + elim (Ha j j'). now left.
    + destruct (nth_error w j) as [b1|] eqn:Hb1; [|discriminate]. injection Hs as <- <-.
      assert (Hc : c' <> c) by (intros ->; apply (Hn j); now left).
      assert (HR : registered_at c k (upd j (mkObject (parent b1) (drop_callbacks b1 ++ [c']) (content b1)) w)).
      { eapply registered_upd; eauto. cbn. rewrite count_occ_app. cbn. destruct (Nat.eq_dec c' c); [contradiction|lia]. }
      destruct (Nat.eqb_spec j k) as [->|Hjk].
      * apply (Hquiet (mkObject (parent b1) (drop_callbacks b1 ++ [c']) (content b1))); auto.
        { rewrite nth_error_upd, Nat.eqb_refl. apply Nat.ltb_lt in Hk as ->. reflexivity. }
        rewrite Hb in Hb1. injection Hb1 as ->. reflexivity.
      * apply (Hquiet b); auto. rewrite nth_error_upd. apply Nat.eqb_neq in Hjk as ->. exact Hb.
    + destruct (nth_error w j) as [b1|] eqn:Hb1; [|discriminate]. destruct (parent b1) as [p|]; [|discriminate].
      destruct (pstep (content b1) x) as [[s outs]|] eqn:Hx; [|discriminate]. cbn [bind] in Hs. injection Hs as <- <-.
      assert (HR : registered_at c k (upd j (mkObject (Some p) (drop_callbacks b1) s) w)) by (eapply registered_upd; eauto).
      destruct (Nat.eqb_spec j k) as [->|Hjk].
      * rewrite Hb in Hb1. injection Hb1 as ->.
        destruct (IH _ w2 c2 (mkObject (Some p) (drop_callbacks b1) s) Hn' Ha' HR) as (A & b' & o' & B1 & B2 & B3); auto.
        { rewrite nth_error_upd, Nat.eqb_refl. apply Nat.ltb_lt in Hk as ->. reflexivity. }
        split; auto. exists b', (outs ++ o'). split; auto. cbn [content] in B2. split.
        { unfold added_to. cbn [flat_map]. rewrite Nat.eqb_refl. cbn [app Copy_Spec.run_policy]. rewrite Hx. cbn [bind]. fold (added_to k h). now rewrite B2. }
        rewrite drops_for_app, filter_app, B3, drops_for_deliver. f_equal.
        destruct Hu as [(b0 & U1 & U2) _]. rewrite Hb in U1. injection U1 as <-. rewrite U2. apply flat_map_once.
      * destruct (IH _ w2 c2 b Hn' Ha' HR) as (A & b' & o' & B1 & B2 & B3); auto.
        { rewrite nth_error_upd. apply Nat.eqb_neq in Hjk as ->. exact Hb. }
        split; auto. exists b', o'. split; auto. split.
        { unfold added_to in *. cbn [flat_map]. apply Nat.eqb_neq in Hjk as ->. exact B2. }
        rewrite drops_for_app, B3, drops_for_deliver. destruct Hu as [_ U]. rewrite (U j b1 Hjk Hb1). now rewrite flat_map_never.
Qed.

Lemma unregistered_registered c k w b :
  unregistered c w -> nth_error w k = Some b ->
  registered_at c k (upd k (mkObject (parent b) (drop_callbacks b ++ [c]) (content b)) w).
Proof.
  intros Hu Hb. assert (Hk : k < length w) by (apply nth_error_Some; congruence). split.
  - rewrite nth_error_upd, Nat.eqb_refl. apply Nat.ltb_lt in Hk as ->. eexists. split; [reflexivity|]. cbn.
    rewrite count_occ_app, (Hu k b Hb). cbn. destruct (Nat.eq_dec c c); [reflexivity|contradiction].
  - intros j b' Hj. rewrite nth_error_upd. assert (Hj' : k <> j) by auto. apply Nat.eqb_neq in Hj' as ->. eauto.
Qed.

Lemma drop_calls c k h1 h2 w cs :
  registered_once c h1 h2 -> no_assign (h1 ++ h2) -> run [] (h1 ++ RegisterDrop k c :: h2) = Ok (w, cs) ->
  exists w1 c1 b o b', run [] h1 = Ok (w1, c1) /\ nth_error w1 k = Some b /\ nth_error w k = Some b' /\
    run_policy (content b) (added_to k h2) = Ok (content b', o) /\ drops_for c cs = filter is_drop o.
Proof.
  intros HR HN. rewrite run_app. destruct (run [] h1) as [[w1 c1]|] eqn:H1; [|discriminate]. cbn [bind Copy_Model.run Copy_Model.step].
  destruct (nth_error w1 k) as [b|] eqn:Hb; [|discriminate]. cbn [bind].
  destruct (run _ h2) as [[w2 c2]|] eqn:H2; [|discriminate]. cbn [bind app]. intros H. injection H as <- <-.
  destruct (run_unregistered c h1 [] w1 c1) as [U1 U2]; auto. { intros j Hj. apply (HR j). apply in_or_app; auto. } { intros [|j] b' H; discriminate. }
  assert (Hk : k < length w1) by (apply nth_error_Some; congruence).
  assert (HRR := fun A B C D => run_registered c k h2 _ w2 c2 (mkObject (parent b) (drop_callbacks b ++ [c]) (content b)) A B C D H2).
  destruct HRR as (_ & b' & o & B1 & B2 & B3).
  - intros j Hj. apply (HR j). apply in_or_app; auto.
  - intros j j' Hj. apply (HN j j'). apply in_or_app; auto.
  - now apply unregistered_registered.
  - rewrite nth_error_upd, Nat.eqb_refl. apply Nat.ltb_lt in Hk as ->. reflexivity.
  - exists w1, c1, b, o, b'. rewrite drops_for_app, U2. auto.
Qed.
(** ** Assignment *)
Lemma adds_run xs : forall w k b p s outs,
  nth_error w k = Some b -> parent b = Some p -> run_policy (content b) xs = Ok (s, outs) ->
  run w (map (Add k) xs) = Ok (upd k (mkObject (Some p) (drop_callbacks b) s) w, flat_map (deliver is_drop p (drop_callbacks b)) outs).
Proof.
  induction xs as [|x xs IH]; intros w k b p s outs Hb Hp Hr; cbn in Hr.
  - injection Hr as <- <-. cbn. rewrite <- Hp. destruct b as [pb db cb]; cbn. rewrite <- (nth_error_nth w k (mkObject pb db cb) Hb) at 1. now rewrite upd_nth_id.
  - destruct (pstep (content b) x) as [[s1 o1]|] eqn:Hs; [|discriminate]. cbn [bind] in Hr.
    destruct (run_policy s1 xs) as [[s2 o2]|] eqn:Hr2; [|discriminate]. cbn in Hr. injection Hr as <- <-.
    cbn [map Copy_Model.run Copy_Model.step]. rewrite Hb, Hp, Hs. cbn [bind].
    assert (Hk : k < length w) by (apply nth_error_Some; congruence).
    rewrite (IH (upd k (mkObject (Some p) (drop_callbacks b) s1) w) k (mkObject (Some p) (drop_callbacks b) s1) p s2 o2); auto.
    + cbn [bind drop_callbacks]. now rewrite upd_upd, flat_map_app.
    + rewrite nth_error_upd, Nat.eqb_refl. now apply Nat.ltb_lt in Hk as ->.
Qed.

Lemma assigned_run w k j a b p xs s outs :
  nth_error w k = Some a -> nth_error w j = Some b -> parent b = Some p ->
  run_policy (passign (content a) (content b)) xs = Ok (s, outs) ->
  run w (Assign k j :: map (Add k) xs) =
    Ok (upd k (mkObject (Some p) (drop_callbacks a) s) w, flat_map (deliver is_drop p (drop_callbacks a)) outs).
Proof.
  intros Ha Hb Hp Hr. cbn [Copy_Model.run Copy_Model.step]. rewrite Ha, Hb. cbn [bind].
  assert (Hk : k < length w) by (apply nth_error_Some; congruence).
  rewrite (adds_run xs _ k (mkObject (parent b) (drop_callbacks a) (passign (content a) (content b))) p s outs); auto.
  - cbn [bind drop_callbacks app]. now rewrite upd_upd.
  - rewrite nth_error_upd, Nat.eqb_refl. now apply Nat.ltb_lt in Hk as ->.
Qed.
End Generic.
