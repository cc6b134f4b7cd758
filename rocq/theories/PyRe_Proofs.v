(** Python synchronizers connected again: the former filters have no influence. *)
From Coq Require Import List ZArith Bool Lia Permutation.
From Verif Require Import Base Py_Model PyRe_Model PySync_Spec PySync_Proofs PySync_Runs PySync_Policies PyRe_Spec.
Import ListNotations.
Open Scope Z_scope.

Section Proofs.
Context {M : Type}.
Notation dict := (list (Z * M)).
Variable raises : list M -> bool.

(** ** One call from a former filter *)
Lemma trim_some n : 0 <= n -> forall fuel (q : dict), (length q < fuel)%nat -> exists q', trim fuel n q = Some q'.
Proof.
  intros Hn. induction fuel as [|f IH]; intros q Hq; [lia|]. cbn [trim].
  destruct (n <? Z.of_nat (length q)) eqn:E; [|eauto]. destruct q as [|[k m] r]; [cbn in E; apply Z.ltb_lt in E; lia|].
  apply IH. assert (In (min_key k r) (keys ((k, m) :: r))) as Hin.
  { cbn. destruct (min_key_spec r k) as (_ & _ & [->|H]); auto. }
  pose proof (del_length _ _ Hin). lia.
Qed.
Lemma shorten_some n (q : dict) : 0 <= n -> exists q', shorten n q = Some q'.
Proof. intros Hn. apply trim_some; auto. Qed.

Lemma upd_same_length {A} i (x : A) : forall l, length (upd i x l) = length l.
Proof. induction i; intros [|y l]; cbn; auto. Qed.
Lemma map_length_upd {A} (x y : list A) : forall l g, nth_error l g = Some y -> length x = length y -> map (@length A) (upd g x l) = map (@length A) l.
Proof. intros l; induction l as [|z l IH]; intros [|g] E Hl; cbn in *; try discriminate; [injection E as ->; congruence|]. f_equal. eauto. Qed.
Lemma set_old_shape (s : resync M) g i q : map (@length _) (old (set_old s g i q)) = map (@length _) (old s).
Proof.
  unfold set_old. destruct (nth_error (old s) g) as [qs|] eqn:E; cbn; auto. apply map_length_upd with qs; auto. apply upd_same_length.
Qed.
Lemma shape_length (s s' : resync M) : map (@length _) (old s') = map (@length _) (old s) -> length (old s') = length (old s).
Proof. intros H. apply (f_equal (@length _)) in H. now rewrite !map_length in H. Qed.

(** what both policies satisfy *)
Section Generic.
Variable good : list Z -> Prop.
Variable add : pysync M -> op M -> res (pysync M * list (list M) * bool).
Variable stale : resync M -> nat -> nat -> M -> header -> Z -> res (resync M * list (list M) * bool).
Variable hl : bool.
Variable P : header -> Prop.
Notation Step := (rstep add stale).
Notation Run := (rrun add stale).
Definition harmless : Prop := forall s g i m hd now s' out ex, stale s g i m hd now = Ok (s', out, ex) ->
  map (@length _) (old s') = map (@length _) (old s) /\
  (locked (cur s) = true -> cur s' = cur s /\ out = []) /\
  queue_size (cur s') = queue_size (cur s) /\
  (queues (cur s) <> [] -> calm good (queues (cur s)) -> out = [] /\ (cur s' = cur s \/ cur s' = wedged (cur s))).
Definition possible : Prop := forall s g i m hd now qs, locked (cur s) = false -> 0 <= queue_size (cur s) ->
  nth_error (old s) g = Some qs -> (i < length qs)%nat -> P hd ->
  queues (cur s) <> [] -> calm good (queues (cur s)) ->
  exists s' ex, stale s g i m hd now = Ok (s', [], ex) /\ cur s' = cur s.
Definition early : Prop := forall c o s' out ex, add (wedged c) o = Ok (s', out, ex) ->
  s' = wedged c /\ add c o = Ok (c, out, ex) /\ out = [].
Hypothesis Hobeys : obeys raises good add hl.
Hypothesis Hharm : harmless.
Hypothesis Hposs : possible.
Hypothesis Hearly : early.

Lemma rrun_app s h1 h2 : Run s (h1 ++ h2) = do '(s1, r1) <- Run s h1; do '(s2, r2) <- Run s1 h2; Ok (s2, r1 ++ r2).
Proof.
  revert s. induction h1 as [|o h1 IH]; intros s; cbn [app rrun bind].
  - destruct (Run s h2) as [[? ?]|]; reflexivity.
  - destruct (Step s o) as [[[s1 out] ex]|]; cbn [bind]; auto. rewrite IH. destruct (Run s1 h1) as [[s2 r2]|]; cbn [bind]; auto.
    destruct (Run s2 h2) as [[s3 r3]|]; reflexivity.
Qed.
Lemma rrun_length s h s' rs : Run s h = Ok (s', rs) -> length rs = length h.
Proof.
  revert s s' rs. induction h as [|o h IH]; intros s s' rs; cbn [rrun]; [intros E; now injection E as <- <-|].
  destruct (Step s o) as [[[s1 out] ex]|]; cbn [bind]; [|discriminate]. destruct (Run s1 h) as [[s2 r2]|] eqn:E; cbn [bind]; [|discriminate].
  intros E'. injection E' as <- <-. cbn. f_equal. eauto.
Qed.
Lemma run_app s (h1 h2 : list (op M)) : run add s (h1 ++ h2) = do '(s1, r1) <- run add s h1; do '(s2, r2) <- run add s1 h2; Ok (s2, r1 ++ r2).
Proof.
  revert s. induction h1 as [|o h1 IH]; intros s; cbn [app run bind].
  - destruct (run add s h2) as [[? ?]|]; reflexivity.
  - destruct (add s o) as [[[s1 out] ex]|]; cbn [bind]; auto. rewrite IH. destruct (run add s1 h1) as [[s2 r2]|]; cbn [bind]; auto.
    destruct (run add s2 h2) as [[s3 r3]|]; reflexivity.
Qed.
Lemma results_app g (h1 h2 : list (rop M)) : forall rs1 rs2, length rs1 = length h1 -> results g (h1 ++ h2) (rs1 ++ rs2) = results g h1 rs1 ++ results g h2 rs2.
Proof.
  induction h1 as [|o h1 IH]; intros [|r rs1] rs2 Hl; try discriminate; [reflexivity|]. injection Hl as Hl. cbn. destruct o; rewrite ?IH by auto; auto. now destruct (Nat.eqb g0 g).
Qed.
Lemma delivered_app (a b : list (list (list M) * bool)) : delivered (a ++ b) = delivered a ++ delivered b.
Proof. unfold delivered. now rewrite map_app, concat_app. Qed.

Lemma add_shape c o c' out ex : add c o = Ok (c', out, ex) -> calm good (queues c) -> Forall dictok (queues c) ->
  length (queues c') = length (queues c) /\ queue_size c' = queue_size c.
Proof.
  destruct o as [i m hd now]. intros E HC HF. pose proof (Hobeys _ _ _ _ _ _ _ _ E) as H. destruct (time_of hl hd now) as [t|].
  - destruct H as (_ & H). specialize (H HF HC). inversion H as [Hneg|qs1 St No|qs1 vv ms St C G Ev Eg Er|qs1 vv ms St C G Ev Eg Er]; subst; cbn.
    + split; auto. apply upd_same_length.
    + destruct (stores_facts _ _ _ _ _ _ St HF) as (_ & HL & _). auto.
    + destruct (stores_facts _ _ _ _ _ _ St HF) as (_ & HL & _). split; auto. rewrite del_all_length. auto.
    + destruct (stores_facts _ _ _ _ _ _ St HF) as (_ & HL & _). auto.
  - destruct H as (_ & -> & -> & _). auto.
Qed.

Lemma run_unlocked k n h c rs : run add (pysync_init k n) h = Ok (c, rs) -> Forall (fun r => snd r = false) rs -> locked c = false.
Proof.
  revert h c rs. refine (rev_ind _ _ _).
  - intros c rs E _. cbn in E. now injection E as <- <-.
  - intros o h IH c rs E HF. apply run_snoc in E as (c1 & rs1 & out & ex & E1 & E2 & ->). apply Forall_app in HF as [HF1 HF2]. inversion HF2; subst. cbn in *. subst ex.
    specialize (IH _ _ E1 HF1). destruct o as [i m hd now]. destruct (run_sound _ _ _ _ Hobeys _ _ _ _ _ E1) as (D & [_ _ _ _ _ Z6]). destruct (Z6 IH) as (ZC & ZF & _).
    pose proof (Hobeys _ _ _ _ _ _ _ _ E2) as H. destruct (time_of hl hd now) as [t|].
    + destruct H as (_ & H). specialize (H ZF ZC). inversion H; subst; auto.
    + destruct H as (_ & _ & _ & _ & H). now rewrite H.
Qed.

(** ** Simulation from the call of connectInput on *)
Lemma simulation k n s0 (h : list (rop M)) : (0 < k)%nat -> queues (cur s0) = repeat [] k -> queue_size (cur s0) = n ->
  no_connect h -> forall s rs, Run s0 h = Ok (s, rs) ->
  let g := length (old s0) in
  exists c, run add (pysync_init k n) (from_call g h) = Ok (c, results g h rs) /\
    delivered rs = delivered (results g h rs) /\ length (old s) = g /\
    (cur s = c \/ cur s = wedged c).
Proof.
  intros Hk Hq Hn. revert h. refine (rev_ind _ _ _).
  - intros _ s rs E. cbn in E. injection E as <- <-. exists (pysync_init k n). cbn. repeat split; auto.
    unfold pysync_init, wedged. destruct s0 as [[qs sz lk] ol]; cbn in *. subst. destruct lk; auto.
  - intros o h IH Hno s rs E g. rewrite rrun_app in E. destruct (Run s0 h) as [[s1 r1]|] eqn:E1; cbn [bind] in E; [|discriminate].
    assert (no_connect h) as Hno1 by (intros k' Hk'; apply (Hno k'), in_or_app; auto).
    destruct (IH Hno1 _ _ eq_refl) as (c & Ec & Ed & Eo & Hc). fold g in Ec, Ed, Eo.
    cbn [rrun] in E. destruct (Step s1 o) as [[[s2 out] ex]|] eqn:E2; cbn [bind] in E; [|discriminate]. injection E as <- <-.
    pose proof (rrun_length _ _ _ _ E1) as L1.
    rewrite results_app by auto. unfold from_call. rewrite flat_map_app. fold (from_call g h).
    destruct o as [g' i m hd now|k']; [|exfalso; apply (Hno k'), in_or_app; cbn; auto].
    cbn [flat_map results]. rewrite app_nil_r. cbn [rstep] in E2. rewrite Eo in E2.
    destruct (run_sound _ _ _ _ Hobeys _ _ _ _ _ Ec) as (D & [Z1 Z2 _ _ _ Z6]).
    destruct (Nat.eqb g' g) eqn:Eg.
    + destruct (add (cur s1) (Add i m hd now)) as [[[c' out'] ex']|] eqn:Ea; cbn [bind] in E2; [|discriminate]. injection E2 as <- <- <-.
      destruct Hc as [Hc|Hc].
      * exists c'. rewrite run_app, Ec. cbn [bind run]. rewrite <- Hc, Ea. cbn [bind]. rewrite !delivered_app, Ed. repeat split; auto.
      * rewrite Hc in Ea. destruct (Hearly _ _ _ _ _ Ea) as (-> & Ea' & ->). exists c. rewrite run_app, Ec. cbn [bind run]. rewrite Ea'. cbn [bind].
        rewrite !delivered_app, Ed. repeat split; auto.
    + destruct (Hharm _ _ _ _ _ _ _ _ _ E2) as (H1 & H2 & H3 & H4). rewrite !app_nil_r. exists c.
      pose proof (shape_length _ _ H1) as HL. assert (out = [] /\ (cur s2 = c \/ cur s2 = wedged c)) as (-> & Hc2).
      { destruct (locked (cur s1)) eqn:El.
        - destruct (H2 eq_refl) as (-> & ->). auto.
        - destruct Hc as [Hc|Hc]; [|rewrite Hc in El; discriminate]. rewrite Hc in *. destruct (Z6 El) as (ZC & ZF & _). apply H4; auto.
          intros Hnil. rewrite Hnil in Z2. cbn in Z2. lia. }
      rewrite delivered_app, Ed. cbn. rewrite app_nil_r. repeat split; auto. congruence.
Qed.

(** and the run exists if the new filters alone cause no exception *)
Lemma simulation_exists k n s0 (h : list (rop M)) ks c rs : (0 < k)%nat -> 0 <= n -> queues (cur s0) = repeat [] k -> queue_size (cur s0) = n -> locked (cur s0) = false ->
  map (@length _) (old s0) ++ [k] = ks ->
  no_connect h -> proper P ks (length (old s0)) h ->
  run add (pysync_init k n) (from_call (length (old s0)) h) = Ok (c, rs) -> Forall (fun r => snd r = false) rs ->
  exists s rs', Run s0 h = Ok (s, rs') /\ cur s = c /\ map (@length _) (old s) = map (@length _) (old s0).
Proof.
  intros Hk Hn Hq Hsz Hlk Hks. revert h c rs. refine (rev_ind _ _ _).
  - intros c rs _ _ E _. cbn in E. injection E as <- <-. exists s0, []. cbn. repeat split; auto. destruct s0 as [[qs sz lk] ol]; cbn in *. now subst.
  - intros o h IH c rs Hno Hp E HF. assert (no_connect h) as Hno1 by (intros k' Hk'; apply (Hno k'), in_or_app; auto).
    set (g := length (old s0)) in *. assert (proper P ks g h) as Hp1 by (intros g' i m hd now Hin; apply (Hp g' i m hd now), in_or_app; auto).
    assert (from_call g (h ++ [o]) = from_call g h ++ from_call g [o]) as Ef by (unfold from_call; now rewrite flat_map_app).
    rewrite Ef, run_app in E. destruct (run add (pysync_init k n) (from_call g h)) as [[c1 r1]|] eqn:E1; cbn [bind] in E; [|discriminate].
    destruct (run add c1 (from_call g [o])) as [[c2 r2]|] eqn:E2; cbn [bind] in E; [|discriminate]. injection E as <- <-.
    apply Forall_app in HF as [HF1 HF2].
    destruct (IH c1 r1 Hno1 Hp1 eq_refl HF1) as (s1 & rs1 & Er & Hc & Hs).
    pose proof (run_unlocked _ _ _ _ _ E1 HF1) as Hl1.
    rewrite rrun_app, Er. cbn [bind rrun]. destruct o as [g' i m hd now|k']; [|exfalso; apply (Hno k'), in_or_app; cbn; auto].
    cbn [rstep]. rewrite (shape_length _ _ Hs). fold g. unfold from_call in E2. cbn [flat_map] in E2. rewrite app_nil_r in E2. destruct (Nat.eqb g' g) eqn:Eg.
    + cbn [run] in E2. rewrite Hc. destruct (add c1 (Add i m hd now)) as [[[c' out'] ex']|] eqn:Ea; cbn [bind] in *; [|discriminate]. injection E2 as <- <-. eexists _, _. split; [reflexivity|]. cbn. auto.
    + cbn [run] in E2. injection E2 as <- <-. destruct (Hp g' i m hd now) as (k' & Ek & Hi & Ht); [apply in_or_app; cbn; auto|].
      apply Nat.eqb_neq in Eg. specialize (Ht Eg). rewrite <- Hks in Ek.
      assert (g' < length (old s0))%nat as Hg'.
      { assert (g' < length (map (@length _) (old s0) ++ [k]))%nat by (apply nth_error_Some; congruence). rewrite app_length, map_length in H. cbn in H. fold g in H |- *. lia. }
      rewrite nth_error_app1 in Ek by (now rewrite map_length). rewrite <- Hs in Ek. rewrite nth_error_map in Ek. destruct (nth_error (old s1) g') as [qs|] eqn:Eqs; [|discriminate]. injection Ek as <-.
      destruct (run_sound _ _ _ _ Hobeys _ _ _ _ _ E1) as (D & [Z1 Z2 _ _ _ Z6]). destruct (Z6 Hl1) as (ZC & ZF & _).
      destruct (Hposs s1 g' i m hd now qs) as (s2 & ex2 & E3 & Hc2); auto; try (rewrite Hc; auto).
      * rewrite Z1. auto.
      * intros Hnil. rewrite Hnil in Z2. cbn in Z2. lia.
      * rewrite E3. cbn [bind]. eexists _, _. split; [reflexivity|]. split; [congruence|]. destruct (Hharm _ _ _ _ _ _ _ _ _ E3) as (H1 & _). congruence.
Qed.

(** ** The state when connectInput is called *)
Definition steady (s : resync M) : Prop := locked (cur s) = false -> calm good (queues (cur s)) /\ Forall dictok (queues (cur s)).
Lemma calm_empty k : (0 < k)%nat -> calm (M := M) good (repeat [] k).
Proof. intros Hk ts C _ _. destruct k; [lia|]. cbn in C. inversion C as [|? ? ? ? H]; subst. destruct H. Qed.
Lemma dictok_empty k : Forall (dictok (M := M)) (repeat [] k).
Proof. apply Forall_forall. intros q Hq. apply repeat_spec in Hq. subst. constructor. Qed.

Lemma step_steady s o s' out ex : Step s o = Ok (s', out, ex) -> steady s -> queues (cur s) <> [] -> (forall k, o = Connect k -> (0 < k)%nat) ->
  steady s' /\ queues (cur s') <> [] /\ queue_size (cur s') = queue_size (cur s) /\
  map (@length _) (old s' ++ [queues (cur s')]) = map (@length _) (old s ++ [queues (cur s)]) ++ (match o with Connect k => [k] | _ => [] end).
Proof.
  intros E HS Hne Hk. destruct o as [g i m hd now|k]; cbn [rstep] in E.
  - rewrite app_nil_r. destruct (Nat.eqb g (length (old s))).
    + destruct (add (cur s) (Add i m hd now)) as [[[c out'] ex']|] eqn:Ea; cbn [bind] in E; [|discriminate]. injection E as <- <- <-. cbn [cur old with_cur].
      pose proof (Hobeys _ _ _ _ _ _ _ _ Ea) as H. destruct (time_of hl hd now) as [t|].
      * destruct H as (El & H). destruct (HS El) as (HC & HF). destruct (add_shape _ _ _ _ _ Ea HC HF) as (L1 & L2). specialize (H HF HC). split; [|split; [|split; [auto|]]].
        -- unfold steady. cbn. intros Hl. inversion H as [Hneg|qs1 St No|qs1 vv ms St C G Ev Eg Er|qs1 vv ms St C G Ev Eg Er]; subst; try discriminate.
           ++ cbn. destruct (stores_facts _ _ _ _ _ _ St HF) as (F1 & _). split; auto. eapply calm_store; eauto.
           ++ cbn. destruct (stores_facts _ _ _ _ _ _ St HF) as (F1 & _). split; [eapply calm_deliver; eauto|now apply del_all_ok].
        -- intros Hnil. rewrite Hnil in L1. destruct (queues (cur s)); [congruence|discriminate].
        -- rewrite !map_app. cbn. now rewrite L1.
      * destruct H as (_ & H1 & H2 & H3 & _). unfold steady. cbn. rewrite !map_app. cbn. rewrite H1. repeat split; auto; apply HS; destruct (locked (cur s)); auto; rewrite H3 in *; auto; discriminate.
    + destruct (Hharm _ _ _ _ _ _ _ _ _ E) as (H1 & H2 & H3 & H4). rewrite !map_app. cbn [map]. rewrite H1.
      assert (cur s' = cur s \/ cur s' = wedged (cur s)) as [Hc|Hc].
      { destruct (locked (cur s)) eqn:El; [destruct (H2 eq_refl); auto|]. apply H4; auto. now apply HS. }
      * unfold steady. rewrite Hc. auto.
      * unfold steady. rewrite Hc. cbn. repeat split; auto; discriminate.
  - injection E as <- <- <-. specialize (Hk k eq_refl). unfold steady. cbn. split; [|split; [|split; [auto|]]].
    + intros _. split; [now apply calm_empty|apply dictok_empty].
    + destruct k; [lia|discriminate].
    + rewrite !map_app. cbn. now rewrite repeat_length, <- app_assoc.
Qed.
Lemma run_steady h s s' rs : Run s h = Ok (s', rs) -> steady s -> queues (cur s) <> [] -> (forall k, In (Connect k) h -> (0 < k)%nat) ->
  steady s' /\ queues (cur s') <> [] /\ queue_size (cur s') = queue_size (cur s) /\
  map (@length _) (old s' ++ [queues (cur s')]) =
    map (@length _) (old s ++ [queues (cur s)]) ++ flat_map (fun o => match o with Connect k => [k] | _ => [] end) h.
Proof.
  revert s s' rs. induction h as [|o h IH]; intros s s' rs E HS Hne Hk; cbn [rrun] in E.
  - injection E as <- <-. cbn. rewrite app_nil_r. auto.
  - destruct (Step s o) as [[[s1 out] ex]|] eqn:Eo; cbn [bind] in E; [|discriminate]. destruct (Run s1 h) as [[s2 r2]|] eqn:E2; cbn [bind] in E; [|discriminate]. injection E as <- <-.
    destruct (step_steady _ _ _ _ _ Eo HS Hne) as (A1 & A2 & A3 & A4); [intros k ->; apply Hk; now left|].
    destruct (IH _ _ _ E2 A1 A2) as (B1 & B2 & B3 & B4); [intros k Hin; apply Hk; now right|]. split; auto. split; auto. split; [congruence|]. rewrite B4, A4. cbn [flat_map]. now rewrite <- app_assoc.
Qed.
Lemma connects_calls k (h : list (rop M)) : length (calls k h) = S (connects h).
Proof. unfold calls, connects. cbn. f_equal. induction h as [|[|] h IH]; cbn; auto. Qed.
Lemma start_shape k n h s rs : (0 < k)%nat -> (forall k', In (Connect k') h -> (0 < k')%nat) -> Run (start k n) h = Ok (s, rs) ->
  steady s /\ queue_size (cur s) = n /\ length (old s) = connects h /\ map (@length _) (old s ++ [queues (cur s)]) = calls k h.
Proof.
  intros Hk Hks E. destruct (run_steady _ _ _ _ E) as (A1 & A2 & A3 & A4); auto.
  - intros _. split; [now apply calm_empty|apply dictok_empty].
  - destruct k; [lia|discriminate].
  - cbn in A4. rewrite repeat_length in A4. split; auto. split; auto. split; auto. pose proof (connects_calls k h) as L. unfold calls in L. rewrite <- A4 in L. rewrite map_length, app_length in L. cbn in L. lia.
Qed.

Lemma reconnect k0 n h1 k h2 s rs : (0 < k0)%nat -> (forall k', In (Connect k') h1 -> (0 < k')%nat) -> (0 < k)%nat -> no_connect h2 ->
  Run (start k0 n) (h1 ++ Connect k :: h2) = Ok (s, rs) ->
  let g := S (connects h1) in let after := skipn (S (length h1)) rs in
  exists c, run add (pysync_init k n) (from_call g h2) = Ok (c, results g h2 after) /\ delivered after = delivered (results g h2 after).
Proof.
  intros Hk0 Hks Hk Hno E g after. rewrite rrun_app in E. destruct (Run (start k0 n) h1) as [[s1 r1]|] eqn:E1; cbn [bind rrun rstep] in E; [|discriminate].
  destruct (Run (connect s1 k) h2) as [[s2 r2]|] eqn:E2; cbn [bind] in E; [|discriminate]. injection E as <- <-.
  destruct (start_shape _ _ _ _ _ Hk0 Hks E1) as (_ & A2 & A3 & _). pose proof (rrun_length _ _ _ _ E1) as L1.
  assert (after = r2) as ->.
  { unfold after. rewrite <- L1. replace (S (length r1)) with (length (r1 ++ [([], false) : list (list M) * bool])) by (rewrite app_length; cbn; lia).
    change (r1 ++ ([], false) :: r2) with (r1 ++ [([], false)] ++ r2). rewrite app_assoc, skipn_app, skipn_all, Nat.sub_diag. reflexivity. }
  destruct (simulation k n (connect s1 k) h2 Hk eq_refl A2 Hno s2 r2 E2) as (c & B1 & B2 & _). cbn [connect old] in B1, B2. rewrite app_length, A3 in B1, B2. cbn in B1, B2. rewrite Nat.add_comm in B1, B2. exists c. auto.
Qed.
Lemma reconnect_exists k0 n h1 k h2 s1 r1 c rs : (0 < k0)%nat -> (forall k', In (Connect k') h1 -> (0 < k')%nat) -> (0 < k)%nat -> 0 <= n -> no_connect h2 ->
  Run (start k0 n) h1 = Ok (s1, r1) -> locked (cur s1) = false ->
  proper P (calls k0 (h1 ++ [Connect k])) (S (connects h1)) h2 ->
  run add (pysync_init k n) (from_call (S (connects h1)) h2) = Ok (c, rs) -> Forall (fun r => snd r = false) rs ->
  exists s rs', Run (start k0 n) (h1 ++ Connect k :: h2) = Ok (s, rs').
Proof.
  intros Hk0 Hks Hk Hn Hno E1 Hl Hp E HF. destruct (start_shape _ _ _ _ _ Hk0 Hks E1) as (_ & A2 & A3 & A4).
  rewrite rrun_app, E1. cbn [bind rrun rstep].
  assert (length (old (connect s1 k)) = S (connects h1)) as Lo by (cbn; rewrite app_length, A3; cbn; lia).
  destruct (simulation_exists k n (connect s1 k) h2 (calls k0 (h1 ++ [Connect k])) c rs) as (s & rs' & Er & _); auto.
  - cbn [connect old]. rewrite A4. unfold calls. rewrite flat_map_app. reflexivity.
  - now rewrite Lo.
  - now rewrite Lo.
  - rewrite Er. cbn [bind]. eauto.
Qed.
End Generic.

(** ** The two policies *)
Lemma exact_quiet (c : pysync M) : queues c <> [] -> calm same (queues c) -> deliver_common raises c (common (queues c)) = (c, [], false).
Proof.
  intros Hne HC. destruct (common (queues c)) as [|t l] eqn:E; [reflexivity|]. exfalso.
  assert (In t (common (queues c))) as Hin by (rewrite E; now left). pose proof (proj1 (common_In t (queues c) Hne) Hin) as Hin2. clear Hin.
  apply (HC (map (fun _ => t) (queues c))); [now apply choice_same| |apply same_map]. destruct (queues c); [congruence|discriminate].
Qed.
Lemma deliver_size ts : forall p c o x, deliver_common raises p ts = (c, o, x) -> queue_size c = queue_size p.
Proof.
  induction ts as [|t l IH]; intros p c o x Ed; cbn in Ed; [now injection Ed as <- <- <-|].
  destruct (get_all _ _) as [ms|]; [|now injection Ed as <- <- <-]. destruct (raises ms); [now injection Ed as <- <- <-|].
  destruct (deliver_common raises (with_queues p (map (del t) (queues p))) l) as [[p' o'] x'] eqn:E'. injection Ed as <- <- <-. now apply IH in E'.
Qed.
Lemma exact_harmless : harmless same (fun s g i m hd _ => exact_stale raises s g i m hd).
Proof.
  intros s g i m hd now s' out ex E. unfold exact_stale in E. destruct (locked (cur s)) eqn:El; [discriminate|].
  destruct (nth_error (old s) g) as [qs|] eqn:Eg; [|discriminate]. destruct (nth_error qs i) as [q|] eqn:Eq; [|discriminate].
  destruct hd as [| |t]; [injection E as <- <- <-; cbn; repeat split; auto; discriminate..|].
  destruct (shorten _ _) as [q'|] eqn:Es; [|injection E as <- <- <-; split; [apply set_old_shape|]; cbn; repeat split; auto; discriminate].
  destruct (queues (cur s)) as [|q0 l] eqn:Eqs; [injection E as <- <- <-; split; [apply set_old_shape|]; cbn; repeat split; auto; discriminate|]. rewrite <- Eqs in *.
  destruct (deliver_common raises (cur s) (common (queues (cur s)))) as [[c o] x] eqn:Ed. injection E as <- <- <-. split; [apply set_old_shape|]. split; [discriminate|]. cbn [with_cur cur].
  split.
  - eapply deliver_size; eauto.
  - intros Hne HC. rewrite exact_quiet in Ed; auto. injection Ed as <- <- <-. auto.
Qed.
Lemma exact_possible : possible same (fun s g i m hd _ => exact_stale raises s g i m hd) has_stamp.
Proof.
  intros s g i m hd now qs El Hn Eg Hi Ht Hne HC. unfold exact_stale. rewrite El, Eg. destruct (nth_error qs i) as [q|] eqn:Eq; [|apply nth_error_None in Eq; lia].
  destruct Ht as (t & ->). destruct (shorten_some (queue_size (cur s)) (put t m q) Hn) as (q' & ->).
  destruct (queues (cur s)) as [|q0 l] eqn:Eqs; [congruence|]. rewrite <- Eqs in *. rewrite exact_quiet by auto. eexists _, _. split; reflexivity.
Qed.
Lemma exact_early : early (add_exact raises).
Proof. intros c [i m hd now] s' out ex E. discriminate. Qed.

Section Approx.
Variables (slop : Z) (hl : bool).
Lemma f2_length {A B} (P : A -> B -> Prop) l l' : Forall2 P l l' -> length l' = length l.
Proof. induction 1; cbn; auto. Qed.
Lemma search_quiet (c : pysync M) i t : queues c <> [] -> calm (within slop) (queues c) ->
  search slop (queues c) i t (map (candidates slop t) (others i (queues c))) = None.
Proof.
  intros Hne HC. destruct (search _ _ _ _ _) as [vv|] eqn:E; auto. exfalso. unfold search in E.
  apply find_some in E as (Hin & Hb). apply andb_true_iff in Hb as (H1 & H2). apply in_map_iff in Hin as (v & <- & Hv).
  assert (insert_at i t v <> []) as Hnv by (pose proof (insert_at_length i t v) as H; intros Hz; rewrite Hz in H; discriminate).
  apply Z.ltb_lt in H1. rewrite within_spec in H1 by auto. assert (length v = length (others i (queues c))) as Lv.
  { apply product_In in Hv. apply f2_length in Hv. now rewrite map_length in Hv. }
  unfold others in Lv. destruct (Nat.lt_ge_cases i (length (queues c))) as [Hi|Hi].
  - pose proof (without_length i (queues c) Hi) as Lw. apply (HC (insert_at i t v)); auto. apply all_has_choice; auto. rewrite insert_at_length. lia.
  - rewrite firstn_all2, skipn_all2, app_nil_r in Lv by lia.
    assert (insert_at i t v = v ++ [t]) as Ei.
    { assert (length v <= i)%nat as Hle by lia. clear -Hle. revert i Hle. induction v as [|x v IH]; intros [|i] Hle; cbn in *; auto; [lia|]. f_equal. apply IH. lia. }
    rewrite Ei in *. apply (HC v).
    + apply all_has_choice; auto. unfold all_has in *. replace (combine (queues c) v) with (combine (queues c) (v ++ [t])); auto.
      clear -Lv. revert v Lv. induction (queues c) as [|q l IH]; intros [|x v] Lv; cbn in *; try discriminate; auto. f_equal. auto.
    + intros ->. destruct (queues c); [congruence|discriminate].
    + intros a b Ha Hb. apply H1; apply in_or_app; auto.
Qed.
Lemma approx_stamped_harmless (s : resync M) g i m t s' out ex : approx_stale_stamped raises slop s g i m t = Ok (s', out, ex) ->
  map (@length _) (old s') = map (@length _) (old s) /\ locked (cur s) = false /\ queue_size (cur s') = queue_size (cur s) /\
  (queues (cur s) <> [] -> calm (within slop) (queues (cur s)) -> out = [] /\ (cur s' = cur s \/ cur s' = wedged (cur s))).
Proof.
  intros E. unfold approx_stale_stamped in E. destruct (locked (cur s)) eqn:El; [discriminate|].
  destruct (nth_error (old s) g) as [qs|] eqn:Eg; [|discriminate]. destruct (nth_error qs i) as [q|] eqn:Eq; [|discriminate].
  destruct (shorten _ _) as [q'|] eqn:Es; [|injection E as <- <- <-; split; [apply set_old_shape|]; cbn; repeat split; auto].
  destruct (existsb _ _); [injection E as <- <- <-; split; [apply set_old_shape|]; cbn; repeat split; auto|].
  destruct (search _ _ _ _ _) as [vv|] eqn:Ev.
  - split; [|split; [auto|split]].
    + destruct (get_all _ _) as [ms|]; [destruct (raises ms)|]; injection E as <- <- <-; apply set_old_shape.
    + destruct (get_all _ _) as [ms|]; [destruct (raises ms)|]; injection E as <- <- <-; reflexivity.
    + intros Hne HC. rewrite search_quiet in Ev by auto. discriminate.
  - injection E as <- <- <-. split; [apply set_old_shape|]. cbn. auto.
Qed.
Lemma approx_harmless : harmless (within slop) (approx_stale raises slop hl).
Proof.
  intros s g i m hd now s' out ex E. unfold approx_stale in E.
  assert (forall t, approx_stale_stamped raises slop s g i m t = Ok (s', out, ex) ->
    map (@length _) (old s') = map (@length _) (old s) /\ (locked (cur s) = true -> cur s' = cur s /\ out = []) /\ queue_size (cur s') = queue_size (cur s) /\
    (queues (cur s) <> [] -> calm (within slop) (queues (cur s)) -> out = [] /\ (cur s' = cur s \/ cur s' = wedged (cur s)))) as Hst.
  { intros t Et. destruct (approx_stamped_harmless _ _ _ _ _ _ _ _ Et) as (H1 & H2 & H3 & H4). split; auto. split; [congruence|auto]. }
  destruct hd as [| |t]; [destruct hl; [eauto|]| |eauto]; injection E as <- <- <-; repeat split; auto.
Qed.
Lemma approx_possible : possible (within slop) (approx_stale raises slop hl) any_header.
Proof.
  intros s g i m hd now qs El Hn Eg Hi Ht Hne HC. unfold approx_stale.
  assert (forall t, exists s' ex, approx_stale_stamped raises slop s g i m t = Ok (s', [], ex) /\ cur s' = cur s) as Hst.
  { intros t. unfold approx_stale_stamped. rewrite El, Eg. destruct (nth_error qs i) as [q|] eqn:Eq; [|apply nth_error_None in Eq; lia].
    destruct (shorten_some (queue_size (cur s)) (put t m q) Hn) as (q' & ->). destruct (existsb _ _); [eexists _, _; split; reflexivity|].
    rewrite search_quiet by auto. eexists _, _; split; reflexivity. }
  destruct hd as [| |t]; [destruct hl; [auto|]| |auto]; eexists _, _; split; reflexivity.
Qed.
Lemma approx_early : early (add_approx raises slop hl).
Proof.
  intros c [i m hd now] s' out ex E. cbn in E. unfold approx_add in E |- *. cbn. unfold approx_add.
  destruct hd as [| |t]; [destruct hl; [discriminate|]| |discriminate]; injection E as <- <- <-; auto.
Qed.
End Approx.
End Proofs.
