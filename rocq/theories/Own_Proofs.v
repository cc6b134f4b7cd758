(** Proofs about the destruction of chains. *)
From Coq Require Import List Arith Lia Bool.
From Verif Require Import Base Net_Model Net_Spec Net_Flow Net_Wiring Net_Proofs Net_Chain Net_Streams Net_Links Net_Life Net_Rank Own_Model.
Import ListNotations.

Section Own.
Context {S M U : Type}.
Notation state := (state S M U).
Notation op := (op S M U).
Notation class := (class S M).
Notation obs := (obs M U).
Variable own : nat -> bool.

(** only lives end: those of [K] *)
Record ended (s s' : state) (K : list nat) : Prop := mkEnded {
  en_alive : forall n, aliveof s' n = negb (existsb (Nat.eqb n) K) && aliveof s n;
  en_cls : forall n, clsof s' n = clsof s n;
  en_ins : forall n i, insof s' n i = insof s n i;
  en_filters : forall n, filtersof s' n = filtersof s n;
  en_int : forall n, internalof s' n = internalof s n
}.
Lemma ended_refl (s : state) : ended s s []. Proof. split; auto. Qed.
Lemma ended_trans (s s1 s2 : state) K K' : ended s s1 K -> ended s1 s2 K' -> ended s s2 (K ++ K').
Proof.
  intros [A1 A2 A3 A4 A5] [B1 B2 B3 B4 B5]. split; intros; try congruence. rewrite B1, A1, existsb_app. now destruct (existsb _ K), (existsb _ K').
Qed.
Lemma ended_kill (s : state) l : ended s (kill_all s l) l.
Proof. destruct (kill_all_eff l s). split; auto. Qed.
Lemma ended_disconnect (s : state) f k s' : disconnect s (Some (f, k)) = Ok s' -> ended s s' [].
Proof. intros H. destruct (disconnect_eff _ _ _ _ H) as [[] ? ? ? ? ?]. split; auto. Qed.
Lemma ended_disconnects l : forall s s' : state, disconnect_all s l = Ok s' -> ended s s' [].
Proof.
  induction l as [|[[f k]|] l IH]; cbn [disconnect_all]; intros s s' H.
  - injection H as <-. apply ended_refl.
  - destruct (disconnect s (Some (f, k))) as [s1|] eqn:E; [|discriminate]. cbn [bind] in H.
    exact (ended_trans _ _ _ _ _ (ended_disconnect _ _ _ _ E) (IH _ _ H)).
  - cbn [disconnect bind] in H. auto.
Qed.

Definition ends (s : state) (e : nat * nat) : list nat := snd e :: (if own (fst e) then fst e :: map snd (filtersof s (fst e)) else []).

(** what a filter's destructor needs *)
Definition detachable (s : state) (f : nat) : Prop :=
  forall cl i g k, clsof s f = Some cl -> detaches cl = true -> insof s f i = Some (g, k) -> aliveof s g = true.
Lemma end_filter_ok (s : state) f : aliveof s f = true -> detachable s f -> exists s', end_filter s f = Ok s' /\ ended s s' (f :: map snd (filtersof s f)).
Proof.
  intros Ha Hd. destruct (live_of _ _ Ha) as (x & Hx). unfold end_filter. rewrite Hx. cbn [bind]. destruct (live_view _ _ _ Hx) as (Nx & Cx & _ & _ & _ & Fx & _).
  destruct (detaches (cls x)) eqn:D; cbn [bind].
  - destruct (disconnect_all_total (ins x) s) as (s1 & E & _).
    { intros g k Hin. apply In_nth with (d := None) in Hin as (i & Hl & Hin). apply (Hd _ i g k Cx D). unfold insof. now rewrite Nx. }
    rewrite E. cbn [bind]. eexists. split; [reflexivity|]. rewrite Fx. exact (ended_trans _ _ _ _ _ (ended_disconnects _ _ _ E) (ended_kill _ _)).
  - eexists. split; [reflexivity|]. rewrite Fx. apply ended_kill.
Qed.
Lemma end_filter_ub (s : state) f cl g k : aliveof s f = true -> clsof s f = Some cl -> detaches cl = true -> insof s f 0 = Some (g, k) -> aliveof s g = false ->
  end_filter s f = Err UB.
Proof.
  intros Ha Hc Hd Hi Hg. destruct (live_of _ _ Ha) as (x & Hx). unfold end_filter. rewrite Hx. cbn [bind]. destruct (live_view _ _ _ Hx) as (Nx & Cx & _).
  assert (cl = cls x) as -> by congruence. rewrite Hd. unfold insof in Hi. rewrite Nx in Hi. destruct (ins x) as [|c l]; [discriminate|]. cbn in Hi. subst c.
  cbn [disconnect_all disconnect]. unfold live. unfold aliveof in Hg. destruct (nth_error s g) as [y|]; [rewrite Hg|]; reflexivity.
Qed.

Lemma drop_elems_app l : forall l' (s : state), drop_elems own s (l ++ l') = do s1 <- drop_elems own s l; drop_elems own s1 l'.
Proof. induction l as [|e l IH]; intros l' s; [reflexivity|]. cbn [app drop_elems]. destruct (drop_elem own s e) as [s1|]; [cbn [bind]; apply IH|reflexivity]. Qed.

Lemma not_in_eqb n K : ~ In n K -> existsb (Nat.eqb n) K = false.
Proof. intros H. apply existsb_false. intros x Hx. apply Nat.eqb_neq. intros ->. contradiction. Qed.
Lemma in_eqb n K : In n K -> existsb (Nat.eqb n) K = true.
Proof. intros H. apply existsb_exists. exists n. split; auto. apply Nat.eqb_refl. Qed.

(** ** the elements of one chain *)
Section Elems.
Variables (s : state) (fl : list (nat * nat)).
Hypothesis F1 : forall f p, In (f, p) fl -> aliveof s f = true /\ aliveof s p = true /\ internalof s f = false /\ internalof s p = true.
Hypothesis F2 : NoDup (map fst fl).
Hypothesis F3 : forall f p f' p', In (f, p) fl -> In (f', p') fl -> ~ In p (map snd (filtersof s f')).
Hypothesis F4 : forall f p, In p (map snd (filtersof s f)) -> internalof s p = true.
Hypothesis F5 : forall f p i g k, In (f, p) fl -> insof s f i = Some (g, k) -> exists f', In (f', g) fl.

Lemma drop_elems_ok l : (forall e, In e l -> In e fl) -> NoDup (map fst l) ->
  (forall l1 f p l2 cl i g k, l = l1 ++ (f, p) :: l2 -> own f = true -> clsof s f = Some cl -> detaches cl = true -> insof s f i = Some (g, k) -> ~ In g (p :: map snd l1)) ->
  exists s', drop_elems own s l = Ok s' /\ ended s s' (flat_map (ends s) l).
Proof.
  induction l as [|[f p] l IH] using rev_ind; intros Hsub Hnd Hok; [exists s; split; [reflexivity|apply ended_refl]|].
  rewrite map_app in Hnd. cbn in Hnd.
  destruct IH as (s1 & E & H1).
  { intros e He. apply Hsub. apply in_or_app. auto. }
  { apply NoDup_remove_1 in Hnd. now rewrite app_nil_r in Hnd. }
  { intros l1 f' p' l2 cl i g k -> Ho Hc Hd Hi. apply (Hok l1 f' p' (l2 ++ [(f, p)]) cl i g k); auto. now rewrite <- app_assoc. }
  rewrite drop_elems_app, E. cbn [bind drop_elems]. rewrite flat_map_app. cbn [flat_map]. rewrite app_nil_r. unfold drop_elem; cbn [fst snd].
  pose proof (ended_trans _ _ _ _ _ H1 (ended_kill s1 [p])) as H2. set (s2 := kill_all s1 [p]) in *.
  destruct (F1 f p) as (Af & Ap & If & Ip); [apply Hsub, in_or_app; cbn; auto|].
  assert (Nf : ~ In f (flat_map (ends s) l ++ [p])).
  { intros X. apply in_app_or in X as [X|[->|[]]]; [|congruence]. apply in_flat_map in X as ([f' p'] & X1 & X2).
    destruct (F1 f' p') as (_ & _ & I1 & I2); [apply Hsub, in_or_app; auto|]. destruct X2 as [X2|X2]; cbn [fst snd] in *; [congruence|].
    destruct (own f'); [|destruct X2]. destruct X2 as [->|X2]; [|apply F4 in X2; congruence].
    apply NoDup_remove_2 in Hnd. apply Hnd. rewrite app_nil_r. apply in_map_iff. exists (f, p'). auto. }
  unfold ends at 2; cbn [fst snd]. destruct (own f) eqn:Ho.
  - destruct (end_filter_ok s2 f) as (s' & E' & H').
    + rewrite (en_alive _ _ _ H2), not_in_eqb by auto. exact Af.
    + intros cl i g k Hc Hd Hi. rewrite (en_cls _ _ _ H2) in Hc. rewrite (en_ins _ _ _ H2) in Hi. rewrite (en_alive _ _ _ H2).
      destruct (F5 f p i g k) as (f' & Hg); auto; [apply Hsub, in_or_app; cbn; auto|]. destruct (F1 f' g Hg) as (_ & -> & _ & Ig).
      specialize (Hok l f p [] cl i g k eq_refl Ho Hc Hd Hi). rewrite not_in_eqb; auto. intros X. apply in_app_or in X as [X|[X|[]]]; [|apply Hok; left; auto].
      apply in_flat_map in X as ([f0 p0] & X1 & [X2|X2]); cbn [fst snd] in *.
      * apply Hok. right. apply in_map_iff. exists (f0, p0). auto.
      * assert (X3 : In (f0, p0) fl) by (apply Hsub, in_or_app; auto). destruct (own f0); [|destruct X2]. destruct X2 as [->|X2]; [|exact (F3 _ _ _ _ Hg X3 X2)].
        destruct (F1 g p0 X3) as (_ & _ & X4 & _). congruence.
    + rewrite E'. cbn [bind]. exists s'. split; [reflexivity|]. rewrite (en_filters _ _ _ H2) in H'.
      pose proof (ended_trans _ _ _ _ _ H2 H') as H3. rewrite <- app_assoc in H3. exact H3.
  - cbn [bind]. exists s2. split; [reflexivity|exact H2].
Qed.
End Elems.

(** ** reachable states *)
Section Reach.
Variables (fuel c : nat) (h : list op) (s : state) (rs : list (result * list obs)).
Hypothesis R : run fuel [] h = Ok (s, rs).
Hypothesis Hproper : chained_properly h.
Hypothesis Hcls : clsof s c = Some Chain.
Hypothesis Hint : internalof s c = false.
Hypothesis Hself : ~ In c (added c h).
Hypothesis Hd : forall f, f = c \/ In f (added c h) -> never (destroys f) h.

Let HI := run_inv _ _ _ _ R.
Let HC := run_chains _ _ _ _ R.
Lemma r_alive : aliveof s c = true.
Proof. eapply never_destroyed; eauto. eapply clsof_lt; eauto. Qed.
Lemma r_added f p : In (f, p) (filtersof s c) -> In f (added c h).
Proof. intros H. rewrite <- (ch_hist _ _ HC). apply in_map_iff. exists (f, p). auto. Qed.
Lemma r_once f : In f (added c h) -> times (joins f) h = 1 /\ times (connects f) h = 1.
Proof.
  intros H. pose proof (added_joins _ _ _ H) as H1. pose proof (Hproper f H1) as H2. pose proof (joins_le f h). lia.
Qed.
Lemma r_f1 f p : In (f, p) (filtersof s c) -> aliveof s f = true /\ aliveof s p = true /\ internalof s f = false /\ internalof s p = true.
Proof.
  intros H. destruct (ch_node _ _ HC _ _ _ H) as (_ & _ & A & B & _ & C & D). rewrite D, r_alive. repeat split; auto.
  eapply never_destroyed; eauto. apply Hd. right. eapply r_added; eauto.
Qed.
Lemma nodup_nth {A} (l : list A) : (forall i j x, nth_error l i = Some x -> nth_error l j = Some x -> i = j) -> NoDup l.
Proof. intros H. apply NoDup_nth_error. intros i j Hi E. destruct (nth_error l i) as [x|] eqn:Ex; [|apply nth_error_None in Ex; lia]. eauto. Qed.
Lemma r_f2 : NoDup (map fst (filtersof s c)).
Proof.
  rewrite (ch_hist _ _ HC). apply nodup_nth. intros i j f Hi Hj. destruct (r_once f (nth_error_In _ _ Hi)) as [T _].
  destruct (added_unique f h ltac:(lia) c c i j Hi Hj). auto.
Qed.
Lemma r_f3 f p f' p' : In (f, p) (filtersof s c) -> In (f', p') (filtersof s c) -> ~ In p (map snd (filtersof s f')).
Proof.
  intros H H' X. apply in_map_iff in X as ([f2 p2] & E & X). cbn in E. subst p2. apply In_nth_error in H as (j & H), X as (j' & X).
  destruct (ch_inj _ _ HC _ _ _ _ _ _ _ H X) as [Ec _]. apply Hself. rewrite Ec at 1. eapply r_added; eauto.
Qed.
Lemma r_f4 f p : In p (map snd (filtersof s f)) -> internalof s p = true.
Proof. intros H. apply in_map_iff in H as ([f2 p2] & E & H). cbn in E. subst. apply (ch_node _ _ HC _ _ _ H). Qed.
Lemma r_link j f p i g k : nth_error (filtersof s c) j = Some (f, p) -> insof s f i = Some (g, k) ->
  exists j' f', j = Datatypes.S j' /\ nth_error (filtersof s c) j' = Some (f', g).
Proof.
  intros Hj Hi. pose proof (nth_error_In _ _ Hj) as Hin. destruct (r_f1 _ _ Hin) as (_ & _ & If & _). destruct (r_once f (r_added _ _ Hin)) as [T1 T2].
  destruct (run_up _ _ _ _ R) as [U1 _]. destruct (U1 f g) as [(c' & X)|[(fs & X1 & X2)|(c' & j' & f' & p' & X1 & X2)]]; [right; eauto| | |].
  - destruct (ch_node _ _ HC _ _ _ X) as (_ & _ & _ & _ & _ & D & _). congruence.
  - exfalso. assert (X : times (joins f) h < times (connects f) h); [|lia]. clear - X1. induction h as [|o l IH]; [destruct X1|]. pose proof (joins_le f l) as L. unfold times in *. cbn [filter].
    destruct X1 as [->|X1]; [cbn [joins connects]; rewrite Nat.eqb_refl; cbn; lia|]. specialize (IH X1). destruct (joins f o) eqn:J; [rewrite (joins_connects _ _ J); cbn; lia|]. destruct (connects f o); cbn; lia.
  - assert (Y : nth_error (added c' h) (Datatypes.S j') = Some f) by (rewrite <- (ch_hist _ _ HC), nth_error_map, X2; reflexivity).
    assert (Z : nth_error (added c h) j = Some f) by (rewrite <- (ch_hist _ _ HC), nth_error_map, Hj; reflexivity).
    destruct (added_unique f h ltac:(lia) _ _ _ _ Z Y) as [<- ->]. eauto.
Qed.
Lemma r_linked j f p f' p' cl : nth_error (filtersof s c) j = Some (f, p) -> nth_error (filtersof s c) (Datatypes.S j) = Some (f', p') ->
  clsof s f' = Some cl -> cl <> Source -> exists k, insof s f' 0 = Some (p, k).
Proof.
  intros H H' Hc Hs. destruct (r_f1 _ _ (nth_error_In _ _ H')) as (Af & _). destruct (r_once f' (r_added _ _ (nth_error_In _ _ H'))) as [_ T].
  destruct (ch_link _ _ HC _ _ _ _ _ _ H H' r_alive Af) as (k & Ho); [congruence|lia|]. destruct (i_held _ _ HI _ _ _ _ Ho) as (cl0 & _ & _ & X & _). exists k. apply X. right. lia.
Qed.
Lemma r_snd : forall i j x y p, nth_error (filtersof s c) i = Some (x, p) -> nth_error (filtersof s c) j = Some (y, p) -> i = j.
Proof. intros i j x y p H H'. now destruct (ch_inj _ _ HC _ _ _ _ _ _ _ H H'). Qed.

Definition blamed (f : nat) : Prop := own f = true /\ exists cl, clsof s f = Some cl /\ detaches cl = true /\ cl <> Source.

Lemma destroy_unfold o : exists x, destroy_chain own o s c = (do s1 <- drop_elems own s (ordered o (filtersof s c)); Ok (kill_all s1 [c])) /\ nth_error s c = Some x.
Proof.
  destruct (live_of _ _ r_alive) as (x & Hx). destruct (live_view _ _ _ Hx) as (Nx & Cx & _ & _ & _ & Fx & _). exists x. split; auto.
  unfold destroy_chain. rewrite Hx. cbn [bind]. assert (cls x = Chain) as -> by congruence. now rewrite Fx.
Qed.

Lemma r_f5 f p i g k : In (f, p) (filtersof s c) -> insof s f i = Some (g, k) -> exists f', In (f', g) (filtersof s c).
Proof. intros H Hi. apply In_nth_error in H as (j & H). destruct (r_link _ _ _ _ _ _ H Hi) as (j' & f' & _ & X). exists f'. eapply nth_error_In; eauto. Qed.

Lemma nth_mid {A} (l1 : list A) x l2 : nth_error (l1 ++ x :: l2) (length l1) = Some x.
Proof. rewrite nth_error_app2, Nat.sub_diag; auto. Qed.
Theorem backward_ok : exists s', destroy_chain own LastToFirst s c = Ok s' /\ ended s s' (flat_map (ends s) (rev (filtersof s c)) ++ [c]).
Proof.
  destruct (destroy_unfold LastToFirst) as (_ & -> & _). cbn [ordered].
  destruct (drop_elems_ok s (filtersof s c) r_f1 r_f3 r_f4 r_f5 (rev (filtersof s c))) as (s' & -> & He).
  - intros e. apply in_rev.
  - rewrite map_rev. apply NoDup_rev, r_f2.
  - intros l1 f p l2 cl i g k E _ _ _ Hi X. apply (f_equal (@rev _)) in E. rewrite rev_involutive, rev_app_distr in E. cbn [rev] in E. rewrite <- app_assoc in E. cbn [app] in E.
    assert (Hj : nth_error (filtersof s c) (length (rev l2)) = Some (f, p)) by (rewrite E; apply nth_mid).
    destruct (r_link _ _ _ _ _ _ Hj Hi) as (j' & f' & Ej & Hg).
    assert (Y : exists j x, length (rev l2) <= j /\ nth_error (filtersof s c) j = Some (x, g)).
    { destruct X as [<-|X]; [exists (length (rev l2)), f; auto|]. apply in_map_iff in X as ([x g'] & Eg & X). cbn in Eg. subst g'. apply in_rev, In_nth_error in X as (q & X).
      exists (length (rev l2) + Datatypes.S q), x. split; [lia|]. rewrite E, nth_error_app2 by lia. replace (_ - _) with (Datatypes.S q) by lia. exact X. }
    destruct Y as (j & x & Hle & Hx). pose proof (r_snd _ _ _ _ _ Hg Hx). lia.
  - cbn [bind]. eexists. split; [reflexivity|]. exact (ended_trans _ _ _ _ _ He (ended_kill _ _)).
Qed.

Lemma forward_part l1 l2 : filtersof s c = l1 ++ l2 -> (forall j f p, nth_error l1 (Datatypes.S j) = Some (f, p) -> ~ blamed f) ->
  (forall j f p, nth_error l1 (Datatypes.S j) = Some (f, p) -> clsof s f <> Some Source) ->
  exists s', drop_elems own s l1 = Ok s' /\ ended s s' (flat_map (ends s) l1).
Proof.
  intros E Hb Hs. apply (drop_elems_ok s (filtersof s c) r_f1 r_f3 r_f4 r_f5).
  - intros e He. rewrite E. apply in_or_app. auto.
  - pose proof r_f2 as N. rewrite E, map_app in N. clear -N. induction l1 as [|x l IH]; cbn in *; [constructor|]. inversion N; subst. constructor; auto. intros X. apply H1. apply in_or_app. auto.
  - intros l f p l' cl i g k El Ho Hc Hdt Hi X. 
    assert (Hj1 : nth_error l1 (length l) = Some (f, p)) by (rewrite El; apply nth_mid).
    assert (Hj : nth_error (filtersof s c) (length l) = Some (f, p)).
    { rewrite E, nth_error_app1; auto. apply nth_error_Some. congruence. }
    destruct (r_link _ _ _ _ _ _ Hj Hi) as (j' & f' & Ej & Hg). rewrite Ej in Hj1.
    apply (Hb _ _ _ Hj1). split; auto. exists cl. repeat split; auto. intros ->. now apply (Hs _ _ _ Hj1).
Qed.
Theorem forward_ok : (forall j f p, nth_error (filtersof s c) (Datatypes.S j) = Some (f, p) -> ~ blamed f /\ clsof s f <> Some Source) ->
  exists s', destroy_chain own FirstToLast s c = Ok s' /\ ended s s' (flat_map (ends s) (filtersof s c) ++ [c]).
Proof.
  intros H. destruct (destroy_unfold FirstToLast) as (_ & -> & _). cbn [ordered].
  destruct (forward_part (filtersof s c) []) as (s' & -> & He); [now rewrite app_nil_r|intros; eapply H; eauto|intros; eapply H; eauto|]. cbn [bind].
  eexists. split; [reflexivity|]. exact (ended_trans _ _ _ _ _ He (ended_kill _ _)).
Qed.
(** the filters of the user that are left *)
Lemma survivors s' l n : ended s s' (flat_map (ends s) l ++ [c]) -> (forall e, In e l <-> In e (filtersof s c)) -> internalof s n = false ->
  aliveof s' n = aliveof s n && negb ((n =? c) || own n && existsb (Nat.eqb n) (added c h)).
Proof.
  intros He Hl Hn. rewrite (en_alive _ _ _ He), andb_comm. f_equal. f_equal. rewrite existsb_app. cbn [existsb]. rewrite orb_false_r, orb_comm. f_equal. apply eq_true_iff_eq. rewrite andb_true_iff, !existsb_exists. split.
  - intros (x & Hx & E). apply Nat.eqb_eq in E. subst x. apply in_flat_map in Hx as ([f p] & H1 & H2). apply Hl in H1. destruct (r_f1 _ _ H1) as (_ & _ & If & Ip).
    destruct H2 as [H2|H2]; cbn [fst snd] in *; [congruence|]. destruct (own f) eqn:Ho; [|destruct H2]. destruct H2 as [<-|H2]; [|apply r_f4 in H2; congruence].
    split; auto. exists f. split; [eapply r_added; eauto|apply Nat.eqb_refl].
  - intros (Ho & x & Hx & E). apply Nat.eqb_eq in E. subst x. exists n. split; [|apply Nat.eqb_refl]. rewrite <- (ch_hist _ _ HC) in Hx. apply in_map_iff in Hx as ([f p] & E & Hx). cbn in E. subst f.
    apply in_flat_map. exists (n, p). split; [now apply Hl|]. unfold ends; cbn [fst snd]. rewrite Ho. cbn; auto.
Qed.
Theorem forward_ub j f p : nth_error (filtersof s c) (Datatypes.S j) = Some (f, p) -> blamed f ->
  (forall j f p, nth_error (filtersof s c) (Datatypes.S j) = Some (f, p) -> clsof s f <> Some Source) ->
  destroy_chain own FirstToLast s c = Err UB.
Proof.
  revert f p. induction j as [j IH] using lt_wf_ind. intros f p Hj Hb Hs.
  assert (Dec : forall f, blamed f \/ ~ blamed f).
  { intros f0. unfold blamed. destruct (own f0); [|right; intros [X _]; discriminate]. destruct (clsof s f0) as [cl|] eqn:Ec; [|right; intros [_ (cl & X & _)]; discriminate].
    destruct (detaches cl) eqn:Ed; [|right; intros [_ (cl' & X & Y & _)]; congruence].
    destruct cl; try (left; split; auto; eexists; repeat split; eauto; discriminate); right; intros [_ (cl' & X & Y & Z)]; congruence. }
  assert (Hearlier : (exists j' f' p', j' < j /\ nth_error (filtersof s c) (Datatypes.S j') = Some (f', p') /\ blamed f') \/
                     (forall j' f' p', j' < j -> nth_error (filtersof s c) (Datatypes.S j') = Some (f', p') -> ~ blamed f')).
  { clear -Dec. induction j as [|j IHj]; [right; intros; lia|]. destruct IHj as [(j' & f' & p' & A & B)|A]; [left; exists j', f', p'; split; auto|].
    destruct (nth_error (filtersof s c) (Datatypes.S j)) as [[f' p']|] eqn:E.
    - destruct (Dec f') as [D|D]; [left; exists j, f', p'; auto|]. right. intros j' f0 p0 Hl Hn. destruct (Nat.eq_dec j' j) as [->|]; [|apply (A j' f0 p0); auto; lia]. congruence.
    - right. intros j' f0 p0 Hl Hn. destruct (Nat.eq_dec j' j) as [->|]; [congruence|apply (A j' f0 p0); auto; lia]. }
  destruct Hearlier as [(j' & f' & p' & A & B & D)|A]; [exact (IH j' A f' p' B D Hs)|].
  destruct (nth_error_split _ _ Hj) as (l1 & l2 & El & Ll).
  destruct (destroy_unfold FirstToLast) as (_ & -> & _). cbn [ordered].
  destruct (forward_part l1 ((f, p) :: l2) El) as (s1 & E1 & H1).
  { intros j' f' p' Hn. assert (j' < j) by (assert (Datatypes.S j' < length l1) by (apply nth_error_Some; congruence); lia). apply (A j' f' p'); auto.
    rewrite El, nth_error_app1; auto. lia. }
  { intros j' f' p' Hn. apply (Hs j' f' p'). rewrite El, nth_error_app1; auto. apply nth_error_Some. congruence. }
  rewrite El, drop_elems_app, E1. cbn [bind drop_elems]. unfold drop_elem; cbn [fst snd]. destruct Hb as (Ho & cl & Hc & Hdt & Hsrc). rewrite Ho.
  destruct (nth_error (filtersof s c) j) as [[f0 p0]|] eqn:E0; [|apply nth_error_None in E0; assert (Datatypes.S j < length (filtersof s c)) by (apply nth_error_Some; congruence); lia].
  destruct (r_linked _ _ _ _ _ _ E0 Hj Hc Hsrc) as (k & Hk).
  pose proof (ended_trans _ _ _ _ _ H1 (ended_kill s1 [p])) as H2.
  destruct (r_f1 _ _ (nth_error_In _ _ Hj)) as (Af & Ap & If & Ip).
  rewrite (end_filter_ub (kill_all s1 [p]) f cl p0 k); auto.
  - rewrite (en_alive _ _ _ H2), not_in_eqb; auto. intros X. apply in_app_or in X as [X|[->|[]]]; [|congruence].
    apply in_flat_map in X as ([f' p'] & X1 & X2). assert (X3 : In (f', p') (filtersof s c)) by (rewrite El; apply in_or_app; auto).
    destruct (r_f1 _ _ X3) as (_ & _ & I1 & I2). destruct X2 as [X2|X2]; cbn [fst snd] in *; [congruence|].
    destruct (own f'); [|destruct X2]. destruct X2 as [->|X2]; [|apply r_f4 in X2; congruence].
    pose proof r_f2 as N. rewrite El, map_app in N. cbn in N. apply NoDup_remove_2 in N. apply N. apply in_or_app. left. apply in_map_iff. exists (f, p'). auto.
  - now rewrite (en_cls _ _ _ H2).
  - now rewrite (en_ins _ _ _ H2).
  - rewrite (en_alive _ _ _ H2), in_eqb; auto. apply in_or_app. left. apply in_flat_map. exists (f0, p0). split; [|left; auto].
    rewrite El, nth_error_app1 in E0 by lia. eapply nth_error_In; eauto.
Qed.
End Reach.
End Own.
