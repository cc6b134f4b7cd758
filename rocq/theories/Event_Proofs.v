From Coq Require Import List Arith Lia Bool.
From Verif Require Import Base Trace Event_Model Event_Spec.
Import ListNotations.

Section Proofs.
Context {V T : Type}.
Notation heap := (heap V).
Notation event := (event T).
Notation node := (node V).
Notation obs := (obs V).
Notation op := (op V T).
Notation state := (state V T).

(** ** trees of callbacks *)
Lemma node_ind' (P : node -> Prop) :
  (forall c, P (User c)) -> (forall l, Forall P l -> P (Filter l)) -> forall x, P x.
Proof.
  intros HU HF. fix IH 1. intros [c|l]; [apply HU|]. apply HF. induction l as [|y l IHl]; constructor; auto.
Qed.

Fixpoint call_list (force : bool) (h : heap) (e : event) (l : list node) : res (heap * list obs) :=
  match l with
  | [] => Ok (h, [])
  | x :: t =>
      do '(h1, o1) <- call_node h (flagged force e) x;
      do '(h2, o2) <- call_list force h1 e t;
      Ok (h2, o1 ++ o2)
  end.
Lemma call_filter h e l : call_node h e (Filter l) = call_list (1 <? length l) h e l.
Proof.
  cbn [call_node]. generalize (1 <? length l) as f. intros f. revert h. induction l as [|x l IH]; intros h; cbn; auto.
  destruct (call_node h (flagged f e) x) as [[h1 o1]|]; cbn; auto. rewrite IH. reflexivity.
Qed.

Definition muts (os : list obs) : list nat := writable (map acc os).
Lemma muts_app a b : muts (a ++ b) = muts a ++ muts b.
Proof. unfold muts, writable. now rewrite map_app, flat_map_app. Qed.

Record Isolated (v : V) (k : nat) (h h' : heap) (os : list obs) : Prop := mkIso {
  iso_len : length os = k;
  iso_unch : unchanged h h';
  iso_seen : forall o, In o os -> seen o = v;
  iso_nodup : NoDup (muts os);
  iso_fresh : forall a, In a (muts os) -> length h <= a < length h';
  iso_grow : length h <= length h'
}.

Lemma unchanged_refl (h : heap) : unchanged h h. Proof. intros a v; auto. Qed.
Lemma unchanged_trans (h1 h2 h3 : heap) : unchanged h1 h2 -> unchanged h2 h3 -> unchanged h1 h3.
Proof. intros H1 H2 a v H. auto. Qed.
Lemma unchanged_app (h : heap) x : unchanged h (h ++ x).
Proof. intros a v H. rewrite nth_error_app1; auto. apply nth_error_Some. congruence. Qed.
Lemma unchanged_upd (h h' : heap) a v : unchanged h h' -> length h <= a -> unchanged h (upd a v h').
Proof.
  intros H Ha b w Hb. assert (b < length h) by (apply nth_error_Some; congruence). specialize (H b w Hb).
  rewrite (nth_error_nth' _ w) by (rewrite upd_length; apply nth_error_Some; congruence).
  rewrite nth_upd_neq by lia. f_equal. now apply nth_error_nth.
Qed.

(** a copying event isolates one callback *)
Lemma call_callback_copying h (e : event) c v :
  const e = true -> need e = true -> nth_error h (msg e) = Some v ->
  exists h' o, call_callback h e c = Ok (h', o) /\ Isolated v 1 h h' [o] /\
    acc o = match fm c with
            | ByValue => Private v
            | ConstRef | ConstSharedRef | ConstShared | EventConst => ReadOnly (msg e)
            | _ => Mutable (length h) end.
Proof.
  intros Hc Hn Hv.
  assert (Hread : forall h' : heap, unchanged h h' -> read h' (msg e) = Ok v).
  { intros h' H. unfold read. now rewrite (H _ _ Hv). }
  assert (Hro : Isolated v 1 h h [mkObs v (ReadOnly (msg e))]).
  { split; cbn; auto; [apply unchanged_refl|intros o [<-|[]]; auto|constructor|intros a []]. }
  assert (Hmut : forall w, exists h' o, (do '(h1, a) <- (do '(h1, _, x) <- copy_event h e false; do '(h2, _, a) <- get_message h1 x; Ok (h2, Mutable a));
     do y <- see h1 a; Ok (put h1 a (w y), mkObs y a)) = Ok (h', o) /\ Isolated v 1 h h' [o] /\ acc o = Mutable (length h)).
  { intros w. unfold copy_event, get_message at 1. rewrite Hc. cbn [orb bind]. unfold get_message. cbn [const need copied msg receipt].
    rewrite Hn. cbn [orb negb]. rewrite (Hread h (unchanged_refl h)). cbn [bind see put].
    assert (Hr : read (h ++ [v]) (length h) = Ok v).
    { unfold read. rewrite nth_error_app2, Nat.sub_diag by lia. reflexivity. }
    rewrite Hr. cbn [bind]. eexists _, _. split; [reflexivity|]. split; [|reflexivity]. unfold write. split; cbn; auto.
    - apply unchanged_upd; [apply unchanged_app|lia].
    - intros o [<-|[]]; auto.
    - repeat constructor; auto.
    - intros a [<-|[]]. rewrite upd_length, app_length. cbn. lia.
    - rewrite upd_length, app_length. cbn. lia. }
  unfold call_callback, param.
  destruct (fm c); cbn [bind see put];
    try (rewrite (Hread h (unchanged_refl h)); cbn [bind see put];
         eexists _, _; split; [reflexivity|]; split; [exact Hro|reflexivity]);
    try apply Hmut.
  rewrite (Hread h (unchanged_refl h)). cbn [bind see put]. eexists _, _; split; [reflexivity|]; split; [|reflexivity].
  split; cbn; auto; [apply unchanged_refl|intros o [<-|[]]; auto|constructor|intros a []].
Qed.

Lemma Isolated_nil v h : Isolated v 0 h h [].
Proof. split; [reflexivity|apply unchanged_refl|intros o []|constructor|intros a []|lia]. Qed.
Lemma Isolated_app v k1 k2 h h1 h2 o1 o2 :
  Isolated v k1 h h1 o1 -> Isolated v k2 h1 h2 o2 -> Isolated v (k1 + k2) h h2 (o1 ++ o2).
Proof.
  intros [A1 A2 A3 A4 A5 A6] [B1 B2 B3 B4 B5 B6]. split.
  - rewrite app_length. lia.
  - eapply unchanged_trans; eauto.
  - intros o H. apply in_app_or in H as [H|H]; auto.
  - rewrite muts_app. clear - A4 B4 A5 B5 A6. induction (muts o1) as [|a l IH]; cbn; auto.
    inversion A4; subst. constructor.
    + intros H. apply in_app_or in H as [H|H]; auto. specialize (A5 a (or_introl eq_refl)). specialize (B5 a H). lia.
    + apply IH; auto. intros; apply A5; cbn; auto.
  - intros a H. rewrite muts_app in H. apply in_app_or in H as [H|H]; [apply A5 in H|apply B5 in H]; lia.
  - lia.
Qed.

Lemma call_node_copying x : forall h (e : event) v,
  const e = true -> need e = true -> nth_error h (msg e) = Some v ->
  exists h' os, call_node h e x = Ok (h', os) /\ Isolated v (users x) h h' os.
Proof.
  induction x as [c|l IH] using node_ind'; intros h e v Hc Hn Hv.
  - cbn. destruct (call_callback_copying h e c v Hc Hn Hv) as (h' & o & -> & HI & _). cbn. eauto.
  - rewrite call_filter. cbn [users]. generalize (1 <? length l) as f. intros f. revert h Hv.
    induction IH as [|x l Hx Hl IHl]; intros h Hv; cbn [call_list map].
    + eexists _, _. split; [reflexivity|]. apply Isolated_nil.
    + destruct (Hx h (flagged f e) v) as (h1 & o1 & -> & HI1); auto.
      { cbn. rewrite Hn. apply orb_true_r. }
      cbn [bind]. destruct (IHl h1) as (h2 & o2 & -> & HI2); [now apply (iso_unch _ _ _ _ _ HI1)|].
      cbn [bind]. eexists _, _. split; [reflexivity|]. change (list_sum (users x :: map users l)) with (users x + list_sum (map users l)).
      eapply Isolated_app; eauto.
Qed.

(** several user callbacks behind a filter *)
Lemma call_node_several x : forall h (e : event) v,
  const e = true -> 2 <= users x -> nth_error h (msg e) = Some v ->
  exists h' os, call_node h e x = Ok (h', os) /\ Isolated v (users x) h h' os.
Proof.
  induction x as [c|l IH] using node_ind'; intros h e v Hc Hu Hv; [cbn in Hu; lia|].
  destruct l as [|x [|y l]].
  - cbn in Hu. lia.
  - inversion IH as [|? ? Hx _]; subst. rewrite call_filter. cbn [length]. cbn [call_list].
    change (users (Filter [x])) with (users x + 0) in *.
    destruct (Hx h (flagged (1 <? 1) e) v) as (h1 & o1 & Hcall & HI1); auto; [lia|].
    rewrite Hcall. cbn [bind]. eexists _, _. split; [reflexivity|]. rewrite app_nil_r, Nat.add_0_r. exact HI1.
  - rewrite call_filter. change (1 <? length (x :: y :: l)) with true.
    assert (Hl : forall ll h, nth_error h (msg e) = Some v -> exists h' os, call_list true h e ll = Ok (h', os) /\
              Isolated v (list_sum (map users ll)) h h' os).
    { induction ll as [|z ll IHl]; intros h0 Hv0; cbn [call_list map].
      - eexists _, _. split; [reflexivity|]. apply Isolated_nil.
      - destruct (call_node_copying z h0 (flagged true e) v) as (h1 & o1 & -> & HI1); auto. cbn [bind].
        destruct (IHl h1) as (h2 & o2 & -> & HI2); [now apply (iso_unch _ _ _ _ _ HI1)|]. cbn [bind].
        eexists _, _. split; [reflexivity|]. change (list_sum (users z :: map users ll)) with (users z + list_sum (map users ll)).
        eapply Isolated_app; eauto. }
    destruct (Hl (x :: y :: l) h Hv) as (h' & os & H1 & H2). eauto.
Qed.

(** ** Signal9 *)
Lemma params_copying (fs : list form) : forall (h : heap) (es : list event) (vs : list V),
  (forall e, In e es -> const e = true /\ need e = true) -> length fs = length es ->
  Forall2 (fun e v => nth_error h (msg e) = Some v) es vs ->
  exists h' l, params h es fs = Ok (h', l) /\ unchanged h h' /\ see_all h' l = Ok vs /\ NoDup (writable l) /\
    (forall a, In a (writable l) -> length h <= a < length h') /\ length h <= length h'.
Proof.
  induction fs as [|fm fs IH]; intros h [|e es] vs He Hlen HF; try discriminate; inversion HF; subst.
  - eexists _, _. cbn. split; [reflexivity|]. split; [apply unchanged_refl|]. split; [reflexivity|].
    split; [constructor|]. split; [intros a []|lia].
  - match goal with H : nth_error h (msg e) = Some ?v |- _ => rename v into v0; rename H into Hv end.
    destruct (He e (or_introl eq_refl)) as [Hc Hn].
    destruct (call_callback_copying h e (mkCallback fm (fun x => x)) v0 Hc Hn Hv) as (h1 & o & Hcall & HI & Hacc).
    unfold call_callback in Hcall. cbn [Event_Model.fm writes] in Hcall.
    destruct (param h e fm) as [[hp a]|] eqn:Hp; [|discriminate]. cbn [bind] in Hcall.
    destruct (see hp a) as [w|] eqn:Hsee; [|discriminate]. cbn [bind] in Hcall. injection Hcall as <- <-.
    pose proof (iso_seen _ _ _ _ _ HI _ (or_introl eq_refl)) as Hw. cbn in Hw. subst w.
    (* the heap after the parameters, before the writes *)
    assert (Hput : put hp a v0 = hp).
    { destruct a; cbn in *; auto. unfold write, read in *. destruct (nth_error hp a) eqn:Ha; [|discriminate]. injection Hsee as ->.
      apply list_eq_nth with (d := v0); [apply upd_length|]. intros j Hj. destruct (Nat.eq_dec a j) as [->|].
      - rewrite nth_upd_eq by (rewrite upd_length in Hj; auto). symmetry. now apply nth_error_nth.
      - now rewrite nth_upd_neq. }
    rewrite Hput in HI. destruct HI as [_ HU _ HN HFr HG].
    match goal with H : Forall2 _ es _ |- _ => rename H into HF' end.
    destruct (IH hp es l') as (h2 & l & Hpar & HU2 & Hsee2 & HN2 & HFr2 & HG2).
    { intros e' He'. apply He. cbn; auto. }
    { cbn in Hlen. lia. }
    { clear - HF' HU. induction HF'; constructor; auto. }
    cbn [params]. rewrite Hp. cbn [bind]. rewrite Hpar. cbn [bind].
    eexists _, _. split; [reflexivity|]. split; [eapply unchanged_trans; eauto|].
    assert (Hsee' : see h2 a = Ok v0).
    { destruct a; cbn in *; auto; unfold read in *;
        (destruct (nth_error hp a) eqn:Ha; [|discriminate]); injection Hsee as ->; now rewrite (HU2 _ _ Ha). }
    cbn [see_all]. rewrite Hsee'. cbn [bind]. rewrite Hsee2. cbn [bind]. split; [reflexivity|].
    replace (writable (a :: l)) with (writable [a] ++ writable l) by (destruct a; reflexivity).
    unfold muts in HN, HFr. cbn [map acc] in HN, HFr. split.
    + clear - HN HN2 HFr HFr2. destruct a; cbn in *; auto. constructor; auto. intros H. specialize (HFr2 _ H).
      specialize (HFr a (or_introl eq_refl)). lia.
    + split; [|lia]. intros b Hb. apply in_app_or in Hb as [Hb|Hb]; [apply HFr in Hb|apply HFr2 in Hb]; lia.
Qed.

Lemma put_all_unchanged w (h : heap) : forall (l : list (access V)) k vs h0,
  unchanged h h0 -> (forall a, In a (writable l) -> length h <= a) ->
  unchanged h (put_all k w h0 l vs) /\ length (put_all k w h0 l vs) = length h0.
Proof.
  induction l as [|a l IH]; intros k [|v vs] h0 HU Hl; cbn; auto.
  assert (HU' : unchanged h (put h0 a (w k v)) /\ length (put h0 a (w k v)) = length h0).
  { destruct a; cbn; auto. unfold write. rewrite upd_length. split; auto. apply unchanged_upd; auto. apply Hl. cbn. auto. }
  destruct HU' as [HU' HL']. rewrite <- HL'. apply IH; auto. intros b Hb. apply Hl. destruct a; cbn; auto.
Qed.

Lemma call9_copying force (cbs : list (callback9 V)) : forall (h : heap) (es : list event) (vs : list V),
  (forall e, In e es -> const e = true /\ need e = true) ->
  (forall c, In c cbs -> length (fms c) = length es) ->
  Forall2 (fun e v => nth_error h (msg e) = Some v) es vs ->
  exists h' os, call9 force h es cbs = Ok (h', os) /\ unchanged h h' /\ length os = length cbs /\
    (forall o, In o os -> fst o = vs) /\ NoDup (flat_map (fun o => writable (snd o)) os) /\
    (forall a, In a (flat_map (fun o => writable (snd o)) os) -> length h <= a < length h') /\ length h <= length h'.
Proof.
  induction cbs as [|c cbs IH]; intros h es vs He Hc HF; cbn [call9].
  - eexists _, _. split; [reflexivity|]. split; [apply unchanged_refl|]. split; [reflexivity|]. split; [intros o []|].
    split; [constructor|]. split; [intros a []|lia].
  - destruct (params_copying (fms c) h es vs He (Hc c (or_introl eq_refl)) HF) as (h1 & l & Hp & HU & Hs & HN & HFr & HG).
    unfold call_callback9. rewrite Hp. cbn [bind]. rewrite Hs. cbn [bind].
    destruct (put_all_unchanged (writes9 c) h l 0 vs h1 HU) as [HU1 HL1]; [intros a Ha; apply HFr in Ha; lia|].
    destruct (IH (put_all 0 (writes9 c) h1 l vs) es vs) as (h2 & os & H2 & HU2 & HL2 & HS2 & HN2 & HF2 & HG2);
      [exact He|intros c' Hc'; apply Hc; right; exact Hc'|generalize (put_all 0 (writes9 c) h1 l vs) HU1; clear - HF; intros hh HU1; induction HF; constructor; auto|].
    rewrite H2. cbn [bind]. eexists _, _. split; [reflexivity|]. split; [eapply unchanged_trans; eauto|].
    split; [cbn; lia|]. split; [intros o [<-|Ho]; auto|]. rewrite HL1 in *. cbn [flat_map snd]. split.
    + clear - HN HN2 HFr HF2. induction (writable l) as [|a m IH]; cbn; auto. inversion HN; subst. constructor.
      * intros H. apply in_app_or in H as [H|H]; auto. specialize (HFr a (or_introl eq_refl)). specialize (HF2 a H). lia.
      * apply IH; auto. intros; apply HFr; cbn; auto.
    + split; [|lia]. intros a Ha. apply in_app_or in Ha as [Ha|Ha]; [apply HFr in Ha|apply HF2 in Ha]; lia.
Qed.

(** ** programs *)
Lemma run_snoc s (h : list op) o :
  run s (h ++ [o]) =
  bind (run s h) (fun '(s1, o1) => bind (step s1 o) (fun '(s2, o2) => Ok (s2, o1 ++ [o2]))).
Proof.
  revert s; induction h as [|y h IH]; intros s; cbn [app Event_Model.run].
  - cbn [run bind]. destruct (step s o) as [[s1 o1]|]; reflexivity.
  - destruct (step s y) as [[s1 o1]|]; cbn [bind]; auto. rewrite IH.
    destruct (run s1 h) as [[s2 o2]|]; cbn [bind]; auto. destruct (step s2 o) as [[s3 o3]|]; reflexivity.
Qed.

Lemma infos_snoc (h : list op) o : infos (h ++ [o]) = describe (infos h) o.
Proof. unfold infos. now rewrite fold_left_app. Qed.
Lemma written_snoc (h : list op) o k :
  written (h ++ [o]) k = match o with Write k' v => if Nat.eqb k' k then Some v else written h k | _ => written h k end.
Proof. unfold written. now rewrite fold_left_app. Qed.

Definition same_event (e e' : event) : Prop :=
  const e' = const e /\ msg e' = msg e /\ receipt e' = receipt e /\ need e' = need e /\
  (forall a, copied e = Some a -> copied e' = Some a).

(** invariant of programs *)
Record Good (s : state) : Prop := mkGood {
  g_msg : forall k e, nth_error (evs s) k = Some e -> msg e < length (mem s);
  g_copied : forall k e a, nth_error (evs s) k = Some e -> copied e = Some a ->
     a < length (mem s) /\ a <> msg e /\ const e = false /\ need e = true;
  g_distinct : forall k k' e e' a, nth_error (evs s) k = Some e -> nth_error (evs s) k' = Some e' ->
     copied e = Some a -> copied e' = Some a -> k = k'
}.

Lemma nth_error_upd_eq {A} k (x : A) l y : nth_error l k = Some y -> nth_error (upd k x l) k = Some x.
Proof.
  intros H. assert (k < length l) by (apply nth_error_Some; congruence).
  rewrite (nth_error_nth' _ x) by (now rewrite upd_length). now rewrite nth_upd_eq.
Qed.
Lemma nth_error_upd_neq {A} k k' (x : A) l : k <> k' -> nth_error (upd k x l) k' = nth_error l k'.
Proof.
  revert k k'. induction l as [|y l IH]; intros [|k] [|k'] H; cbn; auto; try congruence.
Qed.

(** getting the message of event [k] *)
Lemma get_good s k e h' e' a :
  Good s -> nth_error (evs s) k = Some e -> get_message (mem s) e = Ok (h', e', a) ->
  Good (mkState h' (upd k e' (evs s))) /\ same_event e e' /\ unchanged (mem s) h' /\
  length (mem s) <= length h' /\ a < length h' /\
  (if const e || negb (need e) then a = msg e /\ e' = e /\ h' = mem s
   else copied e' = Some a /\ a <> msg e /\ (copied e = None -> a = length (mem s)) /\
        (copied e = None -> nth_error h' a = nth_error (mem s) (msg e))).
Proof.
  intros HG He Hg. unfold get_message in Hg. destruct (const e || negb (need e)) eqn:Hcase.
  { injection Hg as <- <- <-. split.
    - destruct s as [m l]. cbn [mem evs] in *. replace (upd k e l) with l; [exact HG|].
      apply list_eq_nth with (d := e); [now rewrite upd_length|]. intros j Hj. destruct (Nat.eq_dec k j) as [->|].
      + rewrite nth_upd_eq by auto. now apply nth_error_nth.
      + now rewrite nth_upd_neq.
    - split; [split; [auto|]; split; [auto|]; auto|]. split; [apply unchanged_refl|]. split; [lia|].
      split; [now apply (g_msg _ HG k)|auto]. }
  apply orb_false_iff in Hcase as [Hc Hn]. apply negb_false_iff in Hn.
  destruct (copied e) as [a0|] eqn:Hcp.
  - injection Hg as <- <- <-. destruct (g_copied _ HG k e a0 He Hcp) as (H1 & H2 & _). split.
    + destruct s as [m l]. cbn [mem evs] in *. replace (upd k e l) with l; [exact HG|].
      apply list_eq_nth with (d := e); [now rewrite upd_length|]. intros j Hj. destruct (Nat.eq_dec k j) as [->|].
      * rewrite nth_upd_eq by auto. now apply nth_error_nth.
      * now rewrite nth_upd_neq.
    + split; [split; [auto|]; split; [auto|]; auto|]. split; [apply unchanged_refl|]. split; [lia|]. split; [auto|].
      split; [auto|]. split; [auto|]. split; discriminate.
  - destruct (read (mem s) (msg e)) as [v|] eqn:Hr; [|discriminate]. cbn [bind] in Hg. injection Hg as <- <- <-.
    pose proof (g_msg _ HG k e He) as Hm. split; [split|].
    + cbn [mem evs]. intros k' x Hx. rewrite app_length. cbn. destruct (Nat.eq_dec k k') as [->|Hne].
      * rewrite (nth_error_upd_eq _ _ _ _ He) in Hx. injection Hx as <-. cbn. lia.
      * rewrite nth_error_upd_neq in Hx by auto. pose proof (g_msg _ HG k' x Hx). lia.
    + cbn [mem evs]. intros k' x b Hx Hb. rewrite app_length. cbn [length]. destruct (Nat.eq_dec k k') as [->|Hne].
      * rewrite (nth_error_upd_eq _ _ _ _ He) in Hx. injection Hx as <-. cbn in *. injection Hb as <-.
        split; [lia|]. split; [lia|auto].
      * rewrite nth_error_upd_neq in Hx by auto. destruct (g_copied _ HG k' x b Hx Hb) as (H1 & H2). split; [lia|auto].
    + cbn [mem evs]. intros k1 k2 x1 x2 b H1 H2 Hb1 Hb2.
      destruct (Nat.eq_dec k k1) as [E1|Hn1], (Nat.eq_dec k k2) as [E2|Hn2]; [congruence|subst k1|subst k2|].
      * rewrite (nth_error_upd_eq _ _ _ _ He) in H1. injection H1 as <-. cbn in Hb1. injection Hb1 as <-.
        rewrite nth_error_upd_neq in H2 by auto. destruct (g_copied _ HG k2 x2 _ H2 Hb2). lia.
      * rewrite (nth_error_upd_eq _ _ _ _ He) in H2. injection H2 as <-. cbn in Hb2. injection Hb2 as <-.
        rewrite nth_error_upd_neq in H1 by auto. destruct (g_copied _ HG k1 x1 _ H1 Hb1). lia.
      * rewrite nth_error_upd_neq in H1, H2 by auto. eapply (g_distinct _ HG k1 k2); eauto.
    + split; [split; [auto|]; split; [auto|]; split; [auto|]; split; [auto|]; intros b Hb; congruence|].
      split; [apply unchanged_app|]. rewrite app_length. cbn [length]. split; [lia|]. split; [lia|]. split; [auto|].
      split; [lia|]. split; [auto|]. intros _. rewrite nth_error_app2, Nat.sub_diag by lia. cbn.
      unfold read in Hr. destruct (nth_error (mem s) (msg e)); [|discriminate]. now injection Hr as ->.
Qed.

Lemma good_snoc (s : state) x : Good s -> msg x < length (mem s) -> copied x = None -> Good (mkState (mem s) (evs s ++ [x])).
Proof.
  intros [G1 G2 G3] Hm Hc. split; cbn [mem evs].
  - intros k e He. destruct (lt_dec k (length (evs s))).
    + rewrite nth_error_app1 in He by auto. eauto.
    + rewrite nth_error_app2 in He by lia. destruct (k - length (evs s)) as [|[|?]]; cbn in He; try discriminate.
      injection He as <-. auto.
  - intros k e a He Ha. destruct (lt_dec k (length (evs s))).
    + rewrite nth_error_app1 in He by auto. eauto.
    + rewrite nth_error_app2 in He by lia. destruct (k - length (evs s)) as [|[|?]]; cbn in He; try discriminate.
      injection He as <-. congruence.
  - assert (Hin : forall k e a, nth_error (evs s ++ [x]) k = Some e -> copied e = Some a -> nth_error (evs s) k = Some e).
    { intros k e a He Ha. destruct (lt_dec k (length (evs s))).
      - now rewrite nth_error_app1 in He by auto.
      - rewrite nth_error_app2 in He by lia. destruct (k - length (evs s)) as [|[|?]]; cbn in He; try discriminate.
        injection He as <-. congruence. }
    intros k k' e e' a He He' Ha Ha'. eapply G3; eauto.
Qed.

Lemma good_mem (s : state) m : Good s -> length (mem s) <= length m -> Good (mkState m (evs s)).
Proof.
  intros [G1 G2 G3] Hl. split; cbn [mem evs]; eauto.
  - intros k e He. specialize (G1 k e He). lia.
  - intros k e a He Ha. destruct (G2 k e a He Ha) as (H & H'). split; [lia|auto].
Qed.

(** each step keeps the events and their private copies *)
Definition extends (s s' : state) : Prop :=
  forall k e, nth_error (evs s) k = Some e -> exists e', nth_error (evs s') k = Some e' /\ same_event e e'.

Lemma same_refl (e : event) : same_event e e.
Proof. split; [auto|]; split; [auto|]; auto. Qed.
Lemma extends_upd m (s : state) k e e' : nth_error (evs s) k = Some e -> same_event e e' -> extends s (mkState m (upd k e' (evs s))).
Proof.
  intros He Hs k' x Hx. cbn [evs]. destruct (Nat.eq_dec k k') as [->|Hne].
  - rewrite (nth_error_upd_eq _ _ _ _ He). rewrite He in Hx. injection Hx as <-. eauto.
  - rewrite nth_error_upd_neq by auto. exists x. split; auto. apply same_refl.
Qed.
Lemma extends_app m m' (l : list event) x (s : state) : extends s (mkState m l) -> extends s (mkState m' (l ++ [x])).
Proof.
  intros H k e He. destruct (H k e He) as (e' & H1 & H2). exists e'. split; auto. cbn [evs] in *.
  rewrite nth_error_app1; auto. apply nth_error_Some. congruence.
Qed.

Lemma step_good s o s' r : Good s -> step s o = Ok (s', r) -> Good s' /\ extends s s' /\ length (mem s) <= length (mem s').
Proof.
  intros HG Hs. destruct o as [c v t nc|k c|k c nc|k|k|k v]; cbn [step] in Hs.
  - injection Hs as <- <-. split; [|split].
    + assert (HG' : Good (mkState (mem s ++ [v]) (evs s))) by (apply good_mem; [auto|rewrite app_length; lia]).
      apply (good_snoc (mkState (mem s ++ [v]) (evs s)) _ HG'); cbn; auto. rewrite app_length. cbn. lia.
    + apply (extends_app (mem s)). intros k e He. exists e. split; auto. apply same_refl.
    + cbn. rewrite app_length. lia.
  - destruct (nth_event s k) as [e|] eqn:Hk; [|discriminate]. cbn [bind] in Hs.
    unfold nth_event in Hk. destruct (nth_error (evs s) k) as [e0|] eqn:He; [|discriminate]. injection Hk as ->.
    unfold copy_event in Hs. destruct (get_message (mem s) e) as [[[h' e'] a]|] eqn:Hg; [|discriminate]. cbn [bind] in Hs.
    injection Hs as <- <-. destruct (get_good s k e h' e' a HG He Hg) as (HG' & Hsame & HU & HL & Ha & _).
    split; [|split; [apply (extends_app h'); now apply (extends_upd h' s k e e')|auto]].
    apply (good_snoc (mkState h' (upd k e' (evs s)))); auto.
  - destruct (nth_event s k) as [e|] eqn:Hk; [|discriminate]. cbn [bind] in Hs.
    unfold nth_event in Hk. destruct (nth_error (evs s) k) as [e0|] eqn:He; [|discriminate]. injection Hk as ->.
    unfold copy_event_with, copy_event in Hs. destruct (get_message (mem s) e) as [[[h' e'] a]|] eqn:Hg; [|discriminate]. cbn [bind] in Hs.
    injection Hs as <- <-. destruct (get_good s k e h' e' a HG He Hg) as (HG' & Hsame & HU & HL & Ha & _).
    split; [|split; [apply (extends_app h'); now apply (extends_upd h' s k e e')|auto]].
    apply (good_snoc (mkState h' (upd k e' (evs s)))); auto.
  - destruct (nth_event s k) as [e|] eqn:Hk; [|discriminate]. cbn [bind] in Hs.
    unfold nth_event in Hk. destruct (nth_error (evs s) k) as [e0|] eqn:He; [|discriminate]. injection Hk as ->.
    destruct (get_message (mem s) e) as [[[h' e'] a]|] eqn:Hg; [|discriminate]. cbn [bind] in Hs.
    destruct (read h' a) as [v|]; [|discriminate]. cbn [bind] in Hs. injection Hs as <- <-.
    destruct (get_good s k e h' e' a HG He Hg) as (HG' & Hsame & HU & HL & Ha & _).
    split; [auto|]. split; [now apply (extends_upd h' s k e e')|auto].
  - destruct (nth_event s k) as [e|] eqn:Hk; [|discriminate]. cbn [bind] in Hs.
    destruct (read (mem s) (msg e)) as [v|]; [|discriminate]. cbn [bind] in Hs. injection Hs as <- <-.
    split; [auto|]. split; [|auto]. intros k' x Hx. exists x. split; auto. apply same_refl.
  - destruct (nth_event s k) as [e|] eqn:Hk; [|discriminate]. cbn [bind] in Hs.
    unfold nth_event in Hk. destruct (nth_error (evs s) k) as [e0|] eqn:He; [|discriminate]. injection Hk as ->.
    destruct (const e); [discriminate|].
    destruct (get_message (mem s) e) as [[[h' e'] a]|] eqn:Hg; [|discriminate]. cbn [bind] in Hs. injection Hs as <- <-.
    destruct (get_good s k e h' e' a HG He Hg) as (HG' & Hsame & HU & HL & Ha & _).
    split; [|split; [now apply (extends_upd _ s k e e')|cbn; unfold write; rewrite upd_length; auto]].
    apply (good_mem (mkState h' (upd k e' (evs s)))); auto. cbn. unfold write. rewrite upd_length. auto.
Qed.

Lemma init_good : Good init.
Proof. split; intros k; intros; destruct k; discriminate. Qed.

Lemma run_good h s rs : run init h = Ok (s, rs) -> Good s /\ length rs = length h.
Proof.
  revert s rs. induction h as [|o h IH] using rev_ind; intros s rs Hr.
  - cbn in Hr. injection Hr as <- <-. split; [apply init_good|reflexivity].
  - rewrite run_snoc in Hr. destruct (run init h) as [[s1 r1]|]; [|discriminate]. cbn [bind] in Hr.
    destruct (IH s1 r1 eq_refl) as [HG HL]. destruct (step s1 o) as [[s2 r2]|] eqn:Hs; [|discriminate]. cbn [bind] in Hr.
    injection Hr as <- <-. split; [eapply step_good; eauto|rewrite !app_length; cbn; lia].
Qed.

Lemma extends_refl s : extends s s.
Proof. intros k e He. exists e. split; auto. apply same_refl. Qed.
Lemma extends_trans s1 s2 s3 : extends s1 s2 -> extends s2 s3 -> extends s1 s3.
Proof.
  intros H1 H2 k e He. destruct (H1 k e He) as (e1 & He1 & A1 & A2 & A3 & A4 & A5).
  destruct (H2 k e1 He1) as (e2 & He2 & B1 & B2 & B3 & B4 & B5). exists e2. split; auto.
  split; [congruence|]. split; [congruence|]. split; [congruence|]. split; [congruence|]. auto.
Qed.
Lemma run_extends h : forall s s' rs, Good s -> run s h = Ok (s', rs) -> Good s' /\ extends s s'.
Proof.
  induction h as [|o h IH]; intros s s' rs HG Hr; cbn [run] in Hr.
  - injection Hr as <- <-. split; [auto|apply extends_refl].
  - destruct (step s o) as [[s1 r1]|] eqn:Hs; [|discriminate]. cbn [bind] in Hr.
    destruct (run s1 h) as [[s2 r2]|] eqn:Hr2; [|discriminate]. cbn [bind] in Hr. injection Hr as <- <-.
    destruct (step_good s o s1 r1 HG Hs) as (HG1 & HE & _). destruct (IH s1 s2 r2 HG1 Hr2) as [HG2 HE2].
    split; auto. eapply extends_trans; eauto.
Qed.

(** what getMessage returns is determined by the event *)
Lemma get_result s k s' a v : Good s -> step s (Get k) = Ok (s', Got a v) ->
  exists e, nth_error (evs s') k = Some e /\ a = (if const e || negb (need e) then msg e else match copied e with Some b => b | None => msg e end) /\
    (const e || negb (need e) = false -> copied e = Some a).
Proof.
  intros HG Hs. cbn [step] in Hs. destruct (nth_event s k) as [e|] eqn:Hk; [|discriminate]. cbn [bind] in Hs.
  unfold nth_event in Hk. destruct (nth_error (evs s) k) as [e0|] eqn:He; [|discriminate]. injection Hk as ->.
  destruct (get_message (mem s) e) as [[[h' e'] a']|] eqn:Hg; [|discriminate]. cbn [bind] in Hs.
  destruct (read h' a') as [v'|]; [|discriminate]. cbn [bind] in Hs. injection Hs as <- <- <-.
  destruct (get_good s k e h' e' a' HG He Hg) as (HG' & (S1 & S2 & S3 & S4 & S5) & HU & HL & Ha & Hcase).
  exists e'. cbn [evs]. split; [now apply (nth_error_upd_eq _ _ _ _ He)|].
  rewrite S1, S4. destruct (const e || negb (need e)).
  - destruct Hcase as (-> & -> & _). split; [auto|discriminate].
  - destruct Hcase as (Hc & _). rewrite Hc. auto.
Qed.

(** ** events as the user expects them *)
Record Expected (h : list op) (s : state) : Prop := mkExp {
  x_len : length (evs s) = length (infos h);
  x_info : forall k e i, nth_error (evs s) k = Some e -> nth_error (infos h) k = Some i ->
    const e = is_const i /\ receipt e = received_at i /\ need e = copies i
}.

Lemma nth_error_ex {A B} (l : list A) (m : list B) k x : length l = length m -> nth_error l k = Some x -> exists y, nth_error m k = Some y.
Proof.
  intros Hl H. assert (k < length l) by (apply nth_error_Some; congruence).
  destruct (nth_error m k) eqn:E; eauto. apply nth_error_None in E. lia.
Qed.

Lemma expected_snoc h s l' x i o :
  length l' = length (evs s) ->
  (forall k e, nth_error l' k = Some e -> exists e0, nth_error (evs s) k = Some e0 /\ same_event e0 e) ->
  Expected h s -> const x = is_const i -> receipt x = received_at i -> need x = copies i ->
  infos (h ++ [o]) = infos h ++ [i] -> forall m, Expected (h ++ [o]) (mkState m (l' ++ [x])).
Proof.
  intros Hl Hs [E1 E2] H1 H2 H3 Hinf m. split; rewrite Hinf; cbn [evs].
  - rewrite !app_length. cbn. lia.
  - intros k e j He Hj. destruct (lt_dec k (length (evs s))).
    + rewrite nth_error_app1 in He by lia. rewrite nth_error_app1 in Hj by lia.
      destruct (Hs k e He) as (e0 & He0 & A1 & A2 & A3 & A4 & _). destruct (E2 k e0 j He0 Hj) as (B1 & B2 & B3).
      rewrite A1, A3, A4. auto.
    + rewrite nth_error_app2 in He by lia. rewrite nth_error_app2 in Hj by lia. rewrite Hl in He. rewrite <- E1 in Hj.
      destruct (k - length (evs s)) as [|[|?]]; cbn in He, Hj; try discriminate.
      injection He as <-. injection Hj as <-. auto.
Qed.

Lemma same_inverse (s : state) k e e' : nth_error (evs s) k = Some e -> same_event e e' ->
  forall j x, nth_error (upd k e' (evs s)) j = Some x -> exists e0, nth_error (evs s) j = Some e0 /\ same_event e0 x.
Proof.
  intros He Hs j x Hx. destruct (Nat.eq_dec k j) as [->|Hne].
  - rewrite (nth_error_upd_eq _ _ _ _ He) in Hx. injection Hx as <-. eauto.
  - rewrite nth_error_upd_neq in Hx by auto. exists x. split; auto. apply same_refl.
Qed.

Lemma step_expected h s o s' r : Good s -> Expected h s -> step s o = Ok (s', r) -> Expected (h ++ [o]) s'.
Proof.
  intros HG HE Hs. pose proof HE as [E1 E2]. destruct o as [c v t nc|k c|k c nc|k|k|k v]; cbn [step] in Hs.
  - injection Hs as <- <-. eapply (expected_snoc h s (evs s) _ (mkInfo c v t nc)); eauto.
    + intros k e He. exists e. split; auto. apply same_refl.
    + rewrite infos_snoc. reflexivity.
  - destruct (nth_event s k) as [e|] eqn:Hk; [|discriminate]. cbn [bind] in Hs.
    unfold nth_event in Hk. destruct (nth_error (evs s) k) as [e0|] eqn:He; [|discriminate]. injection Hk as ->.
    unfold copy_event in Hs. destruct (get_message (mem s) e) as [[[h' e'] a]|] eqn:Hg; [|discriminate]. cbn [bind] in Hs.
    injection Hs as <- <-. destruct (get_good s k e h' e' a HG He Hg) as (_ & Hsame & _).
    destruct (nth_error_ex _ _ _ _ E1 He) as [i Hi]. destruct (E2 k e i He Hi) as (A1 & A2 & A3).
    eapply (expected_snoc h s (upd k e' (evs s)) _ (mkInfo c (original i) (received_at i) (copies i))); eauto.
    + apply upd_length.
    + now apply same_inverse with (e := e).
    + rewrite infos_snoc. cbn [describe]. now rewrite Hi.
  - destruct (nth_event s k) as [e|] eqn:Hk; [|discriminate]. cbn [bind] in Hs.
    unfold nth_event in Hk. destruct (nth_error (evs s) k) as [e0|] eqn:He; [|discriminate]. injection Hk as ->.
    unfold copy_event_with, copy_event in Hs. destruct (get_message (mem s) e) as [[[h' e'] a]|] eqn:Hg; [|discriminate]. cbn [bind] in Hs.
    injection Hs as <- <-. destruct (get_good s k e h' e' a HG He Hg) as (_ & Hsame & _).
    destruct (nth_error_ex _ _ _ _ E1 He) as [i Hi]. destruct (E2 k e i He Hi) as (A1 & A2 & A3).
    eapply (expected_snoc h s (upd k e' (evs s)) _ (mkInfo c (original i) (received_at i) nc)); eauto.
    + apply upd_length.
    + now apply same_inverse with (e := e).
    + rewrite infos_snoc. cbn [describe]. now rewrite Hi.
  - destruct (nth_event s k) as [e|] eqn:Hk; [|discriminate]. cbn [bind] in Hs.
    unfold nth_event in Hk. destruct (nth_error (evs s) k) as [e0|] eqn:He; [|discriminate]. injection Hk as ->.
    destruct (get_message (mem s) e) as [[[h' e'] a]|] eqn:Hg; [|discriminate]. cbn [bind] in Hs.
    destruct (read h' a) as [v|]; [|discriminate]. cbn [bind] in Hs. injection Hs as <- <-.
    destruct (get_good s k e h' e' a HG He Hg) as (_ & Hsame & _).
    split; rewrite infos_snoc; cbn [describe evs]; [now rewrite upd_length|].
    intros j x i Hx Hi. destruct (same_inverse s k e e' He Hsame j x Hx) as (x0 & Hx0 & B1 & B2 & B3 & B4 & _).
    rewrite B1, B3, B4. eauto.
  - destruct (nth_event s k) as [e|]; [|discriminate]. cbn [bind] in Hs.
    destruct (read (mem s) (msg e)) as [v|]; [|discriminate]. cbn [bind] in Hs. injection Hs as <- <-.
    split; rewrite infos_snoc; auto.
  - destruct (nth_event s k) as [e|] eqn:Hk; [|discriminate]. cbn [bind] in Hs.
    unfold nth_event in Hk. destruct (nth_error (evs s) k) as [e0|] eqn:He; [|discriminate]. injection Hk as ->.
    destruct (const e); [discriminate|].
    destruct (get_message (mem s) e) as [[[h' e'] a]|] eqn:Hg; [|discriminate]. cbn [bind] in Hs. injection Hs as <- <-.
    destruct (get_good s k e h' e' a HG He Hg) as (_ & Hsame & _).
    split; rewrite infos_snoc; cbn [describe evs]; [now rewrite upd_length|].
    intros j x i Hx Hi. destruct (same_inverse s k e e' He Hsame j x Hx) as (x0 & Hx0 & B1 & B2 & B3 & B4 & _).
    rewrite B1, B3, B4. eauto.
Qed.

Lemma run_expected h s rs : run init h = Ok (s, rs) -> Expected h s.
Proof.
  revert s rs. induction h as [|o h IH] using rev_ind; intros s rs Hr.
  - cbn in Hr. injection Hr as <- <-. split; [reflexivity|]. intros [|k] e i H; discriminate.
  - rewrite run_snoc in Hr. destruct (run init h) as [[s1 r1]|] eqn:Hr1; [|discriminate]. cbn [bind] in Hr.
    destruct (run_good h s1 r1 Hr1) as [HG _]. destruct (step s1 o) as [[s2 r2]|] eqn:Hs; [|discriminate]. cbn [bind] in Hr.
    injection Hr as <- <-. eapply step_expected; eauto.
Qed.

(** ** contents as the user expects them *)
Record Values (h : list op) (s : state) : Prop := mkVal {
  v_orig : forall k e i, nth_error (evs s) k = Some e -> nth_error (infos h) k = Some i ->
    nth_error (mem s) (msg e) = Some (original i);
  v_copy : forall k e i, nth_error (evs s) k = Some e -> nth_error (infos h) k = Some i ->
    match copied e with
    | Some a => nth_error (mem s) a = Some (match written h k with Some v => v | None => original i end)
    | None => written h k = None
    end;
  v_sep : forall k k' e e' a, nth_error (evs s) k = Some e -> nth_error (evs s) k' = Some e' ->
    copied e = Some a -> msg e' <> a;
  v_none : forall k, length (evs s) <= k -> written h k = None
}.

Lemma values_get h s k e h' e' a :
  Good s -> Expected h s -> Values h s -> nth_error (evs s) k = Some e -> get_message (mem s) e = Ok (h', e', a) ->
  Values h (mkState h' (upd k e' (evs s))).
Proof.
  intros HG HE [V1 V2 V3 V4] He Hg.
  destruct (get_good s k e h' e' a HG He Hg) as (HG' & Hsame & HU & HL & Ha & Hcase).
  destruct (const e || negb (need e)) eqn:Hc.
  { destruct Hcase as (-> & -> & ->). replace (upd k e (evs s)) with (evs s); [split; auto|].
    apply list_eq_nth with (d := e); [now rewrite upd_length|]. intros j Hj. destruct (Nat.eq_dec k j) as [->|].
    - rewrite nth_upd_eq by auto. now apply nth_error_nth.
    - now rewrite nth_upd_neq. }
  destruct Hcase as (Hcp & Hne & Hfresh & Hval).
  split; cbn [mem evs].
  - intros j x i Hx Hi. destruct (same_inverse s k e e' He Hsame j x Hx) as (x0 & Hx0 & B1 & B2 & _). rewrite B2. apply HU. eauto.
  - intros j x i Hx Hi. destruct (Nat.eq_dec k j) as [<-|Hj].
    + rewrite (nth_error_upd_eq _ _ _ _ He) in Hx. injection Hx as <-. rewrite Hcp.
      specialize (V2 k e i He Hi). destruct (copied e) as [b|] eqn:Hb.
      * destruct Hsame as (_ & _ & _ & _ & Hk). rewrite (Hk b Hb) in Hcp. injection Hcp as ->. apply HU. exact V2.
      * rewrite V2, (Hval eq_refl). eauto.
    + rewrite nth_error_upd_neq in Hx by auto. specialize (V2 j x i Hx Hi). destruct (copied x); auto.
  - intros j j' x x' b Hx Hx' Hb.
    destruct (same_inverse s k e e' He Hsame j' x' Hx') as (x0 & Hx0 & B1 & B2 & _). rewrite B2.
    destruct (Nat.eq_dec k j) as [<-|Hj].
    + rewrite (nth_error_upd_eq _ _ _ _ He) in Hx. injection Hx as <-. rewrite Hcp in Hb. injection Hb as <-.
      destruct (copied e) as [b|] eqn:Hb0.
      * destruct Hsame as (_ & _ & _ & _ & Hk). rewrite (Hk b Hb0) in Hcp. injection Hcp as ->. apply (V3 k j' e x0); auto.
      * rewrite (Hfresh eq_refl). pose proof (g_msg _ HG j' x0 Hx0). lia.
    + rewrite nth_error_upd_neq in Hx by auto. apply (V3 j j' x x0); auto.
  - intros j Hj. apply V4. now rewrite upd_length in Hj.
Qed.

Lemma values_snoc h s x i o :
  Good s -> length (evs s) = length (infos h) -> Values h s -> copied x = None -> nth_error (mem s) (msg x) = Some (original i) ->
  (forall k e a, nth_error (evs s) k = Some e -> copied e = Some a -> msg x <> a) ->
  infos (h ++ [o]) = infos h ++ [i] -> (forall k, written (h ++ [o]) k = written h k) ->
  Values (h ++ [o]) (mkState (mem s) (evs s ++ [x])).
Proof.
  intros HG HL [V1 V2 V3 V4] Hx Hm Hsep Hinf Hw.
  assert (Hold : forall k e, nth_error (evs s ++ [x]) k = Some e -> k < length (evs s) /\ nth_error (evs s) k = Some e \/ k = length (evs s) /\ e = x).
  { intros k e He. destruct (lt_dec k (length (evs s))).
    - rewrite nth_error_app1 in He by auto. auto.
    - rewrite nth_error_app2 in He by lia. right. destruct (k - length (evs s)) as [|[|?]] eqn:E; cbn in He; try discriminate.
      injection He as <-. split; auto; lia. }
  split; cbn [mem evs].
  - intros k e j He Hj. rewrite Hinf in Hj. destruct (Hold k e He) as [[Hk He']|[-> ->]].
    + rewrite nth_error_app1 in Hj by lia. eauto.
    + rewrite nth_error_app2, HL, Nat.sub_diag in Hj by lia. cbn in Hj. injection Hj as <-. auto.
  - intros k e j He Hj. rewrite Hinf in Hj. rewrite Hw. destruct (Hold k e He) as [[Hk He']|[-> ->]].
    + rewrite nth_error_app1 in Hj by lia. exact (V2 k e j He' Hj).
    + rewrite Hx. apply V4. lia.
  - intros k k' e e' a He He' Ha. destruct (Hold k e He) as [[Hk Hke]|[-> ->]]; [|congruence].
    destruct (Hold k' e' He') as [[Hk' Hke']|[-> ->]]; eauto.
  - intros k Hk. rewrite Hw. apply V4. rewrite app_length in Hk. cbn in Hk. lia.
Qed.

Lemma values_put h s k v a e i :
  Good s -> Values h s -> nth_error (evs s) k = Some e -> copied e = Some a -> nth_error (infos h) k = Some i ->
  Values (h ++ [Write k v]) (mkState (write (mem s) a v) (evs s)).
Proof.
  intros HG [V1 V2 V3 V4] He Ha Hi. destruct (g_copied _ HG k e a He Ha) as (Hlt & _).
  assert (Hinf : infos (h ++ [Write k v]) = infos h) by (now rewrite infos_snoc).
  assert (Hk : k < length (evs s)) by (apply nth_error_Some; congruence).
  split; cbn [mem evs]; try rewrite Hinf.
  - intros j x i' Hx Hi'. unfold write. rewrite nth_error_upd_neq; [exact (V1 j x i' Hx Hi')|]. intros E. exact (V3 k j e x a He Hx Ha (eq_sym E)).
  - intros j x i' Hx Hi'. rewrite written_snoc. destruct (Nat.eqb_spec k j) as [<-|Hne].
    + rewrite He in Hx. injection Hx as <-. rewrite Ha. unfold write.
      destruct (nth_error (mem s) a) as [w|] eqn:E; [|apply nth_error_None in E; lia]. eapply nth_error_upd_eq; eauto.
    + specialize (V2 j x i' Hx Hi'). destruct (copied x) as [b|] eqn:Hb; auto. unfold write. rewrite nth_error_upd_neq; auto.
      intros <-. apply Hne. eapply (g_distinct _ HG); eauto.
  - eauto.
  - intros j Hj. rewrite written_snoc. destruct (Nat.eqb_spec k j); [lia|auto].
Qed.

Lemma infos_mono (h : list op) o : exists l, infos (h ++ [o]) = infos h ++ l.
Proof.
  rewrite infos_snoc. destruct o as [c v t nc|k c|k c nc|k|k|k v]; cbn [describe];
    try (exists []; now rewrite app_nil_r); try (eexists; reflexivity);
    destruct (nth_error (infos h) k); try (eexists; reflexivity); exists []; now rewrite app_nil_r.
Qed.
Lemma all_copying_prefix (h : list op) o : all_copying (h ++ [o]) -> all_copying h.
Proof.
  intros H k i Hi Hc. destruct (infos_mono h o) as [l Hl]. apply (H k i); auto. rewrite Hl, nth_error_app1; auto.
  apply nth_error_Some. congruence.
Qed.
Lemma const_sources_prefix (h : list op) o : const_sources (h ++ [o]) -> const_sources h.
Proof.
  intros H h1 h2 k c o' i -> Ho Hi. apply (H h1 (h2 ++ [o]) k c o' i); auto. now rewrite <- app_assoc.
Qed.

Lemma step_values h s o s' r :
  const_sources (h ++ [o]) -> all_copying (h ++ [o]) ->
  Good s -> Expected h s -> Values h s -> step s o = Ok (s', r) -> Values (h ++ [o]) s'.
Proof.
  intros HCS HAC HG HE HV Hs. pose proof HE as [E1 E2]. pose proof HV as [V1 V2 V3 V4].
  pose proof (all_copying_prefix h o HAC) as HAC'.
  destruct o as [c v t nc|k c|k c nc|k|k|k v]; cbn [step] in Hs.
  - injection Hs as <- <-.
    assert (HG' : Good (mkState (mem s ++ [v]) (evs s))) by (apply good_mem; [auto|rewrite app_length; lia]).
    apply (values_snoc h (mkState (mem s ++ [v]) (evs s)) _ (mkInfo c v t nc)); auto.
    + split; cbn [mem evs]; [| |exact V3|exact V4].
      * intros k e i He Hi. apply unchanged_app. eauto.
      * intros k e i He Hi. specialize (V2 k e i He Hi). destruct (copied e); auto. apply unchanged_app. auto.
    + cbn. rewrite nth_error_app2, Nat.sub_diag by lia. reflexivity.
    + cbn. intros k e a He Ha. destruct (g_copied _ HG k e a He Ha). lia.
    + now rewrite infos_snoc.
    + intros k. now rewrite written_snoc.
  - destruct (nth_event s k) as [e|] eqn:Hk; [|discriminate]. cbn [bind] in Hs.
    unfold nth_event in Hk. destruct (nth_error (evs s) k) as [e0|] eqn:He; [|discriminate]. injection Hk as ->.
    unfold copy_event in Hs. destruct (get_message (mem s) e) as [[[h' e'] a]|] eqn:Hg; [|discriminate]. cbn [bind] in Hs.
    injection Hs as <- <-. destruct (get_good s k e h' e' a HG He Hg) as (HG' & Hsame & HU & _ & _ & Hcase).
    destruct (nth_error_ex _ _ _ _ E1 He) as [i Hi]. destruct (E2 k e i He Hi) as (A1 & A2 & A3).
    assert (Hci : is_const i = true) by (apply (HCS h [] k c (Copy k c) i); auto).
    rewrite A1, Hci in Hcase. cbn [orb] in Hcase. destruct Hcase as (-> & -> & ->).
    pose proof (values_get h s k e _ _ _ HG HE HV He Hg) as HV'.
    apply (values_snoc h (mkState (mem s) (upd k e (evs s))) _ (mkInfo c (original i) (received_at i) (copies i))); auto.
    + cbn. now rewrite upd_length.
    + cbn. eauto.
    + cbn. intros k1 e1 b H1 Hb. destruct (same_inverse s k e e He Hsame k1 e1 H1) as (x0 & Hx0 & _).
      eapply (v_sep _ _ HV'); cbn; eauto. now apply nth_error_upd_eq with (y := e).
    + rewrite infos_snoc. cbn [describe]. now rewrite Hi.
    + intros k1. now rewrite written_snoc.
  - destruct (nth_event s k) as [e|] eqn:Hk; [|discriminate]. cbn [bind] in Hs.
    unfold nth_event in Hk. destruct (nth_error (evs s) k) as [e0|] eqn:He; [|discriminate]. injection Hk as ->.
    unfold copy_event_with, copy_event in Hs. destruct (get_message (mem s) e) as [[[h' e'] a]|] eqn:Hg; [|discriminate]. cbn [bind] in Hs.
    injection Hs as <- <-. destruct (get_good s k e h' e' a HG He Hg) as (HG' & Hsame & HU & _ & _ & Hcase).
    destruct (nth_error_ex _ _ _ _ E1 He) as [i Hi]. destruct (E2 k e i He Hi) as (A1 & A2 & A3).
    assert (Hci : is_const i = true) by (apply (HCS h [] k c (CopyWith k c nc) i); eauto).
    rewrite A1, Hci in Hcase. cbn [orb] in Hcase. destruct Hcase as (-> & -> & ->).
    pose proof (values_get h s k e _ _ _ HG HE HV He Hg) as HV'.
    apply (values_snoc h (mkState (mem s) (upd k e (evs s))) _ (mkInfo c (original i) (received_at i) nc)); auto.
    + cbn. now rewrite upd_length.
    + cbn. eauto.
    + cbn. intros k1 e1 b H1 Hb. destruct (same_inverse s k e e He Hsame k1 e1 H1) as (x0 & Hx0 & _).
      eapply (v_sep _ _ HV'); cbn; eauto. now apply nth_error_upd_eq with (y := e).
    + rewrite infos_snoc. cbn [describe]. now rewrite Hi.
    + intros k1. now rewrite written_snoc.
  - destruct (nth_event s k) as [e|] eqn:Hk; [|discriminate]. cbn [bind] in Hs.
    unfold nth_event in Hk. destruct (nth_error (evs s) k) as [e0|] eqn:He; [|discriminate]. injection Hk as ->.
    destruct (get_message (mem s) e) as [[[h' e'] a]|] eqn:Hg; [|discriminate]. cbn [bind] in Hs.
    destruct (read h' a) as [v|]; [|discriminate]. cbn [bind] in Hs. injection Hs as <- <-.
    destruct (values_get h s k e _ _ _ HG HE HV He Hg) as [W1 W2 W3 W4].
    split; try rewrite infos_snoc; [exact W1| |exact W3|].
    + intros j x i Hx Hi. rewrite written_snoc. exact (W2 j x i Hx Hi).
    + intros j Hj. rewrite written_snoc. exact (W4 j Hj).
  - destruct (nth_event s k) as [e|]; [|discriminate]. cbn [bind] in Hs.
    destruct (read (mem s) (msg e)) as [v|]; [|discriminate]. cbn [bind] in Hs. injection Hs as <- <-.
    split; try rewrite infos_snoc; [exact V1| |exact V3|].
    + intros j x i Hx Hi. rewrite written_snoc. exact (V2 j x i Hx Hi).
    + intros j Hj. rewrite written_snoc. exact (V4 j Hj).
  - destruct (nth_event s k) as [e|] eqn:Hk; [|discriminate]. cbn [bind] in Hs.
    unfold nth_event in Hk. destruct (nth_error (evs s) k) as [e0|] eqn:He; [|discriminate]. injection Hk as ->.
    destruct (const e) eqn:Hce; [discriminate|].
    destruct (get_message (mem s) e) as [[[h' e'] a]|] eqn:Hg; [|discriminate]. cbn [bind] in Hs. injection Hs as <- <-.
    destruct (get_good s k e h' e' a HG He Hg) as (HG' & Hsame & HU & _ & _ & Hcase).
    destruct (nth_error_ex _ _ _ _ E1 He) as [i Hi]. destruct (E2 k e i He Hi) as (A1 & A2 & A3).
    assert (Hn : need e = true) by (rewrite A3; apply (HAC' k i); auto; congruence).
    rewrite Hce, Hn in Hcase. cbn [orb negb] in Hcase. destruct Hcase as (Hcp & _).
    pose proof (values_get h s k e _ _ _ HG HE HV He Hg) as HV'.
    apply (values_put h (mkState h' (upd k e' (evs s))) k v a e' i); auto.
    cbn. now apply nth_error_upd_eq with (y := e).
Qed.

Lemma run_values h s rs : const_sources h -> all_copying h -> run init h = Ok (s, rs) -> Values h s.
Proof.
  revert s rs. induction h as [|o h IH] using rev_ind; intros s rs HCS HAC Hr.
  - cbn in Hr. injection Hr as <- <-. split; try (intros [|k] e i H; discriminate); try (intros [|k] k' e e' a H; discriminate).
    reflexivity.
  - rewrite run_snoc in Hr. destruct (run init h) as [[s1 r1]|] eqn:Hr1; [|discriminate]. cbn [bind] in Hr.
    destruct (run_good h s1 r1 Hr1) as [HG _]. pose proof (run_expected h s1 r1 Hr1) as HE.
    destruct (step s1 o) as [[s2 r2]|] eqn:Hs; [|discriminate]. cbn [bind] in Hr.
    injection Hr as <- <-. eapply step_values; eauto. eapply IH; eauto using const_sources_prefix, all_copying_prefix.
Qed.

(** what a call returns at a position of a program *)
Lemma run_app s (h1 h2 : list op) :
  run s (h1 ++ h2) = bind (run s h1) (fun '(s1, o1) => bind (run s1 h2) (fun '(s2, o2) => Ok (s2, o1 ++ o2))).
Proof.
  revert s; induction h1 as [|y h1 IH]; intros s; cbn [app run].
  - cbn [bind]. destruct (run s h2) as [[s1 o1]|]; reflexivity.
  - destruct (step s y) as [[s1 o1]|]; cbn [bind]; auto. rewrite IH.
    destruct (run s1 h1) as [[s2 o2]|]; cbn [bind]; auto. destruct (run s2 h2) as [[s3 o3]|]; reflexivity.
Qed.
Lemma run_at (h1 : list op) o h2 s rs : run init (h1 ++ o :: h2) = Ok (s, rs) ->
  exists s1 r1 s2 r, run init h1 = Ok (s1, r1) /\ step s1 o = Ok (s2, r) /\ nth_error rs (length h1) = Some r /\
    exists r3, run s2 h2 = Ok (s, r3) /\ rs = r1 ++ r :: r3 /\ Good s1 /\ Good s2.
Proof.
  intros Hr. rewrite run_app in Hr. destruct (run init h1) as [[s1 r1]|] eqn:H1; [|discriminate]. cbn [bind run] in Hr.
  destruct (step s1 o) as [[s2 r]|] eqn:H2; [|discriminate]. cbn [bind] in Hr.
  destruct (run s2 h2) as [[s3 r3]|] eqn:H3; [|discriminate]. cbn [bind] in Hr. injection Hr as <- <-.
  destruct (run_good h1 s1 r1 H1) as [HG HL]. destruct (step_good s1 o s2 r HG H2) as [HG2 _].
  exists s1, r1, s2, r. split; [auto|]. split; [auto|]. split.
  - rewrite <- HL, nth_error_app2, Nat.sub_diag by lia. reflexivity.
  - exists r3. auto.
Qed.

Lemma get_ok s k e : Good s -> nth_error (evs s) k = Some e -> exists h' e' a, get_message (mem s) e = Ok (h', e', a) /\ exists v, read h' a = Ok v.
Proof.
  intros HG He. pose proof (g_msg _ HG k e He) as Hm.
  assert (Hrd : forall (l : heap) b, b < length l -> exists v, read l b = Ok v).
  { intros l b Hb. unfold read. destruct (nth_error l b) eqn:E; eauto. apply nth_error_None in E. lia. }
  assert (Hg : exists h' e' a, get_message (mem s) e = Ok (h', e', a)).
  { unfold get_message. destruct (const e || negb (need e)); eauto. destruct (copied e); eauto.
    destruct (Hrd _ _ Hm) as [v ->]. cbn. eauto. }
  destruct Hg as (h' & e' & a & Hg). exists h', e', a. split; auto. apply Hrd.
  destruct (get_good s k e h' e' a HG He Hg) as (_ & _ & _ & _ & Ha & _). exact Ha.
Qed.

Lemma run_legal (h : list op) : legal h -> exists s rs, run init h = Ok (s, rs).
Proof.
  induction h as [|o h IH] using rev_ind; intros HL; [eexists _, _; reflexivity|].
  destruct IH as (s & rs & Hr).
  { intros h1 o' h2 ->. apply (HL h1 o' (h2 ++ [o])). now rewrite <- app_assoc. }
  rewrite run_snoc, Hr. cbn [bind]. destruct (run_good h s rs Hr) as [HG _]. destruct (run_expected h s rs Hr) as [E1 E2].
  specialize (HL h o [] eq_refl).
  assert (Hev : forall k, k < length (infos h) -> exists e, nth_event s k = Ok e /\ nth_error (evs s) k = Some e).
  { intros k Hk. unfold nth_event. destruct (nth_error (evs s) k) eqn:E; eauto. apply nth_error_None in E. lia. }
  assert (Hst : exists s' r, step s o = Ok (s', r)).
  { destruct o as [c v t nc|k c|k c nc|k|k|k v]; cbn [step]; [eauto|..].
    - destruct (Hev k HL) as (e & -> & He). cbn [bind]. destruct (get_ok s k e HG He) as (h' & e' & a & Hg & _).
      unfold copy_event. rewrite Hg. cbn. eauto.
    - destruct (Hev k HL) as (e & -> & He). cbn [bind]. destruct (get_ok s k e HG He) as (h' & e' & a & Hg & _).
      unfold copy_event_with, copy_event. rewrite Hg. cbn. eauto.
    - destruct (Hev k HL) as (e & -> & He). cbn [bind]. destruct (get_ok s k e HG He) as (h' & e' & a & Hg & v & Hv).
      rewrite Hg. cbn [bind]. rewrite Hv. cbn. eauto.
    - destruct (Hev k HL) as (e & -> & He). cbn [bind]. pose proof (g_msg _ HG k e He) as Hm. unfold read.
      destruct (nth_error (mem s) (msg e)) eqn:E; [cbn; eauto|apply nth_error_None in E; lia].
    - destruct HL as (i & Hi & Hci). destruct (Hev k) as (e & -> & He); [apply nth_error_Some; congruence|]. cbn [bind].
      destruct (E2 k e i He Hi) as (A1 & _). rewrite A1, Hci. destruct (get_ok s k e HG He) as (h' & e' & a & -> & _). cbn. eauto. }
  destruct Hst as (s' & r & ->). cbn. eauto.
Qed.
End Proofs.
