From Coq Require Import List Arith Lia Bool Sorted.
From Verif Require Import Base Trace Signal_Model Signal_Spec.
Import ListNotations.

Section Proofs.
Context {C M : Type} (acts : C -> M -> list (act C M)).
Notation op := (op C M).
Notation state := (state C).
Notation step := (step acts).
Notation run := (run acts).
Notation lt_fst := (fun a b : nat * C => fst a < fst b).

Lemma registrations_snoc (h : list op) o :
  registrations (h ++ [o]) = registrations h + match o with Register _ => 1 | _ => 0 end.
Proof. unfold registrations. rewrite filter_app, app_length. destruct o; reflexivity. Qed.

Lemma connected_lt (h : list op) k c : connected h k c -> k < registrations h.
Proof.
  intros (h1 & h2 & -> & <- & _). unfold registrations. rewrite filter_app, app_length. cbn. lia.
Qed.

Lemma connected_snoc (h : list op) o k c :
  connected (h ++ [o]) k c <->
  (connected h k c /\ o <> Disconnect (Some k)) \/ (o = Register c /\ k = registrations h).
Proof.
  split.
  - intros (h1 & h2 & Heq & Hk & Hd). destruct h2 as [|y h2 _] using rev_ind.
    + apply app_inj_tail in Heq as [-> ->]. auto.
    + rewrite app_comm_cons, app_assoc in Heq. apply app_inj_tail in Heq as [-> ->]. left. split.
      * exists h1, h2. split; auto. split; auto. intros H. apply Hd, in_or_app. auto.
      * intros ->. apply Hd, in_or_app. cbn. auto.
  - intros [((h1 & h2 & -> & Hk & Hd) & Ho)|(-> & ->)].
    + exists h1, (h2 ++ [o]). rewrite <- app_assoc. split; auto. split; auto.
      intros H. apply in_app_or in H as [H|[H|[]]]; auto.
    + exists h, []. auto.
Qed.

Lemma erase_in k (l : list (nat * C)) x :
  StronglySorted lt_fst l -> (In x (erase k l) <-> In x l /\ fst x <> k).
Proof.
  induction l as [|y l IH]; intros HS; cbn; [tauto|]. inversion HS as [|? ? HS' HF]; subst. rewrite Forall_forall in HF.
  destruct (Nat.eqb_spec (fst y) k) as [<-|Hne].
  - split; [intros H; specialize (HF x H); split; [auto|lia]|intros [[->|H] Hx]; congruence].
  - cbn. rewrite IH by auto. split; [intros [->|[H Hx]]; auto|intros [[->|H] Hx]; auto].
Qed.
Lemma erase_sorted k (l : list (nat * C)) : StronglySorted lt_fst l -> StronglySorted lt_fst (erase k l).
Proof.
  induction l as [|y l IH]; intros HS; cbn; [constructor|]. inversion HS as [|? ? HS' HF]; subst.
  destruct (Nat.eqb_spec (fst y) k); auto. constructor; auto. rewrite Forall_forall in *.
  intros x Hx. apply erase_in in Hx; auto. now apply HF.
Qed.

Lemma sorted_snoc (l : list (nat * C)) x :
  StronglySorted lt_fst l -> (forall y, In y l -> fst y < fst x) -> StronglySorted lt_fst (l ++ [x]).
Proof.
  intros HS Hx. apply StronglySorted_app. split; auto. split; [repeat constructor|].
  intros a b Ha [<-|[]]. auto.
Qed.

Record Inv (h : list op) (s : state) : Prop := mkInv {
  inv_next : next s = registrations h;
  inv_cbs : all_connected h (callbacks s)
}.

Lemma init_inv : Inv [] init.
Proof.
  split; [reflexivity|]. split; [constructor|]. intros k c. split; [intros []|].
  intros (h1 & h2 & H & _). destruct h1; discriminate.
Qed.

Lemma step_inv h s o s' r : Inv h s -> step s o = Ok (s', r) -> Inv (h ++ [o]) s'.
Proof.
  intros [Hn [HS HC]] Hs. destruct o as [c|[k|]|m]; cbn in Hs.
  - injection Hs as <- <-. split; cbn; [rewrite registrations_snoc; lia|]. split.
    + apply sorted_snoc; auto. intros [k c'] Hin. apply HC, connected_lt in Hin. cbn. lia.
    + intros k c'. rewrite in_app_iff, HC, connected_snoc. cbn. split.
      * intros [H|[[= <- <-]|[]]]; [left; split; [auto|discriminate]|auto].
      * intros [[H _]|[[= ->] ->]]; [auto|right; left; congruence].
  - injection Hs as <- <-. split; cbn; [rewrite registrations_snoc; lia|]. split; [now apply erase_sorted|].
    intros k' c'. rewrite erase_in by auto. rewrite HC, connected_snoc. cbn. split.
    + intros [H1 H2]. left. split; auto. congruence.
    + intros [[H1 H2]|[H _]]; [|discriminate]. split; auto. congruence.
  - injection Hs as <- <-. split; cbn; [rewrite registrations_snoc; lia|]. split; auto.
    intros k' c'. rewrite HC, connected_snoc. split; [intros H; left; split; [auto|discriminate]|].
    intros [[H _]|[H _]]; [auto|discriminate].
  - destruct (call acts (callbacks s) m) as [[called b]|]; [|discriminate]. cbn in Hs. injection Hs as <- <-.
    split; [rewrite registrations_snoc; lia|]. split; auto.
    intros k' c'. rewrite HC, connected_snoc. split; [intros H; left; split; [auto|discriminate]|].
    intros [[H _]|[H _]]; [auto|discriminate].
Qed.

Lemma run_snoc s h o :
  run s (h ++ [o]) =
  bind (run s h) (fun '(s1, o1) => bind (step s1 o) (fun '(s2, o2) => Ok (s2, o1 ++ [o2]))).
Proof.
  revert s; induction h as [|y h IH]; intros s; cbn [app Signal_Model.run].
  - cbn. destruct (step s o) as [[s1 o1]|]; reflexivity.
  - destruct (step s y) as [[s1 o1]|]; cbn; auto. rewrite IH.
    destruct (run s1 h) as [[s2 o2]|]; cbn; auto. destruct (step s2 o) as [[s3 o3]|]; reflexivity.
Qed.

Lemma run_inv h s rs : run init h = Ok (s, rs) -> Inv h s /\ length rs = length h.
Proof.
  revert s rs. induction h as [|o h IH] using rev_ind; intros s rs Hr.
  - cbn in Hr. injection Hr as <- <-. split; [apply init_inv|reflexivity].
  - rewrite run_snoc in Hr. destruct (run init h) as [[s1 r1]|]; [|discriminate]. cbn [bind] in Hr.
    destruct (IH s1 r1 eq_refl) as [HI HL].
    destruct (step s1 o) as [[s2 r2]|] eqn:Hs; [|discriminate]. cbn in Hr. injection Hr as <- <-.
    split; [eapply step_inv; eauto|rewrite !app_length; cbn; lia].
Qed.

(** a run up to and including the k-th call *)
Lemma run_at h s rs p o r :
  run init h = Ok (s, rs) -> nth_error h p = Some o -> nth_error rs p = Some r ->
  exists s1 r1 s2, run init (firstn p h) = Ok (s1, r1) /\ step s1 o = Ok (s2, r).
Proof.
  revert s rs. induction h as [|y h IH] using rev_ind; intros s rs Hr Ho Hx.
  - destruct p; discriminate.
  - rewrite run_snoc in Hr. destruct (run init h) as [[s1 r1]|] eqn:Hrh; [|discriminate]. cbn [bind] in Hr.
    destruct (step s1 y) as [[s2 r2]|] eqn:Hs; [|discriminate]. cbn in Hr. injection Hr as <- <-.
    destruct (run_inv h s1 r1 Hrh) as [_ HL].
    destruct (lt_eq_lt_dec p (length h)) as [[Hk|Hk]|Hk].
    + rewrite nth_error_app1 in Ho, Hx by lia. rewrite firstn_app.
      replace (p - length h) with 0 by lia. rewrite firstn_O, app_nil_r. eapply IH; eauto.
    + subst p. rewrite nth_error_app2, Nat.sub_diag in Ho by lia. rewrite nth_error_app2 in Hx by lia.
      rewrite HL, Nat.sub_diag in Hx. cbn in Ho, Hx. injection Ho as ->. injection Hx as ->.
      exists s1, r1, s2. rewrite firstn_app, Nat.sub_diag, firstn_all, firstn_O, app_nil_r. auto.
    + assert (nth_error (h ++ [y]) p = None) by (apply nth_error_None; rewrite app_length; cbn; lia). congruence.
Qed.

Lemma all_connected_unique h (l l' : list (nat * C)) : all_connected (M := M) h l -> all_connected h l' -> l = l'.
Proof.
  intros [S1 H1] [S2 H2]. assert (Hin : forall x, In x l <-> In x l').
  { intros [k c]. now rewrite H1, H2. }
  clear H1 H2. revert l' S2 Hin. induction l as [|x l IH]; intros [|x' l'] S2 Hin; auto.
  - exfalso. apply (Hin x'). cbn; auto.
  - exfalso. apply (Hin x). cbn; auto.
  - inversion S1 as [|? ? S1' F1]; inversion S2 as [|? ? S2' F2]; subst. rewrite Forall_forall in *.
    assert (x = x').
    { destruct (proj1 (Hin x) (or_introl eq_refl)) as [|Hx]; auto.
      destruct (proj2 (Hin x') (or_introl eq_refl)) as [|Hx']; auto.
      specialize (F2 _ Hx). specialize (F1 _ Hx'). lia. }
    subst x'. f_equal. apply IH; auto. intros y. split; intros Hy.
    + destruct (proj1 (Hin y) (or_intror Hy)) as [<-|]; auto. specialize (F1 _ Hy). lia.
    + destruct (proj2 (Hin y) (or_intror Hy)) as [<-|]; auto. specialize (F2 _ Hy). lia.
Qed.

Lemma call_passive l m : passive acts -> call acts l m = Ok (l, false).
Proof. intros HP. induction l as [|[k c] l IH]; cbn; auto. rewrite HP. cbn. now rewrite IH. Qed.

Lemma call_prefix l m called b : call acts l m = Ok (called, b) ->
  if b : bool then exists l1 k c l2, l = l1 ++ (k, c) :: l2 /\ called = l1 ++ [(k, c)] /\ run_acts (acts c m) = Ok true /\
                   (forall x, In x l1 -> run_acts (acts (snd x) m) = Ok false)
  else called = l /\ (forall x, In x l -> run_acts (acts (snd x) m) = Ok false).
Proof.
  revert called b. induction l as [|[k c] l IH]; intros called b H; cbn in H.
  - injection H as <- <-. split; auto. intros x [].
  - destruct (run_acts (acts c m)) as [[|]|] eqn:Ha; [| |discriminate]; cbn in H.
    + injection H as <- <-. exists [], k, c, l. split; auto. split; auto. split; auto. intros x [].
    + destruct (call acts l m) as [[called' b']|]; [|discriminate]. cbn in H. injection H as <- <-.
      specialize (IH called' b' eq_refl). destruct b'.
      * destruct IH as (l1 & k' & c' & l2 & -> & -> & Ht & Hl). exists ((k, c) :: l1), k', c', l2.
        split; auto. split; auto. split; auto. intros x [<-|Hx]; auto.
      * destruct IH as [-> Hl]. split; auto. intros x [<-|Hx]; auto.
Qed.
End Proofs.
