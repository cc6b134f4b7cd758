(** Lemmas for C122. *)
From Coq Require Import List Arith ZArith Lia Bool.
From Verif Require Import Base RclTime Trace Latest_Model Latest_Spec Latest_Proofs LatestBack_Model LatestBack_Spec.
Import ListNotations.

Section Proofs.
Context {E D : Type} (f : fops D).
Variable n : nat.
Variable default : config D.
Variable src : nat -> clock.
Notation state := (state E D).
Notation add := (add f n default).
Notation run := (Latest_Model.run f n default).
Notation step := (Latest_Model.step f n default).
Local Notation init := (init (E := E) (D := D) n).

(** ** the configurations do not matter once every input has a message *)
Definition is_full (s : state) : Prop := exists l, full (events s) = Some l.
Definition sim (a b : state) : Prop :=
  events a = events b /\ rates a = rates b /\ (configs a = configs b \/ is_full a).

Lemma full_upd (evs : list (option E)) i e : (exists l, full evs = Some l) -> exists l, full (upd i (Some e) evs) = Some l.
Proof.
  revert i. induction evs as [|[x|] evs IH]; intros i (l & H); cbn in *; [destruct i; cbn; eauto| |discriminate].
  destruct (full evs) as [l'|] eqn:Hf; [|discriminate]. destruct i as [|i]; cbn.
  - rewrite Hf. eauto.
  - destruct (IH i) as (l2 & H2); [eauto|]. rewrite H2. eauto.
Qed.

Lemma full_some (evs : list (option E)) i : (exists l, full evs = Some l) -> nth_error evs i <> Some None.
Proof.
  revert i. induction evs as [|[x|] evs IH]; intros i (l & H); cbn in *; [destruct i; discriminate| |discriminate].
  destruct (full evs) as [l'|]; [|discriminate]. destruct i as [|i]; cbn; [discriminate|]. apply IH. eauto.
Qed.

Lemma add_sim (a b : state) i e t : sim a b ->
  match add a i e t, add b i e t with
  | Ok (a', x), Ok (b', y) =>
      x = y /\ events a' = events b' /\ rates a' = rates b' /\ configs a' = configs a /\ configs b' = configs b /\
      (is_full a -> is_full a') /\ (forall set, x = Published set -> is_full a')
  | Err x, Err y => x = y
  | _, _ => False
  end.
Proof.
  intros (He & Hr & Hc). unfold Latest_Model.add. rewrite <- He, <- Hr.
  destruct (nth_error (events a) i) as [[e0|]|] eqn:Hn; auto.
  - destruct (nth_error (rates a) i) as [r|]; auto. destruct (compute_hz f t r) as [[r' v]|]; cbn [bind rates events configs]; auto.
    assert (HF : is_full a -> is_full (mkState (upd i (Some e) (events a)) (upd i r' (rates a)) (configs a)))
      by (intros H; unfold is_full; cbn; now apply full_upd).
    destruct v; [match goal with |- context [find_pivot ?x ?y ?z] => destruct (find_pivot x y z) as [p|er] end|].
    + destruct (match p with Some j => j =? i | None => false end).
      * destruct (full (upd i (Some e) (events a))) as [l|] eqn:Hf; cbn; do 6 (split; auto); intros set Hset.
        -- unfold is_full. cbn. eauto.
        -- discriminate.
      * cbn. do 6 (split; auto). discriminate.
    + destruct er; cbn; auto. do 6 (split; auto). discriminate.
    + cbn. do 6 (split; auto). discriminate.
  - destruct Hc as [Hc|Hc]; [|exfalso; exact (full_some _ _ Hc Hn)]. cbn.
    assert (Hcf : config_for n default a i = config_for n default b i) by (unfold config_for; now rewrite Hc).
    rewrite Hcf. repeat split; auto; [intros H; unfold is_full; cbn; now apply full_upd|discriminate].
Qed.

Lemma run_sim h : forall (a b a' : state) xs,
  sim a b -> run a h = Ok (a', xs) ->
  exists b', run b h = Ok (b', xs) /\ sim a' b'.
Proof.
  induction h as [|o h IH]; intros a b a' xs HS Hr; cbn in Hr.
  - injection Hr as <- <-. exists b. auto.
  - destruct (step a o) as [[a1 x]|] eqn:Ho; [|discriminate]. cbn in Hr.
    destruct (run a1 h) as [[a2 xs']|] eqn:Hr1; [|discriminate]. cbn in Hr. injection Hr as <- <-.
    assert (H1 : exists b1, step b o = Ok (b1, x) /\ sim a1 b1).
    { destruct o as [i e t|cs]; cbn in *.
      - pose proof (add_sim a b i e t HS) as HA. rewrite Ho in HA. destruct (add b i e t) as [[b1 y]|]; [|destruct HA].
        destruct HA as (<- & A1 & A2 & A3 & A4 & A5 & _). exists b1. split; auto. split; auto. split; auto.
        destruct HS as (_ & _ & [HS|HS]); [left; congruence|right; auto].
      - injection Ho as <- <-. eexists. split; [reflexivity|]. destruct HS as (S1 & S2 & _). split; auto. }
    destruct H1 as (b1 & Hb & HS1). destruct (IH a1 b1 a2 xs' HS1 Hr1) as (b2 & Hb2 & HS2).
    exists b2. cbn. rewrite Hb. cbn. rewrite Hb2. auto.
Qed.

Lemma full_received h s : Inv n h s -> (forall i, i < n -> received i h <> []) -> is_full s.
Proof.
  intros [H1 H2 _] Hall. apply full_iff. intros j Hj. rewrite H2 by lia. intros H.
  apply latest_none in H. apply (Hall j); [lia|auto].
Qed.

(** ** callbacks *)
Section Callback.
Variable cb : list (list E) -> list (call E D).
Hypothesis Hcb : never_adds cb.
Notation insides := (insides (E := E) (D := D)).
Notation step_cb := (step_cb f n default src cb).
Notation run_cb := (run_cb f n default src cb).

Lemma insides_ok cs : forall s : st E D,
  (forall i e r, ~ In (CAdd i e r) cs) ->
  exists s', insides s cs = Ok s' /\ events (pol s') = events (pol s) /\ rates (pol s') = rates (pol s) /\
    ck s' = clock_after (ck s) cs.
Proof.
  induction cs as [|c cs IH]; intros s H; cbn; [eauto|].
  assert (H' : forall i e r, ~ In (CAdd i e r) cs) by (intros i e r Hin; apply (H i e r); now right).
  destruct c as [i e r|c|k]; cbn.
  - exfalso. apply (H i e r). now left.
  - destruct (IH (mkSt (mkState (events (pol s)) (rates (pol s)) c) (ck s)) H') as (s' & Hs & E1 & E2 & E3). cbn in *. eauto.
  - destruct (IH (mkSt (pol s) k) H') as (s' & Hs & E1 & E2 & E3). cbn in *. eauto.
Qed.

Lemma run_script h : forall (s s' : st E D) (b : state) seen xs,
  sim (pol s) b -> run_cb s seen h = Ok (s', xs) ->
  exists b', run b (script src cb (ck s) (configs b) seen h xs) = Ok (b', xs) /\ sim (pol s') b' /\ length xs = length h.
Proof.
  induction h as [|c h IH]; intros s s' b seen xs HS Hr; cbn in Hr.
  - injection Hr as <- <-. exists b. auto.
  - destruct (step_cb s seen c) as [[s1 x]|] eqn:Hc; [|discriminate]. cbn in Hr.
    destruct (run_cb s1 (seen ++ published x) h) as [[s2 xs']|] eqn:Hr1; [|discriminate]. cbn in Hr. injection Hr as <- <-.
    destruct c as [i e r|cs|k]; cbn in Hc.
    + set (t := mkTime (r (ck s)) (src (ck s))) in *.
      pose proof (add_sim (pol s) b i e t HS) as HA.
      destruct (add (pol s) i e t) as [[p y]|]; [|discriminate]. cbn in Hc.
      destruct (add b i e t) as [[b1 z]|] eqn:Hb; [|destruct HA].
      destruct HA as (<- & A1 & A2 & A3 & A4 & A5 & A6).
      destruct (signal_cb cb (mkSt p (ck s)) seen y) as [s1'|] eqn:Hsig; [|discriminate]. cbn in Hc. injection Hc as <- <-.
      assert (HS1 : sim (pol s1') b1 /\ ck s1' = match y with Published set => clock_after (ck s) (cb (seen ++ [set])) | _ => ck s end).
      { destruct y as [|set|]; cbn in Hsig.
        - injection Hsig as <-. cbn. split; auto. split; auto. split; auto. destruct HS as (_ & _ & [HS|HS]); [left; congruence|right; auto].
        - destruct (insides_ok (cb (seen ++ [set])) (mkSt p (ck s)) (Hcb (seen ++ [set]))) as (s3 & Hi & E1 & E2 & E3).
          rewrite Hi in Hsig. injection Hsig as <-. cbn in *. split; auto. split; [congruence|]. split; [congruence|].
          right. destruct (A6 set eq_refl) as (l & Hl). exists l. now rewrite E1.
        - injection Hsig as <-. cbn. split; auto. split; auto. split; auto. destruct HS as (_ & _ & [HS|HS]); [left; congruence|right; auto]. }
      destruct HS1 as [HS1 Hck]. destruct (IH s1' s2 b1 (seen ++ published y) xs' HS1 Hr1) as (b2 & Hb2 & HS2 & HL).
      rewrite Hck, A4 in Hb2. exists b2. cbn [script Latest_Model.run Latest_Model.step]. fold t. rewrite Hb. cbn [bind].
      rewrite Hb2. cbn. auto.
    + injection Hc as <- <-. set (b1 := mkState (events b) (rates b) cs).
      assert (HS1 : sim (mkState (events (pol s)) (rates (pol s)) cs) b1) by (destruct HS as (S1 & S2 & _); split; auto).
      destruct (IH (mkSt (mkState (events (pol s)) (rates (pol s)) cs) (ck s)) s2 b1 (seen ++ published Quiet) xs' HS1 Hr1) as (b2 & Hb2 & HS2 & HL). cbn [ck] in Hb2.
      exists b2. cbn [script Latest_Model.run Latest_Model.step bind]. fold b1. cbn [b1 configs] in Hb2. rewrite Hb2. cbn. auto.
    + injection Hc as <- <-.
      assert (Hb1 : mkState (events b) (rates b) (configs b) = b) by (now destruct b).
      destruct (IH (mkSt (pol s) k) s2 b (seen ++ published Quiet) xs' HS Hr1) as (b2 & Hb2 & HS2 & HL). cbn [ck] in Hb2.
      exists b2. cbn [script Latest_Model.run Latest_Model.step bind]. rewrite Hb1, Hb2. cbn. auto.
Qed.

Lemma run_cb_snoc h c : forall (s : st E D) seen,
  run_cb s seen (h ++ [c]) =
  bind (run_cb s seen h) (fun '(s1, xs) => bind (step_cb s1 (seen ++ all_published xs) c) (fun '(s2, x) => Ok (s2, xs ++ [x]))).
Proof.
  induction h as [|y h IH]; intros s seen; cbn [app LatestBack_Model.run_cb].
  - cbn [bind all_published flat_map]. rewrite app_nil_r. destruct (step_cb s seen c) as [[s1 x]|]; reflexivity.
  - destruct (step_cb s seen y) as [[s1 x]|]; cbn [bind]; auto. rewrite IH.
    destruct (run_cb s1 _ h) as [[s2 xs]|]; cbn [bind]; auto. unfold all_published. cbn [flat_map]. rewrite app_assoc.
    destruct (step_cb s2 _ c) as [[s3 z]|]; reflexivity.
Qed.

Lemma Inv_same h (a b : state) : events a = events b -> rates a = rates b -> Inv n h a -> Inv n h b.
Proof. intros H1 H2 [I1 I2 I3]. split; rewrite <- ?H1, <- ?H2; auto. Qed.

Lemma Inv_time h i e t t' (s : state) : Inv n (h ++ [Add i e t]) s -> Inv n (h ++ [Add i e t']) s.
Proof.
  intros [I1 I2 I3]. split; auto.
  - intros j Hj. rewrite I2 by auto. now rewrite !latest_add.
  - rewrite I3. apply started_ext. intros j Hj. now rewrite !received_add.
Qed.

Lemma untimed_snoc h (c : call E D) : untimed (h ++ [c]) = untimed h ++ untimed [c].
Proof. unfold untimed. apply map_app. Qed.

Lemma run_cb_inv k h : well_indexed n (untimed h) ->
  match run_cb (init_cb n k) [] h with
  | Ok (s, xs) => Inv n (untimed h) (pol s) /\ enough_started n (untimed h)
  | Err er => er = UB /\ ~ enough_started n (untimed h)
  end.
Proof.
  induction h as [|c h IH] using rev_ind; intros HW.
  - cbn. split; [apply init_inv|]. intros h1 i e t h2 H. destruct h1; discriminate.
  - rewrite run_cb_snoc. rewrite untimed_snoc in *. cbn [untimed map] in *.
    apply well_indexed_snoc in HW as [HW Ho]. specialize (IH HW).
    destruct (run_cb (init_cb n k) [] h) as [[s xs]|er]; cbn [bind].
    2:{ destruct IH as [-> IH]. split; auto. intros H. apply IH. now apply enough_snoc in H as [H _]. }
    destruct IH as [HI HE]. destruct c as [i e r|cs|k']; cbn [LatestBack_Model.step_cb bind].
    + specialize (Ho i e time_default eq_refl). set (t := mkTime _ _).
      destruct (add_cases f n default _ (pol s) i e t HI Ho) as [(Hr & Hs)|[(Hr & Hle & Hs)|(Hr & Hlt & rr & r' & b & x & _ & _ & Hs & _)]].
      * pose proof (add_inv f n default _ _ _ _ _ _ _ HI Ho Hs) as HI'. rewrite Hs. cbn. split; [eapply Inv_time; exact HI'|].
        apply enough_snoc. split; auto. intros i0 e0 t0 [= <- <- <-] H. congruence.
      * rewrite Hs. cbn. split; auto. intros H. apply enough_snoc in H as [_ H].
        specialize (H i e time_default eq_refl Hr). lia.
      * cbn zeta in Hs. pose proof (add_inv f n default _ _ _ _ _ _ _ HI Ho Hs) as HI'. rewrite Hs. cbn [bind].
        set (p := mkState _ _ _) in *.
        assert (HE' : enough_started n (untimed h ++ [Add i e time_default])).
        { apply enough_snoc. split; auto. intros i0 e0 t0 [= <- <- <-] H. auto. }
        destruct x as [|set|]; cbn [signal_cb bind].
        -- split; auto. eapply Inv_time; exact HI'.
        -- destruct (insides_ok (cb (([] ++ all_published xs) ++ [set])) (mkSt p (ck s)) (Hcb _)) as (s3 & -> & E1 & E2 & E3).
           cbn. split; auto. eapply Inv_same; [symmetry; exact E1|symmetry; exact E2|]. eapply Inv_time; exact HI'.
        -- split; auto. eapply Inv_time; exact HI'.
    + split.
      * pose proof (set_inv n _ _ [] HI) as HI'. eapply Inv_same; [| |exact HI']; reflexivity.
      * apply enough_snoc. split; auto. discriminate.
    + split.
      * pose proof (set_inv n _ _ [] HI) as HI'. eapply Inv_same; [| |exact HI']; reflexivity.
      * apply enough_snoc. split; auto. discriminate.
Qed.
Lemma run_cb_app h1 h2 : forall (s : st E D) seen,
  run_cb s seen (h1 ++ h2) =
  bind (run_cb s seen h1) (fun '(s1, xs) => bind (run_cb s1 (seen ++ all_published xs) h2) (fun '(s2, ys) => Ok (s2, xs ++ ys))).
Proof.
  induction h1 as [|y h IH]; intros s seen; cbn [app LatestBack_Model.run_cb].
  - cbn [bind all_published flat_map]. rewrite app_nil_r. destruct (run_cb s seen h2) as [[s1 x]|]; reflexivity.
  - destruct (step_cb s seen y) as [[s1 x]|]; cbn [bind]; auto. rewrite IH.
    destruct (run_cb s1 _ h) as [[s2 xs]|]; cbn [bind]; auto. unfold all_published. cbn [flat_map]. rewrite app_assoc.
    destruct (run_cb s2 _ h2) as [[s3 z]|]; reflexivity.
Qed.

Lemma run_cb_length h : forall (s s' : st E D) seen xs, run_cb s seen h = Ok (s', xs) -> length xs = length h.
Proof.
  induction h as [|c h IH]; intros s s' seen xs H; cbn in H; [now injection H as <- <-|].
  destruct (step_cb s seen c) as [[s1 x]|]; [|discriminate]. cbn in H.
  destruct (run_cb s1 (seen ++ published x) h) as [[s2 ys]|] eqn:Hr; [|discriminate]. injection H as <- <-.
  cbn. f_equal. eauto.
Qed.

Lemma published_at k h1 c h2 s xs set : well_indexed n (untimed (h1 ++ c :: h2)) ->
  run_cb (init_cb n k) [] (h1 ++ c :: h2) = Ok (s, xs) -> nth_error xs (length h1) = Some (Published set) ->
  exists i e r, c = CAdd i e r /\ length set = n /\
    forall j, j < n -> nth_error set j = latest j (untimed (h1 ++ [c])).
Proof.
  intros HW Hr Hx. replace (h1 ++ c :: h2) with ((h1 ++ [c]) ++ h2) in * by now rewrite <- app_assoc.
  assert (HW1 : well_indexed n (untimed (h1 ++ [c]))).
  { intros i e t Hin. apply (HW i e t). unfold untimed in *. rewrite map_app. apply in_or_app. now left. }
  pose proof (run_cb_inv k (h1 ++ [c]) HW1) as HI.
  rewrite run_cb_app in Hr. destruct (run_cb (init_cb n k) [] (h1 ++ [c])) as [[s1 xs1]|] eqn:Hr1; [|discriminate].
  cbn [bind] in Hr. destruct (run_cb s1 _ h2) as [[s2 ys]|]; [|discriminate]. cbn [bind] in Hr. injection Hr as <- <-.
  destruct HI as [HI _].
  rewrite run_cb_snoc in Hr1. destruct (run_cb (init_cb n k) [] h1) as [[s0 xs0]|] eqn:Hr0; [|discriminate].
  cbn [bind] in Hr1. destruct (step_cb s0 _ c) as [[s0' x]|] eqn:Hc; [|discriminate]. cbn [bind] in Hr1. injection Hr1 as <- <-.
  pose proof (run_cb_length _ _ _ _ _ Hr0) as HL.
  rewrite <- app_assoc, nth_error_app2, HL, Nat.sub_diag in Hx by lia. injection Hx as ->.
  destruct c as [i e r|cs|k']; cbn in Hc; [|discriminate|discriminate].
  exists i, e, r. split; auto.
  destruct (add (pol s0) i e _) as [[p y]|] eqn:Ha in Hc; [|discriminate]. cbn in Hc.
  destruct (signal_cb cb (mkSt p (ck s0)) _ y) as [s3|] eqn:Hsig in Hc; [|discriminate]. cbn in Hc. injection Hc as <- ->.
  assert (HF : full (events (pol s3)) = Some set).
  { cbn in Hsig. destruct (insides_ok (cb (all_published xs0 ++ [set])) (mkSt p (ck s0)) (Hcb _)) as (s4 & Hi & E1 & _).
    rewrite Hi in Hsig. injection Hsig as <-. rewrite E1. cbn. clear - Ha. unfold Latest_Model.add in Ha.
    destruct (nth_error (events (pol s0)) i) as [[e0|]|]; [| |discriminate].
    2:{ injection Ha as <- Ha. discriminate. }
    destruct (nth_error (rates (pol s0)) i) as [rr|]; [|discriminate].
    destruct (compute_hz f _ rr) as [[r' v]|]; [|discriminate]. cbn [bind] in Ha.
    destruct v; [|injection Ha as <- Ha; discriminate].
    destruct (find_pivot f _ _) as [q|er]; [|destruct er; try discriminate; injection Ha as <- Ha; discriminate].
    destruct (match q with Some j => j =? i | None => false end); [|injection Ha as <- Ha; discriminate].
    destruct (full (upd i (Some e) (events (pol s0)))) as [l|] eqn:Hf; injection Ha as <- Ha; [|discriminate].
    cbn. congruence. }
  destruct (full_spec _ _ HF) as [HF1 HF2]. destruct HI as [I1 I2 _]. split; [congruence|].
  intros j Hj. rewrite HF2 by lia. now apply I2.
Qed.

Lemma script_well_indexed k conf h : forall seen xs, well_indexed n (untimed h) -> well_indexed n (script src cb k conf seen h xs).
Proof.
  revert k conf. induction h as [|c h IH]; intros k conf seen xs HW; [destruct xs; intros ? ? ? []|].
  assert (HW' : well_indexed n (untimed h)) by (intros i e t Hin; apply (HW i e t); now right).
  destruct xs as [|x xs]; [destruct c; intros ? ? ? []|].
  destruct c as [i e r|cs|k']; cbn [script]; intros i0 e0 t0 [H|H];
    try discriminate; try (eapply IH; [|exact H]; exact HW').
  injection H as <- <- <-. apply (HW i e time_default). now left.
Qed.

Lemma app_eq_len {A} (a b c d : list A) : a ++ b = c ++ d -> length a = length c -> a = c /\ b = d.
Proof.
  revert c. induction a as [|x a IH]; intros [|y c] H HL; try discriminate; auto.
  injection H as -> H. injection HL as HL. destruct (IH c H HL) as [-> ->]. auto.
Qed.

Definition no_clock (h : list (call E D)) : Prop := forall k, ~ In (CClock k) h.

Lemma script_before k conf h c : forall seen xs x i e t,
  no_clock h -> all_published xs = [] -> length xs = length h ->
  In (Add i e t) (script src cb k conf seen (h ++ [c]) (xs ++ [x])) -> clk t = src k.
Proof.
  revert conf. induction h as [|y h IH]; intros conf seen xs x i e t HN HP HL Hin.
  - destruct xs; [|discriminate]. destruct c; cbn in Hin; destruct Hin as [H|[]]; try discriminate. injection H as <- <- <-. auto.
  - destruct xs as [|z xs]; [discriminate|]. injection HL as HL.
    assert (HN' : no_clock h) by (intros k0 H; apply (HN k0); now right).
    unfold all_published in HP. cbn [flat_map] in HP. apply app_eq_nil in HP as [HP1 HP2].
    destruct y as [i0 e0 r|cs|k']; cbn [app script] in Hin; destruct Hin as [H|Hin]; try discriminate.
    + injection H as <- <- <-. auto.
    + destruct z; [|discriminate|]; eapply IH; eauto.
    + eapply IH; eauto.
    + exfalso. apply (HN k'). now left.
Qed.

Lemma script_after K h : forall k conf seen xs i e t,
  no_clock h -> (forall k' o, src (clock_after k' (cb o)) <> K) -> src k <> K ->
  In (Add i e t) (script src cb k conf seen h xs) -> clk t <> K.
Proof.
  induction h as [|y h IH]; intros k conf seen xs i e t HN HC HK Hin; [destruct xs; destruct Hin|].
  destruct xs as [|z xs]; [destruct y; destruct Hin|].
  assert (HN' : no_clock h) by (intros k0 H; apply (HN k0); now right).
  destruct y as [i0 e0 r|cs|k']; cbn [script] in Hin; destruct Hin as [H|Hin]; try discriminate.
  - injection H as <- <- <-. auto.
  - refine (IH _ _ _ _ _ _ _ HN' HC _ Hin). destruct z as [|set|]; auto.
  - exact (IH _ _ _ _ _ _ _ HN' HC HK Hin).
  - exfalso. apply (HN k'). now left.
Qed.

Lemma first_published (xs : list (outcome E)) : all_published xs <> [] ->
  exists xs1 set xs2, xs = xs1 ++ Published set :: xs2 /\ all_published xs1 = [].
Proof.
  induction xs as [|x xs IH]; intros H; [now destruct H|].
  destruct x as [|set|].
  - destruct IH as (a & set & b & -> & Ha); [exact H|]. exists (Quiet :: a), set, b. auto.
  - exists [], set, xs. auto.
  - destruct IH as (a & set & b & -> & Ha); [exact H|]. exists (Threw :: a), set, b. auto.
Qed.

Lemma sim_full (a b : state) : sim a b -> is_full a -> is_full b.
Proof. intros (H & _) (l & Hl). exists l. congruence. Qed.

Lemma all_published_app (xs ys : list (outcome E)) : all_published (xs ++ ys) = all_published xs ++ all_published ys.
Proof. apply flat_map_app. Qed.

Lemma other_source k h s xs : well_indexed n (untimed h) -> no_clock h ->
  (forall k' o, src (clock_after k' (cb o)) <> src k) ->
  run_cb (init_cb n k) [] h = Ok (s, xs) -> length (all_published xs) <= 1.
Proof.
  intros HW HN HC Hr. destruct (all_published xs) as [|set0 rest] eqn:HP; [cbn; lia|]. rewrite <- HP.
  destruct (first_published xs) as (xs1 & set & xs2 & -> & HX); [congruence|]. clear HP set0 rest.
  pose proof (run_cb_length _ _ _ _ _ Hr) as HL. rewrite app_length in HL. cbn in HL.
  assert (HS : exists h1 c h2, h = (h1 ++ [c]) ++ h2 /\ length h1 = length xs1).
  { destruct (skipn (length xs1) h) as [|c h2] eqn:Hsk.
    - apply (f_equal (@length _)) in Hsk. rewrite skipn_length in Hsk. cbn in Hsk. lia.
    - exists (firstn (length xs1) h), c, h2. rewrite <- app_assoc. cbn. rewrite <- Hsk, firstn_skipn. split; auto.
      apply firstn_length_le. lia. }
  destruct HS as (h1 & c & h2 & -> & HL1).
  rewrite run_cb_app in Hr. destruct (run_cb (init_cb n k) [] (h1 ++ [c])) as [[s1 ys1]|] eqn:Hr1; [|discriminate].
  cbn [bind] in Hr. destruct (run_cb s1 _ h2) as [[s2 ys2]|] eqn:Hr2; [|discriminate]. cbn [bind] in Hr. injection Hr as <- Hxs.
  pose proof (run_cb_length _ _ _ _ _ Hr1) as HL2. rewrite app_length in HL2. cbn in HL2.
  assert (Hys : ys1 = xs1 ++ [Published set] /\ ys2 = xs2).
  { replace (xs1 ++ Published set :: xs2) with ((xs1 ++ [Published set]) ++ xs2) in Hxs by now rewrite <- app_assoc.
    apply app_eq_len in Hxs; [auto|]. rewrite app_length. cbn. lia. }
  destruct Hys as [-> ->].
  assert (Hsim0 : sim (pol (init_cb (E := E) (D := D) n k)) init) by (split; auto).
  destruct (run_script _ _ _ _ _ _ Hsim0 Hr1) as (b1 & Hb1 & HS1 & _). cbn [ck init_cb] in Hb1.
  destruct (run_script _ _ _ _ _ _ HS1 Hr2) as (b2 & Hb2 & _ & _).
  set (g1 := script src cb k (configs init) [] (h1 ++ [c]) (xs1 ++ [Published set])) in *.
  assert (HWa : well_indexed n (untimed (h1 ++ [c])) /\ well_indexed n (untimed h2)).
  { split; intros i e t Hin; apply (HW i e t); unfold untimed in *; rewrite map_app; apply in_or_app; auto. }
  destruct HWa as [HWa HWb].
  assert (HNa : no_clock h1 /\ no_clock h2).
  { split; intros k0 Hin; apply (HN k0); rewrite !in_app_iff; auto. }
  destruct HNa as [HNa HNb].
  assert (HWg : well_indexed n g1) by now apply script_well_indexed.
  (* the state at the end of the callback *)
  assert (HF : is_full (pol s1) /\ src (ck s1) <> src k).
  { rewrite run_cb_snoc in Hr1. destruct (run_cb (init_cb n k) [] h1) as [[s0 zs]|] eqn:Hr0; [|discriminate].
    cbn [bind] in Hr1. destruct (step_cb s0 _ c) as [[s0' x]|] eqn:Hc; [|discriminate]. cbn [bind] in Hr1. injection Hr1 as <- Hz.
    apply app_inj_tail in Hz as [-> ->].
    destruct c as [i e r|cs|k']; cbn in Hc; [|discriminate|discriminate].
    assert (HSS : sim (pol s0) (pol s0)) by (split; auto).
    pose proof (add_sim (pol s0) (pol s0) i e (mkTime (r (ck s0)) (src (ck s0))) HSS) as HA.
    destruct (add (pol s0) i e _) as [[p y]|] eqn:Ha in Hc; [|discriminate]. rewrite Ha in HA. cbn in Hc.
    destruct (signal_cb cb (mkSt p (ck s0)) _ y) as [s3|] eqn:Hsig in Hc; [|discriminate]. cbn in Hc. injection Hc as <- ->.
    destruct HA as (_ & _ & _ & _ & _ & _ & HA). destruct (HA set eq_refl) as (l & Hl).
    cbn in Hsig. destruct (insides_ok (cb (all_published xs1 ++ [set])) (mkSt p (ck s0)) (Hcb _)) as (s4 & Hi & E1 & _ & E3).
    rewrite Hi in Hsig. injection Hsig as <-. split; [exists l; now rewrite E1|]. rewrite E3. apply HC. }
  destruct HF as [HF HK].
  assert (HQ : forall x, In x xs2 -> x = Quiet).
  { apply (clock_change_silent f n default (src k) g1 b1 (xs1 ++ [Published set])
      (script src cb (ck s1) (configs b1) ([] ++ all_published (xs1 ++ [Published set])) h2 xs2) b2 xs2); auto.
    - intros i e t Hin. apply script_before in Hin; auto.
    - destruct (run_inv f n default _ _ _ HWg Hb1) as [[I1 I2 _] _].
      pose proof (sim_full _ _ HS1 HF) as HF'. unfold is_full in HF'. rewrite full_iff in HF'. intros i Hi H.
      rewrite I1 in HF'. apply (HF' i Hi). rewrite I2 by auto. now apply latest_none.
    - now apply script_well_indexed.
    - intros i e t Hin. eapply script_after in Hin; eauto. }
  rewrite all_published_app, HX. cbn [app all_published flat_map published]. cbn [length].
  enough (HZ : flat_map published xs2 = []) by (rewrite HZ; auto).
  clear - HQ. induction xs2 as [|x xs2 IH]; auto. cbn. rewrite (HQ x) by now left. cbn. apply IH. intros y Hy. apply HQ. now right.
Qed.
End Callback.

(** ** callbacks that add *)
Lemma add_inside (cb : list (list E) -> list (call E D)) : adds_first cb -> forall h (s : st E D) seen s0 xs,
  run_cb f n default src (fun _ => []) s seen h = Ok (s0, xs) ->
  run_cb f n default src cb s seen h = match all_published xs with [] => Ok (s0, xs) | _ => Err Deadlock end.
Proof.
  intros HF. induction h as [|c h IH]; intros s seen s0 xs Hr; cbn [run_cb] in *; [now injection Hr as <- <-|].
  assert (HS : match step_cb f n default src (fun _ => []) s seen c with
               | Ok (s1, x) => step_cb f n default src cb s seen c = match x with Published _ => Err Deadlock | _ => Ok (s1, x) end
               | Err _ => True end).
  { destruct c as [i e r|cs|k]; cbn; auto. destruct (add (pol s) i e _) as [[p y]|]; cbn; auto.
    destruct y as [|set|]; cbn; auto. destruct (HF (seen ++ [set])) as (i' & e' & r' & rest & ->). reflexivity. }
  destruct (step_cb f n default src (fun _ => []) s seen c) as [[s1 x]|]; [|discriminate]. cbn [bind] in Hr.
  destruct (run_cb f n default src (fun _ => []) s1 (seen ++ published x) h) as [[s2 ys]|] eqn:Hr1; [|discriminate].
  injection Hr as <- <-. rewrite HS. unfold all_published. cbn [flat_map].
  destruct x as [|set|]; cbn [bind published app] in *; auto;
    rewrite (IH _ _ _ _ Hr1); unfold all_published; destruct (flat_map published ys); reflexivity.
Qed.

(** ** a configuration set after every input has started *)
Lemma run_app_plain (s : state) h1 h2 : run s (h1 ++ h2) =
  bind (run s h1) (fun '(s1, xs) => bind (run s1 h2) (fun '(s2, ys) => Ok (s2, xs ++ ys))).
Proof.
  revert s. induction h1 as [|o h1 IH]; intros s; cbn [app Latest_Model.run].
  - cbn [bind]. destruct (run s h2) as [[? ?]|]; reflexivity.
  - destruct (step s o) as [[s1 x]|]; cbn [bind]; auto. rewrite IH.
    destruct (run s1 h1) as [[s2 xs]|]; cbn [bind]; auto. destruct (run s2 h2) as [[? ?]|]; reflexivity.
Qed.

Lemma late_config h1 cs h2 s xs : well_indexed n h1 -> (forall i, i < n -> received i h1 <> []) ->
  run init (h1 ++ SetConfig cs :: h2) = Ok (s, xs) ->
  exists s' xs1 xs2, run init (h1 ++ h2) = Ok (s', xs1 ++ xs2) /\ xs = xs1 ++ Quiet :: xs2 /\ length xs1 = length h1 /\
    events s' = events s /\ rates s' = rates s.
Proof.
  intros HW Hall Hr. rewrite run_app_plain in *. destruct (run init h1) as [[s1 xs1]|] eqn:Hr1; [|discriminate].
  cbn [bind] in *. cbn [Latest_Model.run Latest_Model.step bind] in Hr.
  destruct (run (mkState (events s1) (rates s1) cs) h2) as [[s2 ys]|] eqn:Hr2; [|discriminate]. cbn [bind] in Hr. injection Hr as <- <-.
  destruct (run_inv f n default _ _ _ HW Hr1) as [HI HL].
  assert (HF : is_full (mkState (events s1) (rates s1) cs)) by exact (full_received _ _ HI Hall).
  assert (HS : sim (mkState (events s1) (rates s1) cs) s1) by (split; [|split]; auto).
  destruct (run_sim _ _ _ _ _ HS Hr2) as (b & Hb & (E1 & E2 & _)). rewrite Hb. cbn [bind]. exists b, xs1, ys. auto.
Qed.
End Proofs.
