(** Proofs about filters whose callbacks may throw. *)
From Coq Require Import List Arith ZArith Lia Bool Sorted Permutation.
From Verif Require Import Base RclTime Trace PermTac Throw_Model Throw_Spec.
From Verif Require Cache_Model Latest_Model Seq_Model.
From Verif Require Aligner_Model Aligner_Spec Aligner_Proofs.
From Verif Require Exact_Model Exact_Spec Exact_Proofs.
From Verif Require Eps_Model Eps_Spec Eps_Proofs.
From Verif Require Approx_Model Approx_Proofs Throw_Approx.
Import ListNotations.
Local Open Scope Z_scope.

(** ** generalities *)
Lemma begun_snoc {O} (tr : list (list O * bool)) c : begun (tr ++ [c]) = begun tr ++ fst c.
Proof. unfold begun. rewrite flat_map_app. cbn. now rewrite app_nil_r. Qed.
Lemma returned_snoc {O} (tr : list (list O * bool)) c : returned (tr ++ [c]) = returned tr ++ returned_of c.
Proof. unfold returned. rewrite flat_map_app. cbn. now rewrite app_nil_r. Qed.
Lemma calls_snoc {I} (h : list (I * (nat -> bool))) x th : calls_of (h ++ [(x, th)]) = calls_of h ++ [x].
Proof. unfold calls_of. now rewrite map_app. Qed.
Lemma no_exceptions_cons {I} (x : I) th h :
  no_exceptions ((x, th) :: h) -> (forall k, th k = false) /\ no_exceptions h.
Proof. intros H. split; [intros k; apply (H x th k); cbn; auto|]. intros y u k Hy. apply (H y u k). cbn; auto. Qed.

Lemma later_quiet d th : (forall k, th k = false) -> forall k, later d th k = false.
Proof. intros H k. apply H. Qed.

Section Run.
Context {S I O : Type} (step : oracle -> S -> I -> res (S * list O * bool)).
Lemma run_t_snoc s h x th :
  run_t step s (h ++ [(x, th)]) =
  bind (run_t step s h) (fun '(s1, tr) => bind (step th s1 x) (fun '(s2, o, b) => Ok (s2, tr ++ [(o, b)]))).
Proof.
  revert s; induction h as [|[y u] h IH]; intros s; cbn [app run_t].
  - cbn. destruct (step th s x) as [[[s1 o] b]|]; reflexivity.
  - destruct (step u s y) as [[[s1 o] b]|]; cbn [bind]; auto. rewrite IH.
    destruct (run_t step s1 h) as [[s2 tr]|]; cbn [bind]; auto.
    destruct (step th s2 x) as [[[s3 o3] b3]|]; cbn [bind]; auto.
Qed.

Lemma run_t_inv (P : list (I * oracle) -> S -> list (list O * bool) -> Prop) (ok : I -> Prop) s0 :
  P [] s0 [] ->
  (forall h s tr x th, run_t step s0 h = Ok (s, tr) -> P h s tr -> ok x ->
     exists s' o b, step th s x = Ok (s', o, b) /\ P (h ++ [(x, th)]) s' (tr ++ [(o, b)])) ->
  forall h, (forall x, In x (calls_of h) -> ok x) ->
  exists s tr, run_t step s0 h = Ok (s, tr) /\ P h s tr.
Proof.
  intros H0 Hs h. induction h as [|[x th] h IH] using rev_ind; intros Hok.
  - exists s0, []. auto.
  - rewrite calls_snoc in Hok. destruct IH as (s & tr & Hr & HP).
    { intros y Hy. apply Hok, in_or_app; auto. }
    destruct (Hs h s tr x th Hr HP) as (s' & o & b & E1 & E2). { apply Hok, in_or_app; cbn; auto. }
    exists s', (tr ++ [(o, b)]). rewrite run_t_snoc, Hr. cbn [bind]. rewrite E1. cbn. auto.
Qed.
End Run.

Lemma signal_all_spec {O} th (l : list O) :
  exists rest, l = fst (signal_all th l) ++ rest /\
    (snd (signal_all th l) = false -> rest = []) /\ (snd (signal_all th l) = true -> fst (signal_all th l) <> []).
Proof.
  revert th; induction l as [|x l IH]; intros th; cbn.
  - exists []. repeat split; auto; discriminate.
  - destruct (th 0%nat).
    + exists l. repeat split; auto; discriminate.
    + destruct (IH (later 1 th)) as (rest & E1 & E2 & E3). destruct (signal_all (later 1 th) l) as [o b]. cbn in *.
      exists rest. split; [now rewrite E1 at 1|]. split; auto. discriminate.
Qed.

Lemma signal_all_quiet {O} th (l : list O) : (forall k, th k = false) -> signal_all th l = (l, false).
Proof.
  revert th; induction l as [|x l IH]; intros th H; cbn; auto. rewrite H, IH; auto using later_quiet.
Qed.

(** ** Cache and LatestTime *)
Lemma cache_same {E} (stamp : E -> time) s h :
  exists tr, run_t (cache_step_t stamp) s h = Ok (fst (Cache_Model.run stamp s (calls_of h)), tr) /\
    begun tr = snd (Cache_Model.run stamp s (calls_of h)).
Proof.
  revert s; induction h as [|[x th] h IH]; intros s; cbn [run_t calls_of map fst Cache_Model.run].
  - exists []. auto.
  - unfold cache_step_t at 1. destruct (Cache_Model.step stamp s x) as [s1 y]. cbn [bind].
    destruct (IH s1) as (tr & E1 & E2). rewrite E1. cbn [bind]. fold (calls_of h) in *.
    destruct (Cache_Model.run stamp s1 (calls_of h)) as [s2 os]. cbn [fst snd] in *.
    eexists. split; [reflexivity|]. unfold begun in *. cbn. now rewrite E2.
Qed.

Lemma latest_same {E D} (f : Latest_Model.fops D) n default (s : Latest_Model.state E D) h :
  match Latest_Model.run f n default s (calls_of h) with
  | Ok (s', os) => exists tr, run_t (latest_step_t f n default) s h = Ok (s', tr) /\ begun tr = os
  | Err e => run_t (latest_step_t f n default) s h = Err e
  end.
Proof.
  revert s; induction h as [|[x th] h IH]; intros s; cbn [run_t calls_of map fst Latest_Model.run].
  - exists []. auto.
  - unfold latest_step_t at 1. destruct (Latest_Model.step f n default s x) as [[s1 y]|e] eqn:Es; cbn [bind].
    2: { unfold latest_step_t. now rewrite Es. }
    specialize (IH s1). fold (calls_of h) in *.
    destruct (Latest_Model.run f n default s1 (calls_of h)) as [[s2 os]|e]; cbn [bind].
    + destruct IH as (tr & E1 & E2). rewrite E1. cbn [bind]. eexists. split; [reflexivity|].
      unfold begun in *. cbn. now rewrite E2.
    + unfold latest_step_t at 1. rewrite Es. cbn [bind]. now rewrite IH.
Qed.

(** ** TimeSequencer *)
Definition cut_short {O} (c : list O * bool) (all : list O) : Prop :=
  if snd c then exists rest, all = fst c ++ rest else fst c = all.

Lemma seq_same {E} (stamp : E -> time) q delay s h :
  match Seq_Model.run stamp q delay s (calls_of h) with
  | Ok (s', outs) => exists tr alls, run_t (seq_step_t stamp q delay) s h = Ok (s', tr) /\
                       outs = concat alls /\ Forall2 cut_short tr alls
  | Err e => run_t (seq_step_t stamp q delay) s h = Err e
  end.
Proof.
  revert s; induction h as [|[x th] h IH]; intros s; cbn [run_t calls_of map fst Seq_Model.run].
  - exists [], []. auto.
  - unfold seq_step_t at 1. destruct (Seq_Model.step stamp q delay s x) as [[s1 y]|e] eqn:Es; cbn [bind].
    2: { unfold seq_step_t. now rewrite Es. }
    specialize (IH s1). fold (calls_of h) in *.
    pose proof (signal_all_spec th y) as (rest & E1 & E2 & _).
    destruct (Seq_Model.run stamp q delay s1 (calls_of h)) as [[s2 os]|e]; cbn [bind].
    + destruct IH as (tr & alls & F1 & F2 & F3). destruct (signal_all th y) as [o b] eqn:Esig. cbn [fst snd bind] in *.
      rewrite F1. cbn [bind]. exists ((o, b) :: tr), (y :: alls). split; auto. split; [cbn; now rewrite F2|].
      constructor; auto. unfold cut_short. cbn. destruct b; [eauto|]. rewrite E1, E2 by auto. now rewrite app_nil_r.
    + unfold seq_step_t at 1. rewrite Es. cbn [bind]. destruct (signal_all th y) as [o b]. cbn [bind]. now rewrite IH.
Qed.

Lemma cut_short_subseq {O} (tr : list (list O * bool)) alls : Forall2 cut_short tr alls -> subseq (begun tr) (concat alls).
Proof.
  induction 1 as [|[o b] all tr alls HC HF IH]; cbn; [constructor|]. apply subseq_app; auto.
  unfold cut_short in HC. cbn in HC. destruct b; [|subst; apply subseq_refl]. destruct HC as (rest & ->).
  apply Aligner_Proofs.subseq_skip_tail, subseq_refl.
Qed.

(** ** InputAligner *)
Section Aligner.
Import Aligner_Model Aligner_Spec Aligner_Proofs.
Context {E : Type} (stamp : E -> Z).
Variable n : nat.
Variable timeout : Z.
Hypothesis Hstamp : forall e, stamp e < int64_max.
Notation astep := (aligner_step_t stamp timeout).
Notation micro := (micro stamp n timeout).
Notation key := (key stamp).
Notation state := (Aligner_Model.state E).
Local Notation ainit := (Aligner_Model.init (E := E) n).

Lemma first_t_cases th (s : state) :
  (0 < n)%nat -> length (queues s) = n ->
  exists s' o again b, aligner_first_t stamp timeout th s = Ok (s', o, again, b) /\
    ((b = false /\ micro s s' o again /\ (o <> [] -> th 0%nat = false)) \/
     (b = true /\ th 0%nat = true /\ exists idx e t qs',
        (idx < n)%nat /\ evs (qat idx s) = e :: t /\
        (forall j, (j < n)%nat -> stamp e <= ts stamp (qat j s)) /\ length qs' = n /\
        (forall j, nth j qs' queue_init = touch stamp (qat j s)) /\
        o = [(idx, e)] /\ s' = mkState qs' (last_in s) (stamp e))).
Proof.
  intros Hn HL. destruct (dispatch_first_micro stamp n timeout s Hn HL) as (s1 & o1 & b1 & Hd & Hm).
  unfold aligner_first_t. unfold dispatch_first in Hd.
  set (qs := map fst (map (first_time_stamp stamp) (queues s))) in *.
  set (idx := first_sample_idx (map snd (map (first_time_stamp stamp) (queues s)))) in *.
  destruct (nth_error qs idx) as [q|] eqn:Eq; [|discriminate].
  destruct (evs q) as [|e t] eqn:Ee.
  - destruct (timeout <=? last_in s - snd (first_time_stamp stamp q)); injection Hd as <- <- <-;
      do 4 eexists; (split; [reflexivity|]); left; (split; [auto|]); (split; [exact Hm|]); congruence.
  - injection Hd as <- <- <-. destruct (th 0%nat).
    + do 4 eexists. split; [reflexivity|]. right. split; auto. split; auto.
      inversion Hm; subst. exists idx, e, t0, qs. split; auto. split; auto. split; auto.
      split; [unfold qs; now rewrite !map_length|]. split; [intros j; apply nth_map_touch|]. auto.
    + do 4 eexists. split; [reflexivity|]. left. auto.
Qed.

Definition Late (h : list (op E * oracle)) (j : nat) (d : E) : Prop :=
  exists h1 th h2 s1 tr1, h = h1 ++ (Add j d, th) :: h2 /\ run_t astep ainit h1 = Ok (s1, tr1) /\
    (stamp d < 0 \/ exists x, In x (begun tr1) /\ stamp d < stamp (snd x)).

Record AInv (h : list (op E * oracle)) (s : state) (beg ret : list (nat * E)) : Prop := {
  ai_len : length (queues s) = n;
  ai_sorted : nondecreasing key beg;
  ai_low : forall x, In x beg -> key x <= last_out s;
  ai_out : last_out s = 0 \/ exists x, In x beg /\ key x = last_out s;
  ai_in : 0 <= last_in s < int64_max;
  ai_evs : forall j, nondecreasing stamp (evs (qat j s));
  ai_evlow : forall j e, In e (evs (qat j s)) -> last_out s <= stamp e;
  ai_recv : forall x, In x beg -> In x (adds (calls_of h));
  ai_acct : forall j, exists D, Permutation (stream j (adds (calls_of h))) (stream j ret ++ evs (qat j s) ++ D) /\
              forall d, In d D -> Late h j d }.

Lemma Late_snoc h c j d : Late h j d -> Late (h ++ [c]) j d.
Proof.
  intros (h1 & th & h2 & s1 & tr1 & -> & H). exists h1, th, (h2 ++ [c]), s1, tr1. rewrite <- app_assoc. auto.
Qed.

(** the queue contents after touching everything *)
Lemma AInv_micro h s s' beg ret o again :
  AInv h s beg ret -> micro s s' o again -> AInv h s' (beg ++ o) (ret ++ o).
Proof.
  intros [A1 A2 A3 A4 A5 A6 A7 A8 A9] Hm.
  assert (Hpast : forall j, (n <= j)%nat -> qat j s = queue_init) by (intros j Hj; apply nth_overflow; lia).
  inversion Hm as [idx e t qs' B1 B2 B3 B4 B5|idx qs' B1 B2 B3 B4 B5 B6|idx qs' B1 B2 B3 B4 B5 B6]; subst.
  - assert (Hlo : last_out s <= stamp e) by (apply (A7 idx); rewrite B2; cbn; auto).
    assert (Hev : forall j, evs (qat j (mkState qs' (last_in s) (stamp e))) = if Nat.eqb j idx then t else evs (qat j s)).
    { intros j. unfold qat. cbn [queues]. rewrite B5. destruct (Nat.eqb_spec j idx) as [->|].
      - cbn [pop_first evs]. now rewrite touch_evs, B2.
      - now rewrite touch_evs. }
    split; cbn [queues last_in last_out]; auto.
    + apply StronglySorted_app. split; auto. split; [repeat constructor|].
      intros a b Ha [<-|[]]. apply A3 in Ha. unfold Aligner_Proofs.key in *; cbn. lia.
    + intros x Hx. apply in_app_or in Hx as [Hx|[<-|[]]]; [apply A3 in Hx; lia|unfold Aligner_Proofs.key; cbn; lia].
    + right. exists (idx, e). split; [apply in_or_app; cbn; auto|reflexivity].
    + intros j. rewrite Hev. destruct (Nat.eqb_spec j idx) as [->|]; auto. specialize (A6 idx). rewrite B2 in A6. now inversion A6.
    + intros j x. rewrite Hev. destruct (Nat.eqb_spec j idx) as [->|].
      * intros Hx. specialize (A6 idx). rewrite B2 in A6. inversion A6 as [|? ? _ HF]; subst.
        rewrite Forall_forall in HF. now apply HF.
      * intros Hx. destruct (le_lt_dec n j) as [Hj|Hj]; [rewrite Hpast in Hx by auto; destruct Hx|].
        specialize (B3 j Hj). specialize (A6 j). destruct (evs (qat j s)) as [|y l] eqn:Hy; [destruct Hx|].
        rewrite (ts_nonempty stamp _ _ _ Hy) in B3. inversion A6 as [|? ? _ HF]; subst. rewrite Forall_forall in HF.
        destruct Hx as [<-|Hx]; [lia|]. apply HF in Hx. lia.
    + intros x Hx. apply in_app_or in Hx as [Hx|[<-|[]]]; auto. destruct (A9 idx) as (D & HP & _).
      apply stream_in. eapply Permutation_in; [apply Permutation_sym; exact HP|]. rewrite B2.
      apply in_or_app; right; cbn; auto.
    + intros j. rewrite Hev. destruct (A9 j) as (D & HP & HD). exists D. split; auto.
      rewrite stream_app, stream_single, Nat.eqb_sym. destruct (Nat.eqb_spec j idx) as [->|].
      * rewrite B2 in HP. eapply Permutation_trans; [exact HP|]. change (e :: t) with ([e] ++ t). perm.
      * now rewrite app_nil_r.
  - assert (Hev : forall j, evs (qat j (mkState qs' (last_in s) (last_out s))) = evs (qat j s)).
    { intros j. unfold qat. cbn [queues]. rewrite B6. destruct (Nat.eqb_spec j idx) as [->|]; cbn [set_active evs]; rewrite ?touch_evs; auto. }
    rewrite !app_nil_r. split; cbn [queues last_in last_out]; auto; intros j; rewrite Hev; eauto.
  - assert (Hev : forall j, evs (qat j (mkState qs' (last_in s) (last_out s))) = evs (qat j s)).
    { intros j. unfold qat. cbn [queues]. rewrite B6. now rewrite touch_evs. }
    rewrite !app_nil_r. split; cbn [queues last_in last_out]; auto; intros j; rewrite Hev; eauto.
Qed.

Lemma AInv_throw h s beg ret idx e t qs' :
  AInv h s beg ret -> (idx < n)%nat -> evs (qat idx s) = e :: t ->
  (forall j, (j < n)%nat -> stamp e <= ts stamp (qat j s)) -> length qs' = n ->
  (forall j, nth j qs' queue_init = touch stamp (qat j s)) ->
  AInv h (mkState qs' (last_in s) (stamp e)) (beg ++ [(idx, e)]) ret.
Proof.
  intros [A1 A2 A3 A4 A5 A6 A7 A8 A9] B1 B2 B3 B4 B5.
  assert (Hpast : forall j, (n <= j)%nat -> qat j s = queue_init) by (intros j Hj; apply nth_overflow; lia).
  assert (Hlo : last_out s <= stamp e) by (apply (A7 idx); rewrite B2; cbn; auto).
  assert (Hev : forall j, evs (qat j (mkState qs' (last_in s) (stamp e))) = evs (qat j s)).
  { intros j. unfold qat. cbn [queues]. rewrite B5. now rewrite touch_evs. }
  split; cbn [queues last_in last_out]; auto; try (intros j; rewrite Hev; eauto).
  - apply StronglySorted_app. split; auto. split; [repeat constructor|].
    intros a b Ha [<-|[]]. apply A3 in Ha. unfold Aligner_Proofs.key in *; cbn. lia.
  - intros x Hx. apply in_app_or in Hx as [Hx|[<-|[]]]; [apply A3 in Hx; lia|unfold Aligner_Proofs.key; cbn; lia].
  - right. exists (idx, e). split; [apply in_or_app; cbn; auto|reflexivity].
  - intros x Hx. destruct (le_lt_dec n j) as [Hj|Hj]; [rewrite Hpast in Hx by auto; destruct Hx|].
    specialize (B3 j Hj). specialize (A6 j). destruct (evs (qat j s)) as [|y l] eqn:Hy; [destruct Hx|].
    rewrite (ts_nonempty stamp _ _ _ Hy) in B3. inversion A6 as [|? ? _ HF]; subst. rewrite Forall_forall in HF.
    destruct Hx as [<-|Hx]; [lia|]. apply HF in Hx. lia.
  - intros x Hx. apply in_app_or in Hx as [Hx|[<-|[]]]; auto. destruct (A9 idx) as (D & HP & _).
    apply stream_in. eapply Permutation_in; [apply Permutation_sym; exact HP|]. rewrite B2.
    apply in_or_app; right; cbn; auto.
Qed.

Lemma loop_t_ok h : (0 < n)%nat -> 0 <= timeout -> forall fuel th s beg ret,
  (w s < fuel)%nat -> AInv h s beg ret ->
  exists s' o b, aligner_loop_t stamp timeout fuel th s = Ok (s', o, b) /\
    AInv h s' (beg ++ o) (ret ++ returned_of (o, b)) /\
    (b = false -> exists s0, micro s0 s' [] false) /\ (b = true -> o <> []) /\
    ((forall k, th k = false) -> b = false).
Proof.
  intros Hn Hto. induction fuel as [|fuel IH]; intros th s beg ret Hf HI; [lia|]. cbn [aligner_loop_t].
  destruct (first_t_cases th s Hn (ai_len _ _ _ _ HI)) as (s1 & o1 & again & b1 & E1 & HC). rewrite E1. cbn [bind].
  destruct HC as [(-> & Hm & _)|(-> & Hth & idx & e & t & qs' & B1 & B2 & B3 & B4 & B5 & -> & ->)].
  - pose proof (AInv_micro _ _ _ _ _ _ _ HI Hm) as HI1. destruct again.
    + pose proof (ai_in _ _ _ _ HI) as Hin.
      pose proof (micro_decreases stamp n timeout _ _ _ (ai_len _ _ _ _ HI) ltac:(lia) Hto Hm) as Hdec.
      destruct (IH (later (length o1) th) s1 (beg ++ o1) (ret ++ o1) ltac:(lia) HI1) as (s2 & o2 & b2 & E2 & HI2 & S2 & S3 & S4).
      rewrite E2. cbn [bind]. exists s2, (o1 ++ o2), b2. split; auto.
      replace (ret ++ returned_of (o1 ++ o2, b2)) with ((ret ++ o1) ++ returned_of (o2, b2)).
      * rewrite app_assoc. split; auto. split; auto. split; [|intros H; apply S4; auto using later_quiet].
        intros Hb HE. apply app_eq_nil in HE. apply S3; tauto.
      * rewrite <- app_assoc. f_equal. cbn. destruct b2; auto. symmetry. apply removelast_app. auto.
    + assert (o1 = []) as -> by (inversion Hm; auto).
      exists s1, [], false. split; auto. split; [exact HI1|]. split; [eauto|]. split; [discriminate|auto].
  - exists (mkState qs' (last_in s) (stamp e)), [(idx, e)], true. split; auto. split.
    + cbn. rewrite app_nil_r. eapply AInv_throw; eauto.
    + split; [discriminate|]. split; [discriminate|]. intros H. rewrite H in Hth. discriminate.
Qed.

Lemma adds_calls_snoc (h : list (op E * oracle)) x th :
  adds (calls_of (h ++ [(x, th)])) = adds (calls_of h) ++ match x with Add i e => [(i, e)] | _ => [] end.
Proof. rewrite calls_snoc. apply adds_snoc. Qed.

Lemma AInv_more h x th s beg ret :
  (forall i e, x <> Add i e) -> AInv h s beg ret -> AInv (h ++ [(x, th)]) s beg ret.
Proof.
  intros Hx [A1 A2 A3 A4 A5 A6 A7 A8 A9].
  assert (Ha : adds (calls_of (h ++ [(x, th)])) = adds (calls_of h)).
  { rewrite adds_calls_snoc. destruct x; try apply app_nil_r. exfalso; eapply Hx; eauto. }
  split; auto; rewrite Ha; auto. intros j. destruct (A9 j) as (D & HP & HD). exists D. split; auto.
  intros d Hd. apply Late_snoc; auto.
Qed.

Lemma add_t_inv h s tr i e th :
  (i < n)%nat -> run_t astep ainit h = Ok (s, tr) -> AInv h s (begun tr) (returned tr) ->
  exists s', add stamp s i e = Ok s' /\ AInv (h ++ [(Add i e, th)]) s' (begun tr) (returned tr).
Proof.
  intros Hi Hrun HI. pose proof HI as [A1 A2 A3 A4 A5 A6 A7 A8 A9].
  assert (Hn : nth_error (queues s) i = Some (qat i s)) by (apply nth_error_nth'; lia).
  unfold add. rewrite Hn.
  assert (Hst : forall j, stream j (adds (calls_of (h ++ [(Add i e, th)]))) =
                          stream j (adds (calls_of h)) ++ if Nat.eqb i j then [e] else []).
  { intros j. now rewrite adds_calls_snoc, stream_app, stream_single. }
  assert (Hrecv : forall x, In x (begun tr) -> In x (adds (calls_of (h ++ [(Add i e, th)])))).
  { intros x Hx. rewrite adds_calls_snoc. apply in_or_app; auto. }
  destruct (Z.ltb_spec (stamp e) (last_out s)) as [Hlt|Hge].
  - eexists. split; [reflexivity|]. set (s' := mkState _ _ _).
    assert (Hev : forall j, evs (qat j s') = evs (qat j s)).
    { intros j. unfold qat at 1. cbn [s' queues]. destruct (Nat.eq_dec i j) as [<-|Hj]; [rewrite nth_upd_eq by lia; reflexivity|].
      rewrite nth_upd_neq by congruence. reflexivity. }
    split; cbn [s' queues last_in last_out]; auto; try (intros j; fold s'; rewrite Hev; eauto).
    + now rewrite upd_length.
    + destruct (A9 j) as (D & HP & HD). rewrite Hst. destruct (Nat.eqb_spec i j) as [<-|Hne].
      * exists (D ++ [e]). split.
        -- eapply Permutation_trans; [apply Permutation_app_tail; exact HP|]. perm.
        -- intros d Hd. apply in_app_or in Hd as [Hd|[<-|[]]]; [apply Late_snoc; auto|].
           exists h, th, [], s, tr. split; auto. split; auto.
           destruct A4 as [H0|(x & Hx & Hx')]; [left; lia|]. right. exists x. split; auto. unfold Aligner_Proofs.key in *. lia.
      * exists D. rewrite app_nil_r. split; auto. intros d Hd. apply Late_snoc; auto.
  - eexists. split; [reflexivity|]. set (s' := mkState _ _ _).
    assert (Hev : forall j, evs (qat j s') = if Nat.eqb i j then ins stamp e (evs (qat j s)) else evs (qat j s)).
    { intros j. unfold qat at 1. cbn [s' queues]. destruct (Nat.eqb_spec i j) as [<-|Hj].
      - rewrite nth_upd_eq by lia. reflexivity.
      - rewrite nth_upd_neq by congruence. reflexivity. }
    split; cbn [s' queues last_in last_out]; auto; try (intros j; fold s'; rewrite Hev).
    + now rewrite upd_length.
    + specialize (Hstamp e). destruct (Z.ltb_spec (last_in s) (stamp e)); lia.
    + destruct (Nat.eqb_spec i j); auto. now apply ins_sorted.
    + intros x. destruct (Nat.eqb_spec i j); eauto. intros Hx.
      eapply Permutation_in in Hx; [|apply Permutation_sym, ins_perm]. destruct Hx as [<-|Hx]; eauto.
    + destruct (A9 j) as (D & HP & HD). exists D. split; [|intros d Hd; apply Late_snoc; auto].
      rewrite Hst. destruct (Nat.eqb_spec i j) as [<-|Hne]; [|now rewrite app_nil_r].
      eapply Permutation_trans; [apply Permutation_app_tail; exact HP|].
      apply Permutation_trans with (stream i (returned tr) ++ (e :: evs (qat i s)) ++ D).
      { change (e :: evs (qat i s)) with ([e] ++ evs (qat i s)). perm. }
      apply Permutation_app_head, Permutation_app_tail, ins_perm.
Qed.

Lemma set_period_t_inv h s beg ret i p th :
  (i < n)%nat -> AInv h s beg ret ->
  exists s', set_period s i p = Ok s' /\ AInv (h ++ [(SetPeriod i p, th)]) s' beg ret.
Proof.
  intros Hi HI. pose proof HI as [A1 A2 A3 A4 A5 A6 A7 A8 A9].
  assert (Hn : nth_error (queues s) i = Some (qat i s)) by (apply nth_error_nth'; lia).
  unfold set_period. rewrite Hn. eexists. split; [reflexivity|]. apply AInv_more; [discriminate|].
  set (s' := mkState _ _ _).
  assert (Hev : forall j, evs (qat j s') = evs (qat j s)).
  { intros j. unfold qat at 1. cbn [s' queues]. destruct (Nat.eq_dec i j) as [<-|Hj]; [rewrite nth_upd_eq by lia; reflexivity|].
    rewrite nth_upd_neq by congruence. reflexivity. }
  split; cbn [s' queues last_in last_out]; auto; try (intros j; fold s'; rewrite Hev; eauto).
  now rewrite upd_length.
Qed.

Lemma init_AInv : AInv [] ainit [] [].
Proof.
  split; cbn [queues last_in last_out init]; auto; try (intros x []).
  - apply repeat_length.
  - constructor.
  - unfold int64_max. lia.
  - intros j. rewrite init_qat. constructor.
  - intros j e. rewrite init_qat. intros [].
  - intros j. rewrite init_qat. exists []. split; auto. intros d [].
Qed.

Definition op_ok (o : op E) : Prop :=
  match o with Add i _ => (i < n)%nat | SetPeriod i _ => (i < n)%nat | Dispatch => True end.

Lemma step_t_inv h s tr x th :
  (0 < n)%nat -> 0 <= timeout -> op_ok x ->
  run_t astep ainit h = Ok (s, tr) -> AInv h s (begun tr) (returned tr) ->
  exists s' o b, astep th s x = Ok (s', o, b) /\
    AInv (h ++ [(x, th)]) s' (begun (tr ++ [(o, b)])) (returned (tr ++ [(o, b)])) /\
    (x = Dispatch -> (forall k, th k = false) ->
     b = false /\ ((forall j, evs (qat j s') = []) \/ exists s0, micro s0 s' [] false)).
Proof.
  intros Hn Hto Hx Hr HI. destruct x as [i e|i p|]; cbn [aligner_step_t op_ok] in *.
  - destruct (add_t_inv h s tr i e th Hx Hr HI) as (s' & E1 & HI'). rewrite E1. cbn [bind].
    exists s', [], false. split; auto. rewrite begun_snoc, returned_snoc. cbn. rewrite !app_nil_r. split; auto. discriminate.
  - destruct (set_period_t_inv h s _ _ i p th Hx HI) as (s' & E1 & HI'). rewrite E1. cbn [bind].
    exists s', [], false. split; auto. rewrite begun_snoc, returned_snoc. cbn. rewrite !app_nil_r. split; auto. discriminate.
  - assert (HI' : AInv (h ++ [(Dispatch, th)]) s (begun tr) (returned tr)) by (apply AInv_more; [discriminate|auto]).
    destruct (inputs_available s) eqn:Hav.
    + destruct (loop_t_ok _ Hn Hto (fuel_for s) th s _ _ (fuel_enough s) HI') as (s' & o & b & E1 & HI2 & S1 & S2 & S3).
      exists s', o, b. rewrite begun_snoc, returned_snoc. split; [exact E1|]. split; [exact HI2|]. intros _ Hq. split; [auto|]. right. apply S1. auto.
    + exists s, [], false. split; auto. rewrite begun_snoc, returned_snoc. cbn. rewrite !app_nil_r. split; auto.
      intros _ _. split; auto. left. intros j. unfold inputs_available in Hav.
      destruct (le_lt_dec n j) as [Hj|Hj]; [unfold qat; rewrite nth_overflow; auto; rewrite (ai_len _ _ _ _ HI); lia|].
      destruct (evs (qat j s)) eqn:He; auto. exfalso.
      assert (Ht : existsb (fun q : queue E => match evs q with [] => false | _ => true end) (queues s) = true); [|congruence].
      apply existsb_exists. exists (qat j s). split; [apply nth_In; rewrite (ai_len _ _ _ _ HI); lia|]. now rewrite He.
Qed.

Lemma well_indexed_ok (h : list (op E)) : well_indexed n h -> forall x, In x h -> op_ok x.
Proof. intros [H1 H2] [i e|i p|] Hx; cbn; eauto. Qed.

Lemma aligner_run_t h :
  (0 < n)%nat -> 0 <= timeout -> well_indexed n (calls_of h) ->
  exists s tr, run_t astep ainit h = Ok (s, tr) /\ AInv h s (begun tr) (returned tr).
Proof.
  intros Hn Hto HW.
  apply (run_t_inv astep (fun h s tr => AInv h s (begun tr) (returned tr)) op_ok).
  - apply init_AInv.
  - intros h0 s tr x th Hr HI Hx. destruct (step_t_inv h0 s tr x th Hn Hto Hx Hr HI) as (s' & o & b & E1 & E2 & _). eauto.
  - now apply well_indexed_ok.
Qed.

(** why a dispatch without exceptions stops *)
Lemma stop_t h s0 s' beg ret :
  AInv h s' beg ret -> micro s0 s' [] false ->
  (forall j, evs (qat j s') = []) \/
  (exists j, (j < n)%nat /\ evs (qat j s') = [] /\ active (qat j s') = true /\
     last_in s' - next_ts (qat j s') < timeout /\
     forall k x, In x (evs (qat k s')) -> next_ts (qat j s') <= stamp x).
Proof.
  intros HI Hm. inversion Hm as [| |idx qs' B1 B2 B3 B4 B5 B6]; subst.
  set (s' := mkState qs' (last_in s0) (last_out s0)) in *.
  assert (Hq : forall j, qat j s' = touch stamp (qat j s0)) by (intros j; apply B6).
  assert (Hts : forall k x, In x (evs (qat k s')) -> ts stamp (qat idx s0) <= stamp x).
  { intros k x Hx. destruct (le_lt_dec n k) as [Hk|Hk].
    { unfold qat in Hx. cbn [s' queues] in Hx. rewrite nth_overflow in Hx by lia. destruct Hx. }
    pose proof (ai_evs _ _ _ _ HI k) as HS.
    specialize (B3 k Hk). rewrite Hq, touch_evs in *. destruct (evs (qat k s0)) as [|y l] eqn:Hy; [destruct Hx|].
    rewrite (ts_nonempty stamp _ _ _ Hy) in B3. inversion HS as [|? ? _ HF]; subst. rewrite Forall_forall in HF.
    destruct Hx as [<-|Hx]; [lia|]. apply HF in Hx. lia. }
  rewrite ts_empty in * by auto. destruct (active (qat idx s0)) eqn:Ha.
  - right. exists idx. rewrite Hq, touch_empty by auto. repeat split; auto.
  - left. intros j. destruct (evs (qat j s')) as [|x l] eqn:Hx; auto. exfalso.
    specialize (Hts j x). rewrite Hx in Hts. specialize (Hts (or_introl eq_refl)). specialize (Hstamp x). lia.
Qed.

Lemma first_t_quiet th (s : state) : th 0%nat = false ->
  aligner_first_t stamp timeout th s = do '(s', o, again) <- dispatch_first stamp timeout s; Ok (s', o, again, false).
Proof.
  intros Hth. unfold aligner_first_t, dispatch_first. destruct (nth_error _ _) as [q|]; auto.
  destruct (evs q); [|now rewrite Hth]. destruct (_ <=? _); reflexivity.
Qed.
Lemma loop_t_quiet fuel : forall th s, (forall k, th k = false) ->
  aligner_loop_t stamp timeout fuel th s = do '(s', o) <- dispatch_loop stamp timeout fuel s; Ok (s', o, false).
Proof.
  induction fuel as [|fuel IH]; intros th s Hth; cbn [aligner_loop_t dispatch_loop]; auto.
  rewrite first_t_quiet by auto. destruct (dispatch_first stamp timeout s) as [[[s1 o1] again]|]; cbn [bind]; auto.
  destruct again; cbn [bind]; auto. rewrite IH by auto using later_quiet.
  destruct (dispatch_loop stamp timeout fuel s1) as [[s2 o2]|]; reflexivity.
Qed.
Lemma aligner_step_quiet th s x : (forall k, th k = false) ->
  astep th s x = do '(s', o) <- step stamp timeout s x; Ok (s', o, false).
Proof.
  intros Hth. destruct x as [i e|i p|]; cbn [aligner_step_t step].
  - destruct (add stamp s i e); reflexivity.
  - destruct (set_period s i p); reflexivity.
  - unfold dispatch. destruct (inputs_available s); auto. now apply loop_t_quiet.
Qed.
End Aligner.

(** ** runs without exceptions *)
Section Quiet.
Context {S I O : Type} (step : oracle -> S -> I -> res (S * list O * bool)) (base : S -> I -> res (S * list O))
  (base_run : S -> list I -> res (S * list O)).
Hypothesis H0 : forall s, base_run s [] = Ok (s, []).
Hypothesis H1 : forall s x h, base_run s (x :: h) =
  do '(s1, o1) <- base s x; do '(s2, o2) <- base_run s1 h; Ok (s2, o1 ++ o2).
Hypothesis Hq : forall th s x, (forall k, th k = false) -> step th s x = do '(s', o) <- base s x; Ok (s', o, false).
Lemma quiet_run h : no_exceptions h -> forall s,
  match base_run s (calls_of h) with
  | Ok (s', outs) => exists tr, run_t step s h = Ok (s', tr) /\ begun tr = outs /\ returned tr = outs
  | Err e => run_t step s h = Err e
  end.
Proof.
  induction h as [|[x th] h IH]; intros Hne s; cbn [calls_of map fst run_t].
  - rewrite H0. exists []. auto.
  - apply no_exceptions_cons in Hne as (Hth & Hne). rewrite H1, Hq by auto.
    destruct (base s x) as [[s1 o1]|]; cbn [bind]; auto. specialize (IH Hne s1). fold (calls_of h).
    destruct (base_run s1 (calls_of h)) as [[s2 o2]|]; cbn [bind].
    + destruct IH as (tr & E1 & E2 & E3). rewrite E1. cbn [bind]. eexists. split; [reflexivity|].
      unfold begun, returned in *. cbn. now rewrite E2, E3.
    + now rewrite IH.
Qed.
End Quiet.

(** ** ExactTime *)
Section Exact.
Import Exact_Model Exact_Spec Exact_Proofs.
Context {E : Type} (stamp : E -> Z).
Variable n : nat.
Variable q : nat.
Notation tuple := (list (option E)).
Notation keysorted := (keysorted (E := E)).
Notation pending := (pending (E := E)).

Definition slots_ok (h : list (nat * E)) (kt : Z * tuple) : Prop :=
  length (snd kt) = n /\
  forall j e, nth_error (snd kt) j = Some (Some e) -> stamp e = fst kt /\ In (j, e) h.

Definition XInv (h : list (nat * E)) (m : list (Z * tuple)) : Prop :=
  keysorted m /\ forall kt, In kt m -> slots_ok h kt.

Definition flat (m : list (Z * tuple)) : list (nat * E) := flat_map (fun kt => tagged (snd kt)) m.

Lemma flat_app a b : flat (a ++ b) = flat a ++ flat b.
Proof. apply flat_map_app. Qed.

Lemma slots_ok_mono h h' kt : (forall x, In x h -> In x h') -> slots_ok h kt -> slots_ok h' kt.
Proof. intros Hh (H1 & H2). split; auto. intros j e He. apply H2 in He as [? ?]; auto. Qed.

Lemma stored_slots h i e t0 :
  (i < n)%nat -> (t0 = empty_tuple n \/ slots_ok h (stamp e, t0)) ->
  slots_ok (h ++ [(i, e)]) (stamp e, upd i (Some e) t0).
Proof.
  intros Hi Ht.
  assert (Hlen : length t0 = n).
  { destruct Ht as [->|(H & _)]; [apply repeat_length|exact H]. }
  split; cbn [fst snd]; [now rewrite upd_length|]. intros j x Hj. rewrite nth_error_upd in Hj.
  destruct (Nat.eqb_spec i j) as [->|Hne].
  - destruct (Nat.ltb_spec j (length t0)); [|lia]. injection Hj as <-. split; auto. apply in_or_app; cbn; auto.
  - destruct Ht as [->|(_ & H)].
    + apply nth_error_repeat_inv in Hj. congruence.
    + apply H in Hj as [H1 H2]. split; auto. apply in_or_app; auto.
Qed.

(** storing a message *)
Lemma put_inv h m i e :
  (i < n)%nat -> XInv h m ->
  exists a b t, put n (stamp e) i e m = (a ++ (stamp e, t) :: b, t) /\
    (forall x, In x a -> fst x < stamp e) /\ (forall x, In x b -> stamp e < fst x) /\
    XInv (h ++ [(i, e)]) (a ++ (stamp e, t) :: b) /\
    exists R, Permutation (flat m ++ [(i, e)]) (flat (a ++ (stamp e, t) :: b) ++ R) /\
      forall x, In x R -> replaced_in stamp (h ++ [(i, e)]) x.
Proof.
  intros Hi (HS & HT). destruct (put_split stamp n (stamp e) i e m HS) as (a & b & t0 & Hput & Ha & Hb & Hm).
  assert (Ht0 : t0 = empty_tuple n \/ slots_ok h (stamp e, t0)).
  { destruct Hm as [[_ ->]|Hm]; auto. right. apply HT. rewrite Hm. apply in_or_app; cbn; auto. }
  exists a, b, (upd i (Some e) t0). split; auto. split; auto. split; auto. split.
  - split.
    + apply keysorted_mid; auto. destruct Hm as [[Hm _]|Hm]; rewrite Hm in HS; auto. now apply keysorted_unmid in HS.
    + intros kt Hkt. apply in_app_or in Hkt as [Hk|[<-|Hk]].
      * apply (slots_ok_mono h); [intros; apply in_or_app; auto|]. apply HT.
        destruct Hm as [[Hm _]|Hm]; rewrite Hm; apply in_or_app; auto.
      * now apply stored_slots.
      * apply (slots_ok_mono h); [intros; apply in_or_app; auto|]. apply HT.
        destruct Hm as [[Hm _]|Hm]; rewrite Hm; apply in_or_app; cbn; auto.
  - assert (Hlt : length t0 = n).
    { destruct Ht0 as [->|(H & _)]; [apply repeat_length|exact H]. }
    destruct (tagged_upd i 0 e t0) as (R1 & HR1 & HR2); [lia|]. cbn [Nat.add] in HR1, HR2.
    exists (match nth_error t0 i with Some (Some e0) => [(i, e0)] | _ => [] end). split.
    + assert (Hpend : Permutation (flat m) (flat a ++ tagged t0 ++ flat b)).
      { destruct Hm as [[-> ->]| ->]; rewrite flat_app; cbn.
        - unfold tagged, empty_tuple. rewrite tagged_repeat_none. reflexivity.
        - reflexivity. }
      rewrite Hpend, flat_app. cbn [flat flat_map snd]. fold (flat b). unfold tagged. rewrite HR1, HR2.
      destruct (nth_error t0 i) as [[e0|]|]; perm.
    + intros x Hx. destruct (nth_error t0 i) as [[e0|]|] eqn:He0; [|destruct Hx|destruct Hx].
      destruct Hx as [<-|[]]. destruct Ht0 as [->|(_ & Hok)].
      { apply nth_error_repeat_inv in He0. congruence. }
      cbn in Hok. apply Hok in He0 as [Hst Hin].
      apply in_split in Hin as (h1 & h2 & Hh).
      exists h1, h2, [], e. split; [|cbn; auto]. cbn [fst]. rewrite Hh. rewrite <- app_assoc. reflexivity.
Qed.

(** dropping *)
Lemma drop_range_spec th r keep :
  exists m o b, drop_range_t th r keep = (m, o, b) /\ signals o = [] /\ signals (returned_of (o, b)) = [] /\
    (b = true -> m = r ++ keep /\ o <> []) /\ (b = false -> m = keep /\ o = @drops E r) /\
    (forall x, In x o -> In x (@drops E r)).
Proof.
  unfold drop_range_t. destruct (signal_all_spec th (drops r)) as (rest & E1 & E2 & E3).
  destruct (signal_all th (drops r)) as [o b]. cbn [fst snd] in *.
  assert (Hs : signals o = []).
  { pose proof (signals_drops r) as H. rewrite E1, signals_app in H. now apply app_eq_nil in H. }
  exists (if b then r ++ keep else keep), o, b. split; auto. split; auto. split.
  { cbn. destruct b; auto. destruct (app_removelast_last (Drop []) (E3 eq_refl)).
    pose proof (app_removelast_last (l := o) (Drop []) (E3 eq_refl)) as HL. rewrite HL, signals_app in Hs. now apply app_eq_nil in Hs. }
  split; [intros ->; auto|]. split; [intros ->; rewrite E1, E2 by auto; now rewrite app_nil_r|].
  intros x Hx. rewrite E1. apply in_or_app; auto.
Qed.

Lemma flat_dropped r : flat_map tagged (dropped (@drops E r)) = flat r.
Proof. rewrite dropped_drops. unfold flat. rewrite !flat_map_concat_map, map_map. reflexivity. Qed.

Record XStep (m : list (Z * tuple)) (s' : state E) (o : list (out E)) (b : bool) : Prop := {
  xs_sub : keysorted (tuples s');
  xs_in : forall kt, In kt (tuples s') -> In kt m;
  xs_acct : exists R, Permutation (flat m) (flat_map tagged_set (signals (returned_of (o, b))) ++ flat (tuples s') ++ R) /\
    forall x, In x R -> exists t, In t (dropped (returned_of (o, b))) /\ In x (tagged t);
  xs_sig : forall ss, In ss (signals o) -> exists k, In (k, map Some ss) m;
  xs_ne : b = true -> o <> []
}.

Lemma keysorted_skipn d m : keysorted m -> keysorted (skipn d m).
Proof. intros H. rewrite <- (firstn_skipn d m) in H. apply keysorted_app in H. tauto. Qed.

Lemma trim_step th m last :
  keysorted m ->
  exists s' o b, trim_t q th (mkState m last) = (s', o, b) /\ XStep m s' o b /\ signals o = [] /\
    signals (returned_of (o, b)) = [].
Proof.
  intros HS. unfold trim_t. cbn [tuples last_signal_time].
  destruct ((0 <? q)%nat && (q <? length m)%nat).
  - set (d := (length m - q)%nat).
    destruct (drop_range_spec th (firstn d m) (skipn d m)) as (m' & o & b & E1 & E2 & E3 & E4 & E5 & E6). rewrite E1.
    exists (mkState m' last), o, b. split; auto. split; [|auto].
    destruct b.
    + destruct (E4 eq_refl) as (-> & E7). rewrite firstn_skipn. split; cbn [tuples]; auto.
      * exists []. rewrite E3. cbn. rewrite app_nil_r. split; auto. intros x [].
      * rewrite E2. intros ss [].
    + destruct (E5 eq_refl) as (-> & ->). split; cbn [tuples returned_of]; auto.
      * now apply keysorted_skipn.
      * intros kt Hk. rewrite <- (firstn_skipn d m). apply in_or_app; auto.
      * exists (flat (firstn d m)). rewrite signals_drops. cbn [flat_map app]. split.
        -- rewrite <- (firstn_skipn d m) at 1. rewrite flat_app. apply Permutation_app_comm.
        -- intros x Hx. unfold flat in Hx. apply in_flat_map in Hx as ((k & t) & Hk & Hx). exists t. split; auto.
           rewrite dropped_drops. apply (in_map snd) in Hk. exact Hk.
      * rewrite signals_drops. intros ss [].
      * discriminate.
  - exists (mkState m last), [], false. split; auto. split; [|auto]. split; cbn; auto.
    + exists []. rewrite app_nil_r. split; auto. intros x [].
    + intros ss [].
    + discriminate.
Qed.

Lemma exact_step_t th h s i e :
  (i < n)%nat -> XInv h (tuples s) ->
  exists m s' o b, exact_add_t stamp n q th s (i, e) = Ok (s', o, b) /\
    XInv (h ++ [(i, e)]) m /\ XStep m s' o b /\
    exists R, Permutation (flat (tuples s) ++ [(i, e)]) (flat m ++ R) /\
      forall x, In x R -> replaced_in stamp (h ++ [(i, e)]) x.
Proof.
  intros Hi HI. destruct (put_inv h (tuples s) i e Hi HI) as (a & b & t & Hput & Ha & Hb & HX & R & HR1 & HR2).
  unfold exact_add_t. rewrite Hput. set (m := a ++ (stamp e, t) :: b) in *.
  assert (Hgoal : exists s' o bb, checkTuple_t stamp q th t (mkState m (last_signal_time s)) = (s', o, bb) /\ XStep m s' o bb).
  2: { destruct Hgoal as (s' & o & bb & E1 & E2). exists m, s', o, bb. rewrite E1. eauto 8. }
  pose proof HX as (HK & HT).
  unfold checkTuple_t. destruct (full t) as [[|e0 rest]|] eqn:Hf.
  - destruct (trim_step th m (last_signal_time s) HK) as (s' & o & bb & E1 & E2 & _). eauto.
  - assert (Htm : In (stamp e, t) m) by (apply in_or_app; cbn; auto).
    destruct (HT _ Htm) as (HL & Hsl). cbn [fst snd] in *.
    apply full_some in Hf.
    assert (He0 : stamp e0 = stamp e).
    { apply (Hsl 0%nat e0). rewrite Hf. reflexivity. }
    destruct (th 0%nat).
    { exists (mkState m (last_signal_time s)), [Signal (e0 :: rest)], true. split; auto.
      split; cbn [tuples]; auto; try discriminate.
      - exists []. cbn. rewrite app_nil_r. split; auto. intros x [].
      - intros ss [<-|[]]. exists (stamp e). now rewrite <- Hf. }
    cbn [tuples]. rewrite He0. unfold m at 1. rewrite erase_mid by auto.
    rewrite split_upper_bound_app; auto. 2:{ intros x Hx. specialize (Ha x Hx). lia. }
    assert (HKab : keysorted (a ++ b)) by (now apply keysorted_unmid in HK).
    assert (HKb : keysorted b) by (apply keysorted_app in HKab; tauto).
    destruct (drop_range_spec (later 1 th) a b) as (m' & o1 & b1 & D1 & D2 & D3 & D4 & D5 & D6). rewrite D1.
    assert (HPm : Permutation (flat m) (tagged_set (e0 :: rest) ++ flat (a ++ b))).
    { unfold m. rewrite !flat_app. cbn [flat flat_map snd]. fold (flat b). rewrite Hf. unfold tagged_set. perm. }
    destruct b1.
    + destruct (D4 eq_refl) as (-> & D7).
      exists (mkState (a ++ b) (stamp e)), (Signal (e0 :: rest) :: o1), true. split; auto.
      assert (Hret : returned_of (Signal (e0 :: rest) :: o1, true) = Signal (e0 :: rest) :: returned_of (o1, true)).
      { cbn. destruct o1; [congruence|reflexivity]. }
      split; cbn [tuples]; auto; try discriminate.
      * intros kt Hk. unfold m. apply in_app_or in Hk as [Hk|Hk]; apply in_or_app; cbn; auto.
      * exists []. rewrite Hret, signals_signal, D3. cbn [flat_map app]. rewrite !app_nil_r. split; auto. intros x [].
      * rewrite signals_signal, D2. intros ss [<-|[]]. exists (stamp e). now rewrite <- Hf.
    + destruct (D5 eq_refl) as (-> & ->).
      destruct (trim_step (later (1 + length (drops a)) th) b (stamp e) HKb) as (s' & o2 & b2 & T1 & T2 & T3 & T4).
      rewrite T1. exists s', (Signal (e0 :: rest) :: drops a ++ o2), b2. split; auto.
      destruct T2 as [X1 X2 (R2 & X3 & X4) X5 X6].
      assert (Hret : returned_of (Signal (e0 :: rest) :: drops a ++ o2, b2) = Signal (e0 :: rest) :: drops a ++ returned_of (o2, b2)).
      { destruct b2; [|reflexivity]. cbn [returned_of]. rewrite app_comm_cons. rewrite removelast_app by auto. reflexivity. }
      split; auto.
      * intros kt Hk. apply X2 in Hk. unfold m. apply in_or_app; cbn; auto.
      * exists (flat a ++ R2). rewrite Hret, signals_signal, signals_app, signals_drops, T4. cbn [app flat_map]. split.
        -- rewrite HPm, flat_app, X3, T4. cbn [flat_map app]. perm.
        -- rewrite dropped_signal, dropped_app. intros x Hx. apply in_app_or in Hx as [Hx|Hx].
           ++ unfold flat in Hx. apply in_flat_map in Hx as ((k & u) & Hk & Hx). exists u. split; auto.
              apply in_or_app; left. rewrite dropped_drops. apply (in_map snd) in Hk. exact Hk.
           ++ destruct (X4 x Hx) as (u & U1 & U2). exists u. split; auto. apply in_or_app; auto.
      * rewrite signals_signal, signals_app, signals_drops, T3. intros ss [<-|[]]. exists (stamp e). now rewrite <- Hf.
      * discriminate.
  - destruct (trim_step th m (last_signal_time s) HK) as (s' & o & bb & E1 & E2 & _). eauto.
Qed.

Lemma exact_run_t h :
  well_indexed n (calls_of h) ->
  exists s tr, run_t (exact_add_t stamp n q) init h = Ok (s, tr) /\
    XInv (calls_of h) (tuples s) /\
    (forall ss, In ss (signals (begun tr)) -> exists t, matching_set stamp n (calls_of h) t ss) /\
    exists rest, Permutation (calls_of h) (flat_map tagged_set (signals (returned tr)) ++ pending s ++ rest) /\
      forall x, In x rest -> replaced_in stamp (calls_of h) x \/
        exists t, In t (dropped (returned tr)) /\ In x (tagged t).
Proof.
  intros HW.
  apply (run_t_inv (exact_add_t stamp n q) (fun h s tr => XInv (calls_of h) (tuples s) /\
    (forall ss, In ss (signals (begun tr)) -> exists t, matching_set stamp n (calls_of h) t ss) /\
    exists rest, Permutation (calls_of h) (flat_map tagged_set (signals (returned tr)) ++ pending s ++ rest) /\
      forall x, In x rest -> replaced_in stamp (calls_of h) x \/
        exists t, In t (dropped (returned tr)) /\ In x (tagged t)) (fun ie => (fst ie < n)%nat)).
  - split; [split; [constructor|intros kt []]|]. split; [intros ss []|]. exists []. split; auto. intros x [].
  - clear h HW. intros h s tr (i, e) th Hr (HX & HS & rest & HP & HR) Hi. cbn [fst] in Hi.
    destruct (exact_step_t th (calls_of h) s i e Hi HX) as (m & s' & o & b & E1 & HXm & [X1 X2 (R2 & X3 & X4) X5 X6] & R & HP1 & HR1).
    exists s', o, b. split; auto. rewrite calls_snoc, begun_snoc, returned_snoc. cbn [fst].
    split; [|split].
    + split; [exact X1|]. intros kt Hk. apply HXm. auto.
    + intros ss Hss. rewrite signals_app in Hss. apply in_app_or in Hss as [Hss|Hss].
      * destruct (HS ss Hss) as (t & Ht). exists t. eapply matching_set_mono; [|exact Ht]. intros; apply in_or_app; auto.
      * destruct (X5 ss Hss) as (k & Hk). destruct HXm as (_ & HXm). destruct (HXm _ Hk) as (HL & Hsl). cbn [fst snd] in *.
        exists k. rewrite map_length in HL. split; auto. intros j x Hj. destruct (Hsl j x); [now rewrite nth_error_map, Hj|auto].
    + exists (R2 ++ R ++ rest). rewrite signals_app, flat_map_app, dropped_app. split.
      * eapply Permutation_trans; [apply Permutation_app_tail; exact HP|].
        set (S0 := flat_map tagged_set (signals (returned tr))) in *.
        transitivity (S0 ++ (flat (tuples s) ++ [(i, e)]) ++ rest); [change (pending s) with (flat (tuples s)); perm|].
        rewrite HP1, X3. change (pending s') with (flat (tuples s')). perm.
      * intros x Hx. apply in_app_or in Hx as [Hx|Hx]; [|apply in_app_or in Hx as [Hx|Hx]].
        -- right. destruct (X4 x Hx) as (t & T1 & T2). exists t. split; auto. apply in_or_app; auto.
        -- left. auto.
        -- destruct (HR x Hx) as [Hx'|(t & T1 & T2)]; [left; now apply replaced_mono|right].
           exists t. split; auto. apply in_or_app; auto.
  - intros (i, e) Hx. cbn. eapply HW; eauto.
Qed.

Lemma drop_range_quiet th (r keep : list (Z * tuple)) : (forall k, th k = false) ->
  drop_range_t th r keep = (keep, drops r, false).
Proof. intros H. unfold drop_range_t. now rewrite signal_all_quiet. Qed.
Lemma trim_quiet th s : (forall k, th k = false) ->
  trim_t q th s =
  if (0 <? q)%nat && (q <? length (tuples s))%nat then
    (mkState (skipn (length (tuples s) - q) (tuples s)) (last_signal_time s),
     @drops E (firstn (length (tuples s) - q) (tuples s)), false)
  else (s, [], false).
Proof. intros H. unfold trim_t. rewrite drop_range_quiet by auto. destruct (_ && _); reflexivity. Qed.

Lemma exact_quiet th s x : (forall k, th k = false) ->
  exact_add_t stamp n q th s x = Ok (fst (add stamp n q s x), snd (add stamp n q s x), false).
Proof.
  intros H. destruct x as [i e]. unfold exact_add_t, add. destruct (put n (stamp e) i e (tuples s)) as [m t]. f_equal.
  unfold checkTuple_t, checkTuple. destruct (full t) as [[|e0 rest]|].
  - rewrite trim_quiet by auto. destruct (_ && _); reflexivity.
  - rewrite H. destruct (split_upper_bound _ _) as [old keep]. rewrite drop_range_quiet by auto using later_quiet.
    rewrite trim_quiet by auto using later_quiet. cbn [tuples last_signal_time].
    destruct (_ && _); cbn [fst snd]; [reflexivity|]. now rewrite app_nil_r.
  - rewrite trim_quiet by auto. destruct (_ && _); reflexivity.
Qed.
End Exact.

(** ** ApproximateEpsilonTime *)
Section Eps.
Import Eps_Model Eps_Spec Eps_Proofs.
Context {E : Type} (stamp : E -> Z).
Variable n : nat.
Variable q : nat.
Variable eps : Z.
Hypothesis Hmax : forall e, stamp e <= int64_max.
Hypothesis Heps : 0 <= eps.
Notation state := (Eps_Model.state E).
Notation Inv := (Eps_Proofs.Inv n).
Notation iter := (Eps_Proofs.iter stamp n eps).

Lemma eps_iteration (s : state) :
  (0 < n)%nat -> Inv s -> count s = n ->
  let old := get_older_timestamp stamp s in
  (all_within_from stamp eps old 0 (events s) = true /\
   exists set, fronts (events s) = Some set /\ iter s (erase_all erase_beginning s) [set] /\
     Inv (erase_all erase_beginning s) /\ (total (erase_all erase_beginning s) < total s)%nat) \/
  (all_within_from stamp eps old 0 (events s) = false /\
   let s' := erase_all (erase_if_on_sync stamp eps (fst old)) s in
   iter s s' [] /\ Inv s' /\ (total s' < total s)%nat).
Proof.
  intros Hn HI Hc old. pose proof (Inv_full n s HI Hc) as Hne.
  destruct (process_iter stamp n eps Hmax Heps (S (total s)) s [] Hn HI ltac:(lia)) as [[Hc' _]|(f' & s1 & o & _ & _ & Hit & HI1 & Ht & _)]; [congruence|].
  destruct (older_min stamp n Hmax s Hn HI Hc) as (m & Hm & Hmin & v0 & e0 & Hv0 & He0 & Hs0).
  fold old in Hm.
  destruct (all_within_from stamp eps old 0 (events s)) eqn:Hall.
  - left. split; auto. destruct (fronts_some (events s) Hne) as (set & Hset & HL & Hnth). exists set. split; auto.
    pose proof (proj1 (all_within_from_spec stamp n eps Heps s Hn HI Hc) Hall) as Hw. fold old in Hw. rewrite Hm in Hw.
    split; [|split].
    + constructor.
      * intros a b Ha Hb.
        assert (Hb' : forall x, In x set -> m <= stamp x <= m + eps).
        { intros x Hx. apply In_nth_error in Hx as [j Hj]. rewrite Hnth in Hj.
          destruct (nth_error (events s) j) as [v|] eqn:Hv; [|discriminate].
          apply nth_error_In in Hv. split; eauto. }
        apply Hb' in Ha. apply Hb' in Hb. lia.
      * destruct HI as [HI _]. lia.
      * intros j v Hv. destruct v as [|e t]. { exfalso. apply (Hne []); auto. now apply nth_error_In in Hv. }
        exists e, t. split; auto. rewrite Hnth, Hv. reflexivity.
    + apply erase_all_inv; auto. apply erase_beginning_good.
    + apply total_erase; [apply erase_beginning_good|].
      exists v0. split; auto. split; [now destruct v0|]. apply erase_beginning_fst.
  - right. split; auto. cbv zeta. rewrite Hm. split; [|split].
    + constructor; eauto.
      assert (Hex : ~ forall v e, In v (events s) -> hd_error v = Some e -> stamp e <= m + eps).
      { intros H. rewrite <- Hm in H. apply (all_within_from_spec stamp n eps Heps s Hn HI Hc) in H. fold old in H. congruence. }
      clear -Hex. induction (events s) as [|v vs IH].
      { exfalso. apply Hex. intros v e []. }
      destruct v as [|e v].
      * destruct IH as (w & x & Hw & H). { intros H. apply Hex. intros w x [<-|Hw] Hx; [discriminate|eauto]. }
        exists w, x. cbn; tauto.
      * destruct (Z.ltb_spec (m + eps) (stamp e)) as [Hlt|Hge].
        { exists (e :: v), e. cbn; auto. }
        destruct IH as (w & x & Hw & H).
        { intros H. apply Hex. intros w x [<-|Hw] Hx; [|eauto]. cbn in Hx. injection Hx as <-. auto. }
        exists w, x. cbn; tauto.
    + apply erase_all_inv; auto. apply erase_if_good.
    + apply total_erase; [apply erase_if_good|].
      exists v0. split; auto. split; [now destruct v0|]. rewrite erase_if_fst. destruct v0 as [|e v0]; [reflexivity|].
      cbn in He0. injection He0 as <-. destruct (Z.ltb_spec (m + eps) (stamp e)); [lia|reflexivity].
Qed.

Record EStep (s s' : state) (o : list (list E)) (b : bool) : Prop := {
  es_inv : Inv s';
  es_fit : forall set, In set o -> length set = n /\ fits stamp eps set;
  es_sub : forall i, exists d, at_ i (events s) = d ++ at_ i (events s') /\ subseq (column i (returned_of (o, b))) d;
  es_in : forall set i e, In set o -> nth_error set i = Some e -> In e (at_ i (events s));
  es_ne : b = true -> o <> [];
  es_kept : b = true -> forall i, nth_error (last o []) i = hd_error (at_ i (events s'))
}.

Lemma eps_process_ok : (0 < n)%nat -> forall fuel th s, Inv s -> (total s < fuel)%nat ->
  exists s' o b, eps_process_t stamp n eps fuel th s = Ok (s', o, b) /\ EStep s s' o b.
Proof.
  intros Hn. induction fuel as [|fuel IH]; intros th s HI Hf; [lia|]. cbn [eps_process_t].
  destruct (Nat.eqb_spec (count s) n) as [Hc|Hc].
  2: { exists s, [], false. split; auto. split; auto; try discriminate; try (now intros set); try (now intros set i e).
       intros i. exists []. split; auto. constructor. }
  destruct (eps_iteration s Hn HI Hc) as [(-> & set & -> & Hit & HI1 & Ht)|(-> & Hit & HI1 & Ht)]; cbv zeta in *.
  - assert (Hin : forall i e, nth_error set i = Some e -> In e (at_ i (events s))).
    { intros i e He. destruct (iter_cases stamp n eps _ _ _ HI Hit) as [(set' & [= <-] & _ & _ & Hat)|(m & [=] & _)].
      rewrite Hat. apply in_or_app; left. unfold column. cbn. rewrite He. cbn; auto. }
    assert (Hfit : length set = n /\ fits stamp eps set).
    { destruct (iter_cases stamp n eps _ _ _ HI Hit) as [(set' & [= <-] & F1 & F2 & Hat)|(m & [=] & _)]. auto. }
    destruct (th 0%nat).
    + exists s, [set], true. split; auto. split; auto; try discriminate.
      * intros x [<-|[]]; auto.
      * intros i. exists []. split; auto. constructor.
      * intros x i e [<-|[]]; auto.
      * intros _ i. cbn [last]. inversion Hit as [set' F1 F2 F3|]; subst.
        unfold at_. destruct (nth_error (events s) i) as [v|] eqn:Hv.
        -- rewrite (nth_error_nth _ _ _ Hv). destruct (F3 _ _ Hv) as (e & t & -> & ->). reflexivity.
        -- apply nth_error_None in Hv. rewrite nth_overflow by auto. cbn. apply nth_error_None.
           destruct HI. lia.
    + destruct (IH (later 1 th) (erase_all erase_beginning s) HI1 ltac:(lia)) as (s' & o & b & E1 & [S1 S2 S3 S4 S5 S6]).
      rewrite E1. cbn [bind]. exists s', (set :: o), b. split; auto.
      assert (Hat : forall i, at_ i (events s) = column i [set] ++ at_ i (events (erase_all erase_beginning s))).
      { intros i. destruct (iter_cases stamp n eps _ _ _ HI Hit) as [(set' & [= <-] & _ & _ & H)|(m & [=] & _)]. apply H. }
      split; auto; try discriminate.
      * intros x [<-|Hx]; auto.
      * intros i. rewrite Hat.
        assert (Hr : returned_of (set :: o, b) = [set] ++ returned_of (o, b)).
        { cbn. destruct b; auto. destruct o; [exfalso; now apply S5|reflexivity]. }
        destruct (S3 i) as (d & Hd & Hsub). exists (column i [set] ++ d). rewrite Hr, column_app, Hd, app_assoc. split; auto.
        apply subseq_app; [apply subseq_refl|auto].
      * intros x i e [<-|Hx] He; auto. rewrite Hat. apply in_or_app. right. eauto.
      * intros Hb i. rewrite <- (S6 Hb i). destruct o; [exfalso; now apply S5|reflexivity].
  - destruct (IH th _ HI1 ltac:(lia)) as (s' & o & b & E1 & [S1 S2 S3 S4 S5 S6]). rewrite E1.
    exists s', o, b. split; auto.
    assert (Hat : forall i, exists d, at_ i (events s) = d ++ at_ i (events (erase_all (erase_if_on_sync stamp eps (fst (get_older_timestamp stamp s))) s))).
    { intros i. destruct (iter_cases stamp n eps _ _ _ HI Hit) as [(set & [=] & _)|(m & _ & H & _)]. eauto. }
    split; auto.
    + intros i. destruct (Hat i) as (d1 & E2). destruct (S3 i) as (d2 & E3 & Hsub). exists (d1 ++ d2).
      rewrite E2, E3, app_assoc. split; auto. apply subseq_app_skip. exact Hsub.
    + intros x i e Hx He. destruct (Hat i) as (d1 & E2). rewrite E2. apply in_or_app. right. eauto.
Qed.

Lemma eps_add_ok th s i e : (i < n)%nat -> Inv s ->
  exists s' o b, eps_add_t stamp n q eps th s (i, e) = Ok (s', o, b) /\ EStep (pushed s i e) s' o b.
Proof.
  intros Hi HI. pose proof HI as [HL HC]. set (s1 := pushed s i e).
  assert (HI1 : Inv s1) by (apply pushed_inv; auto).
  assert (Hn : nth_error (events s) i = Some (at_ i (events s))) by (apply nth_error_nth'; lia).
  cbn [eps_add_t]. rewrite Hn. cbv zeta.
  replace (mkState _ (upd i (at_ i (events s) ++ [e]) (events s))) with s1 by reflexivity.
  change (match at_ i (events s) with [] => S (count s) | _ :: _ => count s end) with (count s1).
  assert (Hv : at_ i (events s) ++ [e] = at_ i (events s1)).
  { unfold s1. rewrite (pushed_at n), Nat.eqb_refl; auto. }
  rewrite Hv.
  destruct (Nat.eqb_spec (count s1) n) as [Hc|Hc]; [apply eps_process_ok; auto; lia|].
  destruct (Nat.ltb_spec q (length (at_ i (events s1)))) as [Hq|Hq].
  - pose proof (erase_beginning_good (at_ i (events s1))) as [Hg _].
    pose proof (erase_beginning_fst (at_ i (events s1))) as Hf.
    destruct (erase_beginning (at_ i (events s1))) as [v2 d]. cbn [fst snd] in *. subst v2.
    do 3 eexists. split; [reflexivity|]. destruct HI1 as [HL1 HC1].
    split; try discriminate; try (now intros set); try (now intros set j x).
    + split; [cbn; rewrite upd_length; auto|]. cbn [count events].
      assert (Hn1 : nth_error (events s1) i = Some (at_ i (events s1))) by (apply nth_error_nth'; lia).
      pose proof (cnt_upd _ _ _ (tl (at_ i (events s1))) Hn1) as H. lia.
    + intros j. cbn [returned_of column flat_map app events]. rewrite at_upd by lia.
      destruct (Nat.eqb_spec j i) as [->|]; [|exists []; split; [auto|constructor]].
      exists (firstn 1 (at_ i (events s1))). split; [|constructor]. now destruct (at_ i (events s1)).
  - do 3 eexists. split; [reflexivity|].
    split; auto; try discriminate; try (now intros set); try (now intros set j x). intros j. exists []. split; auto. constructor.
Qed.

Lemma eps_run_t h :
  (0 < n)%nat -> well_indexed n (calls_of h) ->
  exists s tr, run_t (eps_add_t stamp n q eps) (init n) h = Ok (s, tr) /\ Inv s /\
    (forall set, In set (begun tr) -> length set = n /\ fits stamp eps set) /\
    (forall set i e, In set (begun tr) -> nth_error set i = Some e -> In (i, e) (calls_of h)) /\
    (forall i, exists gone, stream i (calls_of h) = gone ++ at_ i (events s) /\ subseq (column i (returned tr)) gone).
Proof.
  intros Hn HW.
  apply (run_t_inv (eps_add_t stamp n q eps) (fun h s tr => Inv s /\
    (forall set, In set (begun tr) -> length set = n /\ fits stamp eps set) /\
    (forall set i e, In set (begun tr) -> nth_error set i = Some e -> In (i, e) (calls_of h)) /\
    (forall i, exists gone, stream i (calls_of h) = gone ++ at_ i (events s) /\ subseq (column i (returned tr)) gone)) (fun ie => (fst ie < n)%nat)).
  - split; [apply init_inv|]. split; [intros set []|]. split; [intros set i e []|]. intros i. rewrite init_at. exists []. split; auto. constructor.
  - clear h HW. intros h s tr (i, e) th Hr (HI & P1 & P2 & P3) Hi. cbn [fst] in Hi.
    destruct (eps_add_ok th s i e Hi HI) as (s' & o & b & E1 & [S1 S2 S3 S4 S5 S6]).
    exists s', o, b. split; auto. rewrite calls_snoc, begun_snoc, returned_snoc. cbn [fst]. split; auto.
    assert (HPush : forall j, exists gone, stream j (calls_of h ++ [(i, e)]) = gone ++ at_ j (events (pushed s i e)) /\ subseq (column j (returned tr)) gone).
    { intros j. destruct (P3 j) as (gone & G1 & G2). exists gone. rewrite (pushed_at n), stream_snoc, G1, app_assoc by auto. auto. }
    split; [|split].
    + intros set Hs. apply in_app_or in Hs as [Hs|Hs]; auto.
    + intros set j x Hs Hx. apply in_app_or in Hs as [Hs|Hs]; [apply in_or_app; left; eauto|].
      apply stream_in. destruct (HPush j) as (gone & -> & _). apply in_or_app; right. eauto.
    + intros j. destruct (HPush j) as (gone & G1 & G2). destruct (S3 j) as (d & D1 & D2). exists (gone ++ d).
      rewrite column_app, G1, D1, app_assoc. split; auto. now apply subseq_app.
  - intros (i, e) Hx. cbn. eapply HW; eauto.
Qed.

Lemma eps_process_quiet fuel : forall th s outs, (forall k, th k = false) ->
  process stamp n eps fuel s outs = do '(s', o, _) <- eps_process_t stamp n eps fuel th s; Ok (s', outs ++ o).
Proof.
  induction fuel as [|fuel IH]; intros th s outs H; cbn [process eps_process_t];
    (destruct (count s =? n)%nat; [|cbn; now rewrite app_nil_r]); auto.
  destruct (all_within_from _ _ _ _ _); [|now rewrite (IH th)].
  destruct (fronts (events s)) as [set|]; auto. rewrite H, (IH (later 1 th)) by auto using later_quiet.
  destruct (eps_process_t _ _ _ _ _ _) as [[[s' o] b]|]; cbn [bind]; auto. now rewrite <- app_assoc.
Qed.
Lemma eps_process_quiet_flag fuel : forall th s s' o b, (forall k, th k = false) ->
  eps_process_t stamp n eps fuel th s = Ok (s', o, b) -> b = false.
Proof.
  induction fuel as [|fuel IH]; intros th s s' o b H; cbn [eps_process_t];
    (destruct (count s =? n)%nat; [|intros [= <- <- <-]; auto]); [discriminate|].
  destruct (all_within_from _ _ _ _ _); [|now apply IH].
  destruct (fronts (events s)) as [set|]; [|discriminate]. rewrite H.
  destruct (eps_process_t stamp n eps fuel (later 1 th) (erase_all erase_beginning s)) as [[[s1 o1] b1]|] eqn:E1; cbn [bind]; [|discriminate].
  intros [= <- <- <-]. eapply IH; [|exact E1]. auto using later_quiet.
Qed.
Lemma eps_quiet th s x : (forall k, th k = false) ->
  eps_add_t stamp n q eps th s x = do '(s', o) <- add stamp n q eps s x; Ok (s', o, false).
Proof.
  intros H. destruct x as [i e]. cbn [eps_add_t add]. destruct (nth_error (events s) i) as [v|]; auto. cbv zeta.
  destruct (Nat.eqb _ n).
  - rewrite (eps_process_quiet _ th) by auto.
    destruct (eps_process_t _ _ _ _ _ _) as [[[s' o] b]|] eqn:E1; cbn [bind]; auto.
    apply eps_process_quiet_flag in E1; auto. now subst.
  - destruct (Nat.ltb _ _); auto. destruct (erase_beginning _); auto.
Qed.
End Eps.

(** ** ApproximateTime *)
Section Approx.
Import Approx_Model Approx_Proofs Throw_Approx.
Context {E : Type} (stamp : E -> Z) (c : cfg).

Lemma approx_run_t h :
  (0 < n c)%nat -> 0 <= scale c 0 -> (0 < queue_size c)%nat ->
  (forall i e, In (i, e) (calls_of h) -> (i < n c)%nat) ->
  exists s tr, run_t (approx_add_t stamp c) (init c) h = Ok (s, tr) /\ WF c s /\ TInv stamp c s /\
    (forall set, In set (begun tr) -> length set = n c) /\
    (forall set i e, In set (begun tr) -> nth_error set i = Some e -> In (i, e) (calls_of h)) /\
    (forall i, (i < n c)%nat -> exists gone, stream i (calls_of h) = gone ++ pend s i /\ subseq (column i (returned tr)) gone).
Proof.
  intros Hn H0 Hq HW.
  apply (run_t_inv (approx_add_t stamp c) (fun h s tr => WF c s /\ TInv stamp c s /\
    (forall set, In set (begun tr) -> length set = n c) /\
    (forall set i e, In set (begun tr) -> nth_error set i = Some e -> In (i, e) (calls_of h)) /\
    (forall i, (i < n c)%nat -> exists gone, stream i (calls_of h) = gone ++ pend s i /\ subseq (column i (returned tr)) gone)) (fun ie => (fst ie < n c)%nat)).
  - split; [apply init_WF|]. split; [apply init_TInv|]. split; [intros set []|]. split; [intros set i e []|].
    intros i Hi. unfold pend, pa, dq. cbn. rewrite !nth_repeat_nil. exists []. split; auto. constructor.
  - clear h HW. intros h s tr (i, e) th Hr (HWF & HT & P1 & P2 & P3) Hi. cbn [fst] in Hi.
    destruct (add_t_ok stamp c th i e s Hn H0 Hq HWF HT Hi) as (s' & o & b & E1 & [D1 D2 D3 D4 D5 D6 D7]).
    exists s', o, b. split; auto. rewrite calls_snoc, begun_snoc, returned_snoc. cbn [fst]. split; auto. split; auto.
    rewrite Forall_forall in D3.
    assert (HPush : forall j, (j < n c)%nat -> exists gone, stream j (calls_of h ++ [(i, e)]) = gone ++ pend (push i e s) j /\ subseq (column j (returned tr)) gone).
    { intros j Hj. destruct (P3 j Hj) as (gone & G1 & G2). exists gone. rewrite (push_pend c), Eps_Proofs.stream_snoc, G1 by auto.
      destruct (Nat.eq_dec i j) as [->|Hne].
      - rewrite Nat.eqb_refl, app_assoc. auto.
      - destruct (Nat.eqb_spec j i); [congruence|]. rewrite app_nil_r. auto. }
    split; [|split].
    + intros set Hs. apply in_app_or in Hs as [Hs|Hs]; auto.
    + intros set j x Hs Hx. apply in_app_or in Hs as [Hs|Hs]; [apply in_or_app; left; eauto|].
      assert (Hj : (j < n c)%nat) by (rewrite <- (D3 set Hs); apply nth_error_Some; congruence).
      apply stream_in. destruct (HPush j Hj) as (gone & -> & _). apply in_or_app; right. eauto.
    + intros j Hj. destruct (HPush j Hj) as (gone & G1 & G2). destruct (D4 j Hj) as (d & E2 & Hd). exists (gone ++ d).
      rewrite column_app, G1, E2, app_assoc. split; auto. now apply subseq_app.
  - intros (i, e) Hx. cbn. eapply HW; eauto.
Qed.

Lemma publish_quiet th (s : state E) : th 0%nat = false ->
  publish_t th s = do '(s', o) <- publish s; Ok (s', o, false).
Proof. intros H. unfold publish_t. rewrite H. unfold publish. destruct (candidate s); auto. Qed.
Lemma virtual_quiet fuel : forall th before mvs (s : state E), th 0%nat = false ->
  virtual_search_t stamp c fuel th before mvs s = do '(s', o) <- virtual_search stamp c fuel before mvs s; Ok (s', o, false).
Proof.
  induction fuel as [|fuel IH]; intros th before mvs s H; cbn [virtual_search_t virtual_search]; auto.
  destruct (virtual_times stamp c s) as [ts|]; cbn [bind]; auto.
  destruct (boundary true ts) as [? et], (boundary false ts) as [si st].
  destruct (_ <=? _); [now apply publish_quiet|]. destruct (_ <? _).
  { destruct (recover_some mvs s); cbn [bind]; auto. destruct (Nat.eqb _ _); auto. }
  destruct (match pivot s with Some p => _ | None => _ end); auto. destruct (negb _); auto.
  destruct (move_front si s); cbn [bind]; auto.
Qed.
Lemma conclude_quiet th si et (s : state E) : th 0%nat = false ->
  conclude_t stamp c th si et s = do '(s', o) <- conclude stamp c si et s; Ok (s', o, false).
Proof.
  intros H. unfold conclude_t, conclude. destruct (pivot s); auto.
  destruct (Nat.eqb _ _); [now apply publish_quiet|]. destruct (_ <=? _); [now apply publish_quiet|].
  destruct (Nat.ltb _ _); auto. now apply virtual_quiet.
Qed.
Lemma iteration_quiet th (s : state E) : th 0%nat = false ->
  iteration_t stamp c th s = do '(s', o) <- iteration stamp c s; Ok (s', o, false).
Proof.
  intros H. unfold iteration_t, iteration. destruct (fronts (deques s)) as [hs|]; auto.
  destruct (boundary true _) as [ei et], (boundary false _) as [si st]. cbv zeta.
  destruct (pivot (clear_dropped ei s)).
  - destruct (_ <=? _).
    + destruct (move_front _ _); cbn [bind]; auto. now apply conclude_quiet.
    + destruct (make_candidate _ _ _); cbn [bind]; auto. destruct (move_front _ _); cbn [bind]; auto. now apply conclude_quiet.
  - destruct (_ <? _); [destruct (delete_front _ _); auto|].
    destruct (nth ei _ false); [destruct (delete_front _ _); auto|].
    destruct (make_candidate _ _ _); cbn [bind]; auto. destruct (move_front _ _); cbn [bind]; auto. now apply conclude_quiet.
Qed.
Lemma process_quiet fuel : forall th (s : state E), (forall k, th k = false) ->
  approx_process_t stamp c fuel th s = do '(s', o) <- process stamp c fuel s; Ok (s', o, false).
Proof.
  induction fuel as [|fuel IH]; intros th s H; cbn [approx_process_t process]; (destruct (Nat.eqb _ _); [|reflexivity]); auto.
  rewrite iteration_quiet by auto. destruct (iteration stamp c s) as [[s1 o1]|]; cbn [bind]; auto.
  rewrite IH by auto using later_quiet. destruct (process stamp c fuel s1) as [[s2 o2]|]; reflexivity.
Qed.
Lemma approx_quiet th (s : state E) x : (forall k, th k = false) ->
  approx_add_t stamp c th s x = do '(s', o) <- add stamp c s x; Ok (s', o, false).
Proof.
  intros H. unfold approx_add_t, add.
  assert (E1 : approx_add_process_t stamp c th s (fst x) (snd x) =
               do '(s', o) <- add_process stamp c s (fst x) (snd x); Ok (s', o, false)).
  { unfold approx_add_process_t, add_process. destruct (nth_error _ _) as [dq|]; auto. cbv zeta.
    destruct (is_nil dq); auto. destruct (Nat.eqb _ _); auto. now apply process_quiet. }
  destruct x as [i e]. cbn [fst snd] in *. rewrite E1. destruct (add_process stamp c s i e) as [[s1 o1]|]; cbn [bind]; auto.
  assert (E2 : approx_add_overflow_t stamp c (later (length o1) th) s1 i =
               do '(s', o) <- add_overflow stamp c s1 i; Ok (s', o, false)).
  { unfold approx_add_overflow_t, add_overflow. destruct (Nat.ltb _ _); auto. cbv zeta.
    destruct (nth i _ []); auto. destruct (pivot _); auto. apply process_quiet. auto using later_quiet. }
  rewrite E2. destruct (add_overflow stamp c s1 i) as [[s2 o2]|]; reflexivity.
Qed.
End Approx.

(** ** a call left by an exception has made the first of the calls it would have made *)
Lemma cut_short_same {O} (l : list O) : cut_short (l, false) l.
Proof. reflexivity. Qed.
Lemma cut_short_app {O} (a o l : list O) b : cut_short (o, b) l -> cut_short (a ++ o, b) (a ++ l).
Proof.
  unfold cut_short. cbn. destruct b.
  - intros (rest & ->). exists rest. now rewrite app_assoc.
  - now intros ->.
Qed.
Lemma cut_short_thrown {O} (a l : list O) : cut_short (a, true) (a ++ l).
Proof. exists l. reflexivity. Qed.
Lemma signal_all_cut {O} th (l : list O) : cut_short (signal_all th l) l.
Proof.
  destruct (signal_all_spec th l) as (rest & E1 & E2 & _). destruct (signal_all th l) as [o b]. unfold cut_short. cbn in *.
  destruct b; [eauto|]. rewrite E1, E2 by auto. now rewrite app_nil_r.
Qed.

Section CutAligner.
Import Aligner_Model.
Context {E : Type} (stamp : E -> Z) (timeout : Z).
Lemma aligner_first_cut th (s s' s2 : state E) o again b o2 again2 :
  aligner_first_t stamp timeout th s = Ok (s', o, again, b) -> dispatch_first stamp timeout s = Ok (s2, o2, again2) ->
  o = o2 /\ (b = false -> s' = s2 /\ again = again2) /\ (b = true -> again2 = true).
Proof.
  unfold aligner_first_t, dispatch_first. destruct (nth_error _ _) as [q|]; [|discriminate].
  destruct (evs q).
  - destruct (_ <=? _); intros [= <- <- <- <-] [= <- <- <-]; (split; [auto|split; [auto|discriminate]]).
  - destruct (th 0%nat); intros [= <- <- <- <-] [= <- <- <-]; (split; [auto|split; [try discriminate; auto|auto]]).
Qed.
Lemma aligner_loop_cut fuel : forall th (s s' s2 : state E) o b o2,
  aligner_loop_t stamp timeout fuel th s = Ok (s', o, b) -> dispatch_loop stamp timeout fuel s = Ok (s2, o2) ->
  cut_short (o, b) o2.
Proof.
  induction fuel as [|fuel IH]; intros th s s' s2 o b o2; cbn [aligner_loop_t dispatch_loop]; [discriminate|].
  destruct (aligner_first_t stamp timeout th s) as [[[[s1 o1] ag1] b1]|] eqn:E1; cbn [bind]; [|discriminate].
  destruct (dispatch_first stamp timeout s) as [[[s1' o1'] ag1']|] eqn:E2; cbn [bind]; [|discriminate].
  destruct (aligner_first_cut _ _ _ _ _ _ _ _ _ E1 E2) as (<- & H1 & H2). destruct b1.
  - intros [= <- <- <-]. rewrite H2 by auto. destruct (dispatch_loop stamp timeout fuel s1') as [[s3 o3]|]; cbn [bind]; [|discriminate].
    intros [= <- <-]. apply cut_short_thrown.
  - destruct (H1 eq_refl) as (<- & <-). destruct ag1.
    + destruct (aligner_loop_t stamp timeout fuel (later (length o1) th) s1) as [[[s3 o3] b3]|] eqn:E3; cbn [bind]; [|discriminate].
      intros [= <- <- <-]. destruct (dispatch_loop stamp timeout fuel s1) as [[s4 o4]|] eqn:E4; cbn [bind]; [|discriminate].
      intros [= <- <-]. apply cut_short_app. eapply IH; eauto.
    + intros [= <- <- <-] [= <- <-]. apply cut_short_same.
Qed.
Lemma aligner_cut th (s s' s2 : state E) x o b o2 :
  aligner_step_t stamp timeout th s x = Ok (s', o, b) -> step stamp timeout s x = Ok (s2, o2) -> cut_short (o, b) o2.
Proof.
  destruct x as [i e|i p|]; cbn [aligner_step_t step].
  - destruct (add stamp s i e); cbn [bind]; [|discriminate]. intros [= <- <- <-] [= <- <-]. apply cut_short_same.
  - destruct (set_period s i p); cbn [bind]; [|discriminate]. intros [= <- <- <-] [= <- <-]. apply cut_short_same.
  - unfold dispatch. destruct (inputs_available s); [apply aligner_loop_cut|].
    intros [= <- <- <-] [= <- <-]. apply cut_short_same.
Qed.
End CutAligner.

Section CutExact.
Import Exact_Model.
Context {E : Type} (stamp : E -> Z) (n q : nat).
Lemma drop_range_cut th (r keep : list (Z * list (option E))) m o b :
  drop_range_t th r keep = (m, o, b) -> cut_short (o, b) (drops r) /\ (b = false -> m = keep).
Proof.
  unfold drop_range_t. pose proof (signal_all_cut th (drops r)) as H. destruct (signal_all th (drops r)) as [o' b'].
  intros [= <- <- <-]. split; auto. now intros ->.
Qed.
Lemma exact_cut th (s s' : state E) x o b :
  exact_add_t stamp n q th s x = Ok (s', o, b) -> cut_short (o, b) (snd (add stamp n q s x)).
Proof.
  destruct x as [i e]. unfold exact_add_t, add. destruct (put n (stamp e) i e (tuples s)) as [m t]. intros [= H]. revert H.
  assert (HT : forall th s0, cut_short (snd (fst (trim_t q th s0)), snd (trim_t q th s0))
            (if (0 <? q)%nat && (q <? length (tuples s0))%nat then @drops E (firstn (length (tuples s0) - q) (tuples s0)) else [])).
  { intros th0 s0. unfold trim_t. destruct (_ && _); [|apply cut_short_same].
    destruct (drop_range_t _ _ _) as [[m0 o0] b0] eqn:Ed. cbn. now apply drop_range_cut in Ed. }
  unfold checkTuple_t, checkTuple. destruct (full t) as [[|e0 rest]|].
  - intros H. specialize (HT th (mkState m (last_signal_time s))). rewrite H in HT. cbn [fst snd tuples last_signal_time] in *.
    destruct (_ && _); exact HT.
  - destruct (th 0%nat).
    + intros [= <- <- <-]. destruct (split_upper_bound _ _) as [old keep]. cbn [tuples].
      destruct (_ && _); cbn [snd]; exact (cut_short_thrown [Signal (e0 :: rest)] _).
    + cbn [tuples last_signal_time]. destruct (split_upper_bound _ _) as [old keep].
      destruct (drop_range_t (later 1 th) old keep) as [[m1 o1] b1] eqn:Ed. apply drop_range_cut in Ed as (D1 & D2).
      destruct b1.
      * intros [= <- <- <-]. destruct D1 as (rst & D1). cbn [fst snd] in D1. rewrite D1.
        destruct (_ && _); cbn [snd].
        -- rewrite app_comm_cons, <- app_assoc. exact (cut_short_thrown (Signal (e0 :: rest) :: o1) _).
        -- exact (cut_short_thrown (Signal (e0 :: rest) :: o1) _).
      * unfold cut_short in D1. cbn [fst snd] in D1. subst o1. rewrite (D2 eq_refl).
        specialize (HT (later (1 + length (drops old)) th) (mkState keep (stamp e0))). cbn [tuples last_signal_time] in HT.
        destruct (trim_t q _ _) as [[s3 o3] b3]. cbn [fst snd] in HT. intros [= <- <- <-].
        destruct (_ && _); cbn [snd].
        -- rewrite app_comm_cons. apply (cut_short_app (Signal (e0 :: rest) :: drops old)). exact HT.
        -- rewrite app_comm_cons. rewrite <- (app_nil_r (Signal (e0 :: rest) :: drops old)) at 2. apply cut_short_app. exact HT.
  - intros H. specialize (HT th (mkState m (last_signal_time s))). rewrite H in HT. cbn [fst snd tuples last_signal_time] in *.
    destruct (_ && _); exact HT.
Qed.
End CutExact.

Section CutEps.
Import Eps_Model.
Context {E : Type} (stamp : E -> Z) (n q : nat) (eps : Z).
Lemma process_acc fuel : forall (s : state E) outs s' o,
  process stamp n eps fuel s outs = Ok (s', o) -> exists o', o = outs ++ o' /\ process stamp n eps fuel s [] = Ok (s', o').
Proof.
  assert (H : forall fuel (s : state E) outs,
    process stamp n eps fuel s outs = do '(s', o') <- process stamp n eps fuel s []; Ok (s', outs ++ o')).
  { clear. induction fuel as [|fuel IH]; intros s outs; cbn [process];
      (destruct (Nat.eqb _ _); [|cbn; now rewrite app_nil_r]); auto.
    destruct (all_within_from _ _ _ _ _); [|apply IH]. destruct (fronts _) as [set|]; auto.
    rewrite IH, (IH _ ([] ++ [set])). destruct (process _ _ _ _ _ []) as [[s1 o1]|]; cbn [bind]; auto.
    now rewrite <- app_assoc. }
  intros s outs s' o. rewrite H. destruct (process _ _ _ _ _ []) as [[s1 o1]|]; cbn [bind]; [|discriminate].
  intros [= <- <-]. eauto.
Qed.

(** a call left by an exception: going on from the state left behind makes the remaining calls,
    beginning with the one that threw *)
Lemma eps_resume fuel : forall th (s s' s2 : state E) o b o2,
  eps_process_t stamp n eps fuel th s = Ok (s', o, b) -> process stamp n eps fuel s [] = Ok (s2, o2) ->
  if b then exists X o1 rest fuel', o = o1 ++ [X] /\ o2 = o1 ++ X :: rest /\
              process stamp n eps fuel' s' [] = Ok (s2, X :: rest)
  else s' = s2 /\ o = o2.
Proof.
  induction fuel as [|fuel IH]; intros th s s' s2 o b o2.
  - cbn [eps_process_t process]. destruct (Nat.eqb _ _); [discriminate|]. intros [= <- <- <-] [= <- <-]. auto.
  - cbn [eps_process_t]. destruct (Nat.eqb_spec (count s) n) as [Hc|Hc].
    2: { cbn [process]. destruct (Nat.eqb_spec (count s) n); [congruence|]. intros [= <- <- <-] [= <- <-]. auto. }
    destruct (all_within_from _ _ _ _ _) eqn:Ha.
    + destruct (fronts (events s)) as [set|] eqn:Hf; [|discriminate].
      destruct (th 0%nat).
      * intros [= <- <- <-] Hp. pose proof Hp as Hp'. cbn [process] in Hp'. rewrite Hc, Nat.eqb_refl, Ha, Hf in Hp'.
        apply process_acc in Hp' as (o' & -> & _). exists set, [], o', (S fuel). auto.
      * destruct (eps_process_t _ _ _ _ _ _) as [[[s1 o1] b1]|] eqn:E1; cbn [bind]; [|discriminate].
        intros [= <- <- <-] Hp. cbn [process] in Hp. rewrite Hc, Nat.eqb_refl, Ha, Hf in Hp.
        apply process_acc in Hp as (o' & -> & Hp). specialize (IH _ _ _ _ _ _ _ E1 Hp). destruct b1.
        -- destruct IH as (X & oo & rest & f' & -> & -> & H). exists X, (set :: oo), rest, f'. auto.
        -- destruct IH as (-> & ->). auto.
    + intros E1 Hp. cbn [process] in Hp. rewrite Hc, Nat.eqb_refl, Ha in Hp. eapply IH; eauto.
Qed.

Lemma eps_add_resume th (s s' s2 : state E) x o b o2 :
  eps_add_t stamp n q eps th s x = Ok (s', o, b) -> add stamp n q eps s x = Ok (s2, o2) ->
  if b then exists X o1 rest fuel', o = o1 ++ [X] /\ o2 = o1 ++ X :: rest /\
              process stamp n eps fuel' s' [] = Ok (s2, X :: rest)
  else s' = s2 /\ o = o2.
Proof.
  destruct x as [i e]. cbn [eps_add_t add]. destruct (nth_error (events s) i) as [v|]; [|discriminate]. cbv zeta.
  destruct (Nat.eqb _ n); [apply eps_resume|].
  destruct (Nat.ltb _ _); [destruct (erase_beginning _)|]; intros [= <- <- <-] [= <- <-]; auto.
Qed.
End CutEps.

Section CutApprox.
Import Approx_Model.
Context {E : Type} (stamp : E -> Z) (c : cfg).
Definition same_or_thrown (r : res (state E * list (list E) * bool)) (r2 : res (state E * list (list E))) : Prop :=
  match r, r2 with
  | Ok (s', o, b), Ok (s2, o2) => o = o2 /\ (b = false -> s' = s2)
  | _, _ => True
  end.
Lemma publish_cut th (s : state E) : same_or_thrown (publish_t th s) (publish s).
Proof.
  unfold same_or_thrown, publish_t, publish. destruct (candidate s); auto. destruct (th 0%nat); (destruct (tails _); cbn [bind]; [|exact I]); split; auto; discriminate.
Qed.
Lemma virtual_cut fuel : forall th before mvs (s : state E),
  same_or_thrown (virtual_search_t stamp c fuel th before mvs s) (virtual_search stamp c fuel before mvs s).
Proof.
  induction fuel as [|fuel IH]; intros th before mvs s; cbn [virtual_search_t virtual_search]; [exact I|].
  destruct (virtual_times stamp c s) as [ts|]; cbn [bind]; [|exact I].
  destruct (boundary true ts) as [? et], (boundary false ts) as [si st].
  destruct (_ <=? _); [apply publish_cut|]. destruct (_ <? _).
  { destruct (recover_some mvs s); cbn [bind]; [|exact I]. destruct (Nat.eqb _ _); cbn; auto. }
  destruct (match pivot s with Some p => _ | None => _ end); [exact I|]. destruct (negb _); [exact I|].
  destruct (move_front si s); cbn [bind]; [apply IH|exact I].
Qed.
Lemma conclude_cut th si et (s : state E) :
  same_or_thrown (conclude_t stamp c th si et s) (conclude stamp c si et s).
Proof.
  unfold conclude_t, conclude. destruct (pivot s); [|exact I].
  destruct (Nat.eqb _ _); [apply publish_cut|]. destruct (_ <=? _); [apply publish_cut|].
  destruct (Nat.ltb _ _); [apply virtual_cut|]. cbn; auto.
Qed.
Lemma iteration_cut th (s : state E) : same_or_thrown (iteration_t stamp c th s) (iteration stamp c s).
Proof.
  unfold iteration_t, iteration. destruct (fronts (deques s)) as [hs|]; [|exact I].
  destruct (boundary true _) as [ei et], (boundary false _) as [si st]. cbv zeta.
  destruct (pivot (clear_dropped ei s)).
  - destruct (_ <=? _).
    + destruct (move_front _ _); cbn [bind]; [apply conclude_cut|exact I].
    + destruct (make_candidate _ _ _); cbn [bind]; [|exact I]. destruct (move_front _ _); cbn [bind]; [apply conclude_cut|exact I].
  - destruct (_ <? _); [destruct (delete_front _ _); cbn; auto|].
    destruct (nth ei _ false); [destruct (delete_front _ _); cbn; auto|].
    destruct (make_candidate _ _ _); cbn [bind]; [|exact I]. destruct (move_front _ _); cbn [bind]; [apply conclude_cut|exact I].
Qed.
Lemma process_cut fuel : forall th (s s' s2 : state E) o b o2,
  approx_process_t stamp c fuel th s = Ok (s', o, b) -> process stamp c fuel s = Ok (s2, o2) ->
  cut_short (o, b) o2 /\ (b = false -> s' = s2).
Proof.
  induction fuel as [|fuel IH]; intros th s s' s2 o b o2; cbn [approx_process_t process];
    (destruct (Nat.eqb _ _); [|intros [= <- <- <-] [= <- <-]; split; [apply cut_short_same|auto]]); [discriminate|].
  pose proof (iteration_cut th s) as HI. unfold same_or_thrown in HI.
  destruct (iteration_t stamp c th s) as [[[s1 o1] b1]|]; cbn [bind]; [|discriminate].
  destruct (iteration stamp c s) as [[s1' o1']|]; cbn [bind]; [|discriminate]. destruct HI as (<- & HI).
  destruct b1.
  - intros [= <- <- <-]. destruct (process stamp c fuel s1') as [[s3 o3]|]; cbn [bind]; [|discriminate].
    intros [= <- <-]. split; [apply cut_short_thrown|discriminate].
  - rewrite <- (HI eq_refl). destruct (approx_process_t stamp c fuel (later (length o1) th) s1) as [[[s3 o3] b3]|] eqn:E3; cbn [bind]; [|discriminate].
    intros [= <- <- <-]. destruct (process stamp c fuel s1) as [[s4 o4]|] eqn:E4; cbn [bind]; [|discriminate].
    intros [= <- <-]. destruct (IH _ _ _ _ _ _ _ E3 E4) as (H1 & H2). split; auto. now apply cut_short_app.
Qed.
Lemma approx_cut th (s s' s2 : state E) x o b o2 :
  approx_add_t stamp c th s x = Ok (s', o, b) -> add stamp c s x = Ok (s2, o2) ->
  cut_short (o, b) o2 /\ (b = false -> s' = s2).
Proof.
  destruct x as [i e]. unfold approx_add_t, add. cbn [fst snd].
  assert (H1 : forall s1 o1 b1 s1' o1', approx_add_process_t stamp c th s i e = Ok (s1, o1, b1) ->
     add_process stamp c s i e = Ok (s1', o1') -> cut_short (o1, b1) o1' /\ (b1 = false -> s1 = s1')).
  { intros s1 o1 b1 s1' o1'. unfold approx_add_process_t, add_process. destruct (nth_error _ _) as [dq|]; [|discriminate]. cbv zeta.
    destruct (is_nil dq); [destruct (Nat.eqb _ _); [apply process_cut|]|];
      intros [= <- <- <-] [= <- <-]; (split; [apply cut_short_same|auto]). }
  destruct (approx_add_process_t stamp c th s i e) as [[[s1 o1] b1]|]; cbn [bind]; [|discriminate].
  destruct (add_process stamp c s i e) as [[s1' o1']|]; cbn [bind]; [|discriminate].
  destruct (H1 _ _ _ _ _ eq_refl eq_refl) as (HC & HS). destruct b1.
  - intros [= <- <- <-]. destruct (add_overflow stamp c s1' i) as [[s3 o3]|]; cbn [bind]; [|discriminate].
    intros [= <- <-]. destruct HC as (rest & HC). cbn in HC. subst o1'. split; [|discriminate]. rewrite <- app_assoc. apply cut_short_thrown.
  - rewrite <- (HS eq_refl). cbv [cut_short fst snd] in HC. subst o1'.
    assert (H2 : forall s3 o3 b3 s3' o3', approx_add_overflow_t stamp c (later (length o1) th) s1 i = Ok (s3, o3, b3) ->
       add_overflow stamp c s1 i = Ok (s3', o3') -> cut_short (o3, b3) o3' /\ (b3 = false -> s3 = s3')).
    { intros s3 o3 b3 s3' o3'. unfold approx_add_overflow_t, add_overflow.
      destruct (Nat.ltb _ _); [|intros [= <- <- <-] [= <- <-]; split; [apply cut_short_same|auto]]. cbv zeta.
      destruct (nth i _ []); [discriminate|]. destruct (pivot _); [apply process_cut|].
      intros [= <- <- <-] [= <- <-]; split; [apply cut_short_same|auto]. }
    destruct (approx_add_overflow_t stamp c (later (length o1) th) s1 i) as [[[s3 o3] b3]|]; cbn [bind]; [|discriminate].
    destruct (add_overflow stamp c s1 i) as [[s4 o4]|]; cbn [bind]; [|discriminate].
    intros [= <- <- <-] [= <- <-]. destruct (H2 _ _ _ _ _ eq_refl eq_refl) as (G1 & G2). split; auto. now apply cut_short_app.
Qed.
End CutApprox.
