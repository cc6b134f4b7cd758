From Coq Require Import List Arith ZArith Lia Bool Permutation Sorted.
From Verif Require Import Base RclTime Trace Latest_Model Latest_Spec.
Import ListNotations.

Section Proofs.
Context {E D : Type} (f : fops D) (n : nat) (default : config D).

Notation state := (state E D).
Notation op := (op E D).
Notation rate := (rate D).
Notation outcome := (outcome E).
Notation add := (Latest_Model.add (E := E) f n default).
Notation step := (Latest_Model.step (E := E) f n default).
Notation run := (Latest_Model.run (E := E) f n default).
Notation compute_hz := (compute_hz f).
Notation hz_loop := (hz_loop f).
Notation find_pivot := (find_pivot f).
Notation started := (started (E := E) (D := D) n).
Local Notation init := (init (E := E) (D := D) n).

(** ** rates *)
Lemma hz_loop_more fuel now r : hz_loop (S (S fuel)) now r = compute_hz now r.
Proof.
  unfold Latest_Model.compute_hz. cbn [Latest_Model.hz_loop]. destruct (time_sub now (prev r)); auto.
Qed.

Lemma time_sub_err a b e : time_sub a b = Err e -> e = Thrown /\ clk a <> clk b.
Proof. unfold time_sub. destruct (clock_eqb_spec (clk a) (clk b)); [discriminate|]. intros [= <-]. auto. Qed.

Lemma pick_err now l e : pick f now l = Err e -> e = Thrown.
Proof.
  induction l as [|[i r] l IH]; cbn [pick]; [discriminate|].
  destruct (time_sub now (prev r)) as [d|e'] eqn:Hd; cbn [bind].
  - repeat match goal with |- context [if ?b then _ else _] => destruct b end; auto; discriminate.
  - intros [= <-]. now apply time_sub_err in Hd as [-> _].
Qed.

Lemma compute_hz_total now r : exists r' b, compute_hz now r = Ok (r', b) /\ conf r' = conf r /\
  (if b : bool then prev r' = now /\ do_hz_init r' = false /\ clk (prev r) = clk now else r' = r).
Proof.
  unfold Latest_Model.compute_hz. cbn [Latest_Model.hz_loop prev do_hz_init].
  destruct (time_sub now (prev r)) as [d|] eqn:Hd; [|apply time_sub_err in Hd as [-> _]; exists r, false; auto].
  assert (Hc : clk (prev r) = clk now).
  { unfold time_sub in Hd. destruct (clock_eqb_spec (clk now) (clk (prev r))); congruence. }
  destruct (fle f (fsecs f d) (fzero f)); [exists r, false; auto|].
  destruct (do_hz_init r); [eexists _, true; split; [reflexivity|]; auto|].
  destruct (do_error_init r); [eexists _, true; split; [reflexivity|]; auto|].
  destruct (fgt f _ _); eexists _, true; (split; [reflexivity|]); auto.
Qed.

Lemma compute_hz_valid now r r' : compute_hz now r = Ok (r', true) ->
  exists d, time_sub now (prev r) = Ok d /\ fle f (fsecs f d) (fzero f) = false.
Proof.
  unfold Latest_Model.compute_hz. cbn [Latest_Model.hz_loop].
  destruct (time_sub now (prev r)) as [d|[]]; try discriminate.
  destruct (fle f (fsecs f d) (fzero f)) eqn:Hl; [discriminate|]. eauto.
Qed.

Lemma compute_hz_invalid now r r' : compute_hz now r = Ok (r', false) ->
  clk (prev r) <> clk now \/ exists d, time_sub now (prev r) = Ok d /\ fle f (fsecs f d) (fzero f) = true.
Proof.
  unfold Latest_Model.compute_hz. cbn [Latest_Model.hz_loop prev do_hz_init].
  destruct (time_sub now (prev r)) as [d|] eqn:Hd.
  - destruct (fle f (fsecs f d) (fzero f)) eqn:Hl; [intros _; right; eauto|].
    destruct (do_hz_init r); [discriminate|]. destruct (do_error_init r); [discriminate|].
    destruct (fgt f _ _); discriminate.
  - intros _. left. apply time_sub_err in Hd as [_ Hd]. congruence.
Qed.

(** ** histories *)
Lemma adds_snoc (h : list op) o :
  adds (h ++ [o]) = adds h ++ match o with Add i e _ => [(i, e)] | _ => [] end.
Proof. unfold adds. rewrite flat_map_app. cbn. now rewrite app_nil_r. Qed.

Lemma received_add j (h : list op) i e t :
  received j (h ++ [Add i e t]) = received j h ++ (if Nat.eqb i j then [e] else []).
Proof. unfold received. rewrite adds_snoc, stream_app. f_equal. unfold stream. cbn. destruct (i =? j); reflexivity. Qed.
Lemma received_set j (h : list op) cs : received j (h ++ [SetConfig cs]) = received j h.
Proof. unfold received. rewrite adds_snoc. now rewrite app_nil_r. Qed.

Lemma latest_add j (h : list op) i e t :
  latest j (h ++ [Add i e t]) = if Nat.eqb i j then Some e else latest j h.
Proof.
  unfold latest. rewrite received_add, rev_app_distr. destruct (i =? j); reflexivity.
Qed.

Lemma latest_none i (h : list op) : latest i h = None <-> received i h = [].
Proof.
  unfold latest. split; [|intros ->; reflexivity]. intros H. destruct (received i h) as [|x l] using rev_ind; auto.
  rewrite rev_app_distr in H. discriminate.
Qed.

Lemma started_ext h h' : (forall i, i < n -> (received i h = [] <-> received i h' = [])) -> started h = started h'.
Proof.
  intros H. unfold Latest_Spec.started. f_equal. apply filter_ext_in. intros i Hi. apply in_seq in Hi.
  specialize (H i ltac:(lia)). destruct (received i h), (received i h'); auto; destruct H as [H1 H2].
  - specialize (H1 eq_refl). discriminate.
  - specialize (H2 eq_refl). discriminate.
Qed.

Lemma filter_one_more (p q : nat -> bool) i l :
  NoDup l -> In i l -> p i = false -> q i = true -> (forall j, j <> i -> p j = q j) ->
  length (filter q l) = S (length (filter p l)).
Proof.
  induction l as [|x l IH]; intros Hnd Hin Hp Hq Hj; [destruct Hin|]. inversion Hnd as [|? ? Hx Hnd']; subst.
  cbn. destruct (Nat.eq_dec x i) as [->|Hxi].
  - rewrite Hp, Hq. cbn. f_equal. f_equal. apply filter_ext_in. intros j Hjl. symmetry. apply Hj. intros ->. auto.
  - destruct Hin as [->|Hin]; [congruence|]. rewrite (Hj x Hxi). specialize (IH Hnd' Hin Hp Hq Hj).
    destruct (q x); cbn; lia.
Qed.

Lemma started_first (h : list op) i e t : i < n -> received i h = [] -> started (h ++ [Add i e t]) = S (started h).
Proof.
  intros Hi Hr. apply filter_one_more with (i := i).
  - apply seq_NoDup.
  - apply in_seq. lia.
  - now rewrite Hr.
  - rewrite received_add, Nat.eqb_refl. destruct (received i h); reflexivity.
  - intros j Hj. rewrite received_add. destruct (Nat.eqb_spec i j); [congruence|]. now rewrite app_nil_r.
Qed.

Lemma started_again (h : list op) i e t : received i h <> [] -> started (h ++ [Add i e t]) = started h.
Proof.
  intros Hr. apply started_ext. intros j Hj. rewrite received_add. destruct (Nat.eqb_spec i j) as [->|].
  - split; intros H; [apply app_eq_nil in H as [_ H]; discriminate|congruence].
  - rewrite app_nil_r. tauto.
Qed.

Lemma started_set (h : list op) cs : started (h ++ [SetConfig cs]) = started h.
Proof. apply started_ext. intros j Hj. now rewrite received_set. Qed.

Lemma started_le (h : list op) : started h <= n.
Proof.
  unfold Latest_Spec.started. rewrite <- (seq_length n 0) at 2. generalize (seq 0 n). intros l.
  induction l as [|x l IH]; cbn; auto. destruct (received x h); cbn; lia.
Qed.

(** ** invariant *)
Record Inv (h : list op) (s : state) : Prop := mkInv {
  inv_len : length (events s) = n;
  inv_latest : forall i, i < n -> nth i (events s) None = latest i h;
  inv_rates : length (rates s) = started h
}.

Lemma init_inv : Inv [] init.
Proof.
  split.
  - apply repeat_length.
  - intros i Hi. cbn. destruct (nth_in_or_default i (repeat (@None E) n) None) as [H|H]; auto. now apply repeat_spec in H.
  - cbn. unfold Latest_Spec.started. cbn. generalize (seq 0 n). intros l. induction l; auto.
Qed.

Lemma nth_error_events h s i : Inv h s -> i < n -> nth_error (events s) i = Some (latest i h).
Proof. intros [H1 H2 _] Hi. rewrite (nth_error_nth' _ None) by lia. now rewrite H2. Qed.

(** one addition, by cases *)
Lemma add_cases h s i e t : Inv h s -> i < n ->
  (received i h = [] /\
   add s i e t = Ok (mkState (upd i (Some e) (events s)) (rates s ++ [new_rate f t (config_for n default s i)]) (configs s), Quiet)) \/
  (received i h <> [] /\ started h <= i /\ add s i e t = Err UB) \/
  (received i h <> [] /\ i < started h /\
   exists r r' b o, nth_error (rates s) i = Some r /\ compute_hz t r = Ok (r', b) /\
     let s' := mkState (upd i (Some e) (events s)) (upd i r' (rates s)) (configs s) in
     add s i e t = Ok (s', o) /\
     (b = false -> o = Quiet) /\
     (o = Threw <-> b = true /\ find_pivot t (rates s') = Err Thrown) /\
     (forall set, o = Published set <->
        b = true /\ find_pivot t (rates s') = Ok (Some i) /\ full (events s') = Some set)).
Proof.
  intros HI Hi. unfold Latest_Model.add. rewrite (nth_error_events h s i HI Hi).
  destruct (latest i h) as [x|] eqn:Hl.
  - right. assert (Hr : received i h <> []) by (intros H; apply latest_none in H; congruence).
    destruct (nth_error (rates s) i) as [r|] eqn:Hn.
    + right. split; auto. split.
      { rewrite <- (inv_rates _ _ HI). apply nth_error_Some. congruence. }
      destruct (compute_hz_total t r) as (r' & b & Hc & _). rewrite Hc. cbn [bind].
      exists r, r', b. cbv zeta. cbn [rates].
      destruct b.
      * destruct (find_pivot t (upd i r' (rates s))) as [[j|]|err] eqn:Hp.
        -- destruct (Nat.eqb_spec j i) as [->|Hj].
           ++ cbn [events]. destruct (full (upd i (Some e) (events s))) as [set|] eqn:Hf.
              ** exists (Published set). split; auto. split; auto. split; [reflexivity|]. split; [discriminate|].
                 split; [split; [discriminate|intros (_ & H); discriminate]|].
                 intros set'. split; [intros [= ->]; auto|intros (_ & _ & [= ->]); auto].
              ** exists Quiet. split; auto. split; auto. split; [reflexivity|]. split; [discriminate|].
                 split; [split; [discriminate|intros (_ & H); discriminate]|].
                 intros set'. split; [discriminate|intros (_ & _ & H); discriminate].
           ++ exists Quiet. split; auto. split; auto. split; [reflexivity|]. split; [discriminate|].
              split; [split; [discriminate|intros (_ & H); discriminate]|].
              intros set'. split; [discriminate|intros (_ & [= ->] & _); congruence].
        -- exists Quiet. split; auto. split; auto. split; [reflexivity|]. split; [discriminate|].
           split; [split; [discriminate|intros (_ & H); discriminate]|].
           intros set'. split; [discriminate|intros (_ & H & _); discriminate].
        -- apply pick_err in Hp as He. subst err. exists Threw. split; auto. split; auto. split; [reflexivity|]. split; [discriminate|].
           split; [split; [intros _; split; eauto|auto]|].
           intros set'. split; [discriminate|intros (_ & H & _); discriminate].
      * exists Quiet. split; auto. split; auto. split; [reflexivity|]. split; auto.
        split; [split; [discriminate|intros (H & _); discriminate]|].
        intros set'. split; [discriminate|intros (H & _); discriminate].
    + left. split; auto. split; auto. rewrite <- (inv_rates _ _ HI). now apply nth_error_None.
  - left. split; auto. now apply latest_none.
Qed.

Lemma upd_latest h s i e t : Inv h s -> i < n -> forall j, j < n ->
  nth j (upd i (Some e) (events s)) None = latest j (h ++ [Add i e t]).
Proof.
  intros [H1 H2 _] Hi j Hj. rewrite latest_add. destruct (Nat.eqb_spec i j) as [->|Hij].
  - apply nth_upd_eq. lia.
  - rewrite nth_upd_neq by auto. auto.
Qed.

Lemma add_inv h s i e t s' o : Inv h s -> i < n -> add s i e t = Ok (s', o) -> Inv (h ++ [Add i e t]) s'.
Proof.
  intros HI Hi Ha. pose proof HI as [H1 H2 H3].
  destruct (add_cases h s i e t HI Hi) as [(Hr & Hs)|[(Hr & Hle & Hs)|(Hr & Hlt & r & r' & b & o' & Hn & Hc & Hs & _)]];
    rewrite Hs in Ha; [| discriminate|]; injection Ha as <- <-; split; cbn [events rates].
  - now rewrite upd_length.
  - now apply (upd_latest h s i e t).
  - rewrite app_length. cbn. rewrite (started_first h i e t Hi Hr). lia.
  - now rewrite upd_length.
  - now apply (upd_latest h s i e t).
  - now rewrite upd_length, (started_again h i e t Hr).
Qed.

Lemma set_inv h s cs : Inv h s -> Inv (h ++ [SetConfig cs]) (mkState (events s) (rates s) cs).
Proof.
  intros [H1 H2 H3]. split; cbn; auto.
  - intros i Hi. unfold latest. rewrite received_set. now apply H2.
  - now rewrite started_set.
Qed.

Lemma run_snoc s h o :
  run s (h ++ [o]) =
  bind (run s h) (fun '(s1, o1) => bind (step s1 o) (fun '(s2, o2) => Ok (s2, o1 ++ [o2]))).
Proof.
  revert s; induction h as [|y h IH]; intros s; cbn [app Latest_Model.run].
  - cbn. destruct (step s o) as [[s1 o1]|]; reflexivity.
  - destruct (step s y) as [[s1 o1]|]; cbn; auto. rewrite IH.
    destruct (run s1 h) as [[s2 o2]|]; cbn; auto. destruct (step s2 o) as [[s3 o3]|]; reflexivity.
Qed.

Lemma well_indexed_snoc h (o : op) : well_indexed n (h ++ [o]) ->
  well_indexed n h /\ (forall i e t, o = Add i e t -> i < n).
Proof.
  intros H. split; intros i e t Hi.
  - eapply H. apply in_or_app. left; eauto.
  - subst. eapply H. apply in_or_app. right; left; eauto.
Qed.

Lemma run_inv h s outs : well_indexed n h -> run init h = Ok (s, outs) -> Inv h s /\ length outs = length h.
Proof.
  revert s outs. induction h as [|o h IH] using rev_ind; intros s outs HW Hr.
  - cbn in Hr. injection Hr as <- <-. split; [apply init_inv|reflexivity].
  - apply well_indexed_snoc in HW as [HW Ho]. rewrite run_snoc in Hr.
    destruct (run init h) as [[s1 o1]|]; [|discriminate]. cbn [bind] in Hr.
    destruct (IH s1 o1 HW eq_refl) as [HI HL].
    destruct (step s1 o) as [[s2 o2]|] eqn:Hs; [|discriminate]. cbn in Hr. injection Hr as <- <-.
    split; [|rewrite !app_length; cbn; lia].
    destruct o as [i e t|cs]; cbn in Hs.
    + eapply add_inv; eauto.
    + injection Hs as <- <-. now apply set_inv.
Qed.

(** a run up to and including the k-th call *)
Lemma run_at h s outs k o x :
  run init h = Ok (s, outs) -> length outs = length h -> nth_error h k = Some o -> nth_error outs k = Some x ->
  exists s1 o1 s2, run init (firstn k h) = Ok (s1, o1) /\ step s1 o = Ok (s2, x) /\
    run init (firstn (S k) h) = Ok (s2, o1 ++ [x]).
Proof.
  revert s outs. induction h as [|y h IH] using rev_ind; intros s outs Hr HL Ho Hx.
  - destruct k; discriminate.
  - rewrite run_snoc in Hr. destruct (run init h) as [[s1 o1]|] eqn:Hrh; [|discriminate]. cbn [bind] in Hr.
    destruct (step s1 y) as [[s2 o2]|] eqn:Hs; [|discriminate]. cbn in Hr. injection Hr as <- <-.
    assert (HL1 : length o1 = length h) by (rewrite !app_length in HL; cbn in HL; lia).
    destruct (lt_eq_lt_dec k (length h)) as [[Hk|Hk]|Hk].
    + rewrite nth_error_app1 in Ho, Hx by lia. rewrite !firstn_app.
      replace (k - length h) with 0 by lia. replace (S k - length h) with 0 by lia. rewrite !firstn_O, !app_nil_r.
      eapply IH; eauto.
    + subst k. rewrite nth_error_app2, Nat.sub_diag in Ho by lia. rewrite nth_error_app2 in Hx by lia.
      rewrite HL1, Nat.sub_diag in Hx. cbn in Ho, Hx. injection Ho as ->. injection Hx as ->.
      exists s1, o1, s2. rewrite (firstn_app (length h)), Nat.sub_diag, firstn_all, firstn_O, app_nil_r.
      split; auto. split; auto.
      rewrite (firstn_all2 (n := S (length h))) by (rewrite app_length; cbn; lia). rewrite run_snoc, Hrh. cbn [bind]. rewrite Hs. reflexivity.
    + assert (nth_error (h ++ [y]) k = None) by (apply nth_error_None; rewrite app_length; cbn; lia). congruence.
Qed.

Lemma full_spec (evs : list (option E)) set : full evs = Some set ->
  length set = length evs /\ forall j, j < length evs -> nth_error set j = nth j evs None.
Proof.
  revert set; induction evs as [|[e|] evs IH]; intros set H; cbn in H; try discriminate.
  - injection H as <-. split; auto. cbn; lia.
  - destruct (full evs) as [l|]; [|discriminate]. injection H as <-. destruct (IH l eq_refl) as [H1 H2].
    split; [cbn; auto|]. intros [|j] Hj; cbn; auto. apply H2. cbn in Hj. lia.
Qed.
Lemma full_iff (evs : list (option E)) : (exists set, full evs = Some set) <-> (forall j, j < length evs -> nth j evs None <> None).
Proof.
  induction evs as [|[e|] evs IH]; cbn.
  - split; [intros _ j Hj; lia|eauto].
  - split.
    + intros (set & H). destruct (full evs) as [l|]; [|discriminate]. intros [|j] Hj; [discriminate|].
      apply IH; [eauto|lia].
    + intros H. destruct (proj2 IH) as [l Hl]; [|rewrite Hl; eauto]. intros j Hj. apply (H (S j)). lia.
  - split; [intros (? & H); discriminate|]. intros H. exfalso. apply (H 0); [lia|reflexivity].
Qed.

(** ** memory safety *)
Lemma enough_snoc h (o : op) : enough_started n (h ++ [o]) <->
  enough_started n h /\ (forall i e t, o = Add i e t -> received i h <> [] -> i < started h).
Proof.
  split.
  - intros H. split.
    + intros h1 i e t h2 -> Hr. eapply H; [|exact Hr]. now rewrite <- app_assoc.
    + intros i e t -> Hr. eapply (H h i e t []); auto.
  - intros [H1 H2] h1 i e t h2 Heq Hr. destruct h2 as [|y h2 _] using rev_ind.
    + apply app_inj_tail in Heq as [-> ->]. eapply H2; eauto.
    + rewrite app_comm_cons, app_assoc in Heq. apply app_inj_tail in Heq as [-> ->]. eapply H1; eauto.
Qed.

Lemma safe_iff (h : list op) : well_indexed n h -> (exists s outs, run init h = Ok (s, outs)) <-> enough_started n h.
Proof.
  induction h as [|o h IH] using rev_ind; intros HW.
  - split; [|cbn; eauto]. intros _ h1 i e t h2 H. destruct h1; discriminate.
  - apply well_indexed_snoc in HW as [HW Ho]. specialize (IH HW). rewrite enough_snoc, <- IH, run_snoc.
    destruct (run init h) as [[s outs]|] eqn:Hr.
    2: { cbn. split; [intros (? & ? & H); discriminate|intros [(? & ? & H) _]; discriminate]. }
    cbn [bind]. destruct (run_inv h s outs HW Hr) as [HI _].
    destruct o as [i e t|cs]; cbn [Latest_Model.step].
    + specialize (Ho i e t eq_refl).
      destruct (add_cases h s i e t HI Ho) as [(Hrec & Hs)|[(Hrec & Hle & Hs)|(Hrec & Hlt & r & r' & b & o' & Hn & Hc & Hs & _)]];
        rewrite Hs; cbn.
      * split; [|eauto]. intros _. split; [eauto|]. intros ? ? ? [= <- <- <-] H. congruence.
      * split; [intros (? & ? & H); discriminate|]. intros [_ H]. specialize (H i e t eq_refl Hrec). lia.
      * split; [|eauto]. intros _. split; [eauto|]. intros ? ? ? [= <- <- <-] _. auto.
    + cbn. split; [|eauto]. intros _. split; [eauto|discriminate].
Qed.

Lemma count_initial (p : nat -> bool) i : i < n -> (forall j, j <= i -> p j = true) -> i < length (filter p (seq 0 n)).
Proof.
  intros Hi Hp. replace n with (S i + (n - S i)) by lia. rewrite seq_app, filter_app, app_length.
  assert (H : length (filter p (seq 0 (S i))) = S i).
  { rewrite <- (seq_length (S i) 0) at 2. f_equal.
    assert (forall l, (forall j, In j l -> p j = true) -> filter p l = l) as HF.
    { induction l as [|x l IHl]; intros H; cbn; auto. rewrite H by (cbn; auto). f_equal. apply IHl. intros; apply H; cbn; auto. }
    apply HF. intros j Hj. apply in_seq in Hj. apply Hp. lia. }
  lia.
Qed.

Lemma in_order_enough (h : list op) : well_indexed n h -> started_in_order n h -> enough_started n h.
Proof.
  intros HW HO h1 i e t h2 Heq Hr.
  assert (Hi : i < n). { eapply HW. rewrite Heq. apply in_or_app. right; left; eauto. }
  apply count_initial; auto. intros j Hj. destruct (Nat.eq_dec j i) as [->|Hji].
  - destruct (received i h1); congruence.
  - specialize (HO h1 i j e t h2 Heq ltac:(lia)). destruct (received j h1); congruence.
Qed.

Lemma all_once_enough (h : list op) : well_indexed n h -> all_once_first n h -> enough_started n h.
Proof.
  intros HW HO h1 i e t h2 Heq Hr.
  assert (Hi : i < n). { eapply HW. rewrite Heq. apply in_or_app. right; left; eauto. }
  apply count_initial; auto. intros j Hj.
  specialize (HO h1 i j e t h2 Heq Hr ltac:(lia)). destruct (received j h1); congruence.
Qed.

(** ** configuration *)
Lemma upd_conf (rs : list rate) i r r' :
  nth_error rs i = Some r -> conf r' = conf r -> map (@conf D) (upd i r' rs) = map (@conf D) rs.
Proof.
  intros Hn Hc. rewrite map_upd. rewrite Hc. clear Hc r'. revert i Hn. induction rs as [|x rs IH]; intros [|i] H; cbn in *; try discriminate; auto.
  - injection H as ->. auto.
  - f_equal. now apply IH.
Qed.

(** ** clocks *)
Lemma pick_one_clock k now l :
  clk now = k -> (forall x, In x l -> clk (prev (snd x)) = k) -> exists p, pick f now l = Ok p.
Proof.
  intros Hk. induction l as [|[i r] l IH]; intros Hl; cbn; [eauto|].
  pose proof (Hl (i, r) (or_introl eq_refl)) as Hx. cbn [snd] in Hx. unfold time_sub. rewrite Hk, Hx.
  destruct (clock_eqb_spec k k); [|congruence]. cbn [bind].
  destruct IH as [p Hp]; [intros; apply Hl; cbn; auto|].
  destruct (feq f _ _); [destruct (fgt f (hz r) _); eauto|].
  destruct (_ && _); eauto. destruct (fgt f (hz r) _); eauto.
Qed.

Lemma ins_in x l y : In y (ins f x l) <-> y = x \/ In y l.
Proof.
  induction l as [|z l IH]; cbn; [intuition|]. destruct (fgt f (hz (snd z)) (hz (snd x))); cbn; rewrite ?IH; intuition.
Qed.
Lemma sort_in l y : In y (sort f l) <-> In y l.
Proof. induction l as [|x l IH]; cbn; [tauto|]. rewrite ins_in, IH. intuition. Qed.
Lemma indexed_in k (rs : list rate) i r : In (i, r) (indexed k rs) <-> (k <= i /\ nth_error rs (i - k) = Some r).
Proof.
  revert k; induction rs as [|x rs IH]; intros k; cbn.
  - split; [tauto|]. intros [_ H]. destruct (i - k); discriminate.
  - rewrite IH. split.
    + intros [[= -> ->]|[H1 H2]]; [rewrite Nat.sub_diag; auto|]. split; [lia|]. replace (i - k) with (S (i - S k)) by lia. auto.
    + intros [H1 H2]. destruct (Nat.eq_dec i k) as [->|Hne].
      * rewrite Nat.sub_diag in H2. injection H2 as ->. auto.
      * right. split; [lia|]. replace (i - k) with (S (i - S k)) in H2 by lia. auto.
Qed.

Lemma find_pivot_one_clock k now rs :
  clk now = k -> (forall r, In r rs -> clk (prev r) = k) -> exists p, find_pivot now rs = Ok p.
Proof.
  intros Hk Hr. apply (pick_one_clock k); auto. intros [i r] Hin. apply sort_in, indexed_in in Hin as [_ Hin].
  apply nth_error_In in Hin. auto.
Qed.

Lemma in_upd {A} (x y : A) i l : In y (upd i x l) -> y = x \/ In y l.
Proof. revert i; induction l as [|z l IH]; intros [|i] H; cbn in *; try tauto.
  - destruct H as [H|H]; auto.
  - destruct H as [H|H]; auto. apply IH in H. tauto.
Qed.

Lemma one_clock_inv k h s outs :
  well_indexed n h -> one_clock k h -> run init h = Ok (s, outs) ->
  (forall r, In r (rates s) -> clk (prev r) = k) /\ ~ In Threw outs.
Proof.
  revert s outs. induction h as [|o h IH] using rev_ind; intros s outs HW HO Hr.
  - cbn in Hr. injection Hr as <- <-. split; [intros r []|intros []].
  - apply well_indexed_snoc in HW as [HW Ho].
    assert (HO' : one_clock k h) by (intros i e t Hi; eapply HO; apply in_or_app; left; eauto).
    rewrite run_snoc in Hr. destruct (run init h) as [[s1 o1]|] eqn:Hrh; [|discriminate]. cbn [bind] in Hr.
    destruct (IH s1 o1 HW HO' eq_refl) as [HR HT]. destruct (run_inv h s1 o1 HW Hrh) as [HI _].
    destruct (step s1 o) as [[s2 o2]|] eqn:Hs; [|discriminate]. cbn in Hr. injection Hr as <- <-.
    destruct o as [i e t|cs]; cbn [Latest_Model.step] in Hs.
    + specialize (Ho i e t eq_refl). assert (Ht : clk t = k) by (eapply HO; apply in_or_app; right; left; eauto).
      destruct (add_cases h s1 i e t HI Ho) as [(Hrec & Hs')|[(Hrec & Hle & Hs')|(Hrec & Hlt & r & r' & b & o' & Hn & Hc & Hs' & _ & HTh & _)]];
        rewrite Hs' in Hs; [|discriminate|]; injection Hs as <- <-.
      * cbn [rates]. split.
        -- intros r Hin. apply in_app_or in Hin as [Hin|[<-|[]]]; auto.
        -- intros Hin. apply in_app_or in Hin as [Hin|[H|[]]]; auto. discriminate.
      * assert (HR' : forall x, In x (upd i r' (rates s1)) -> clk (prev x) = k).
        { intros x Hx. apply in_upd in Hx as [->|Hx]; auto.
          destruct (compute_hz_total t r) as (r1 & b1 & Hc1 & _ & Hb). rewrite Hc in Hc1. injection Hc1 as <- <-.
          destruct b; [destruct Hb as (-> & _); auto|subst r'; apply HR; now apply nth_error_In in Hn]. }
        split; auto. intros Hin. apply in_app_or in Hin as [Hin|[Hin|[]]]; auto.
        apply HTh in Hin as [_ Herr]. cbn [rates] in Herr.
        destruct (find_pivot_one_clock k t (upd i r' (rates s1)) Ht HR') as [p Hp]. congruence.
    + injection Hs as <- <-. split; auto. intros Hin. apply in_app_or in Hin as [Hin|[H|[]]]; auto. discriminate.
Qed.

(** after a change of clock source nothing is published any more *)
Lemma clock_change_silent k h s outs h2 s2 outs2 :
  well_indexed n h -> one_clock k h -> run init h = Ok (s, outs) -> (forall i, i < n -> received i h <> []) ->
  well_indexed n h2 -> (forall i e t, In (Add i e t) h2 -> clk t <> k) -> run s h2 = Ok (s2, outs2) ->
  (forall x, In x outs2 -> x = Quiet).
Proof.
  intros HW HO Hr Hall HW2 HK Hr2.
  assert (G : forall h2 s2 outs2, well_indexed n h2 -> (forall i e t, In (Add i e t) h2 -> clk t <> k) -> run s h2 = Ok (s2, outs2) ->
     Inv (h ++ h2) s2 /\ (forall r, In r (rates s2) -> clk (prev r) = k) /\ (forall x, In x outs2 -> x = Quiet)).
  2: { now apply (G h2 s2 outs2). }
  clear h2 s2 outs2 HW2 HK Hr2.
  induction h2 as [|o h2 IH] using rev_ind; intros s2 outs2 HW2 HK Hr2.
  - cbn in Hr2. injection Hr2 as <- <-. rewrite app_nil_r. split; [now apply (run_inv h s outs)|].
    split; [apply (one_clock_inv k h s outs HW HO Hr)|intros x []].
  - apply well_indexed_snoc in HW2 as [HW2 Ho].
    assert (HK' : forall i e t, In (Add i e t) h2 -> clk t <> k) by (intros i e t Hi; eapply HK; apply in_or_app; left; eauto).
    rewrite run_snoc in Hr2. destruct (run s h2) as [[s1 o1]|] eqn:Hrh; [|discriminate]. cbn [bind] in Hr2.
    destruct (IH s1 o1 HW2 HK' eq_refl) as (HI & HR & HQ).
    destruct (step s1 o) as [[s3 o2]|] eqn:Hs; [|discriminate]. cbn in Hr2. injection Hr2 as <- <-.
    destruct o as [i e t|cs]; cbn [Latest_Model.step] in Hs.
    + specialize (Ho i e t eq_refl). assert (Ht : clk t <> k) by (eapply HK; apply in_or_app; right; left; eauto).
      rewrite app_assoc. split; [eapply add_inv; eauto|].
      destruct (add_cases (h ++ h2) s1 i e t HI Ho) as [(Hrec & Hs')|[(Hrec & Hle & Hs')|(Hrec & Hlt & r & r' & b & o' & Hn & Hc & Hs' & HB & _)]];
        rewrite Hs' in Hs; [|discriminate|]; injection Hs as <- <-.
      * exfalso. apply (Hall i Ho). unfold received in *. unfold adds in Hrec. rewrite flat_map_app, stream_app in Hrec.
        now apply app_eq_nil in Hrec as [Hrec _].
      * destruct (compute_hz_total t r) as (r1 & b1 & Hc1 & _ & Hb). rewrite Hc in Hc1. injection Hc1 as <- <-.
        assert (Hrk : clk (prev r) = k) by (apply HR; now apply nth_error_In in Hn).
        destruct b; [destruct Hb as (_ & _ & H); congruence|]. subst r'. cbn [rates]. split.
        -- intros x Hx. apply in_upd in Hx as [->|Hx]; auto.
        -- intros x Hx. apply in_app_or in Hx as [Hx|[<-|[]]]; auto.
    + injection Hs as <- <-. rewrite app_assoc. split; [now apply set_inv|]. split; auto.
      intros x Hx. apply in_app_or in Hx as [Hx|[<-|[]]]; auto.
Qed.

(** ** pivot *)
Definition first_of (a b : nat * rate) : Prop :=
  fgt f (hz (snd b)) (hz (snd a)) = false /\ (fst b < fst a -> fgt f (hz (snd a)) (hz (snd b)) = true).

Lemma pick_spec now l p :
  pick f now l = Ok p ->
  match p with
  | Some i => exists l1 r l2, l = l1 ++ (i, r) :: l2 /\ eligible f now r /\
                forall x, In x l1 -> ~ eligible f now (snd x)
  | None => forall x, In x l -> ~ eligible f now (snd x)
  end.
Proof.
  induction l as [|[i r] l IH]; cbn; intros H.
  - injection H as <-. intros x [].
  - destruct (time_sub now (prev r)) as [d|] eqn:Hd; [|discriminate]. cbn [bind] in H.
    assert (Hskip : ~ eligible f now r -> pick f now l = Ok p ->
      match p with
      | Some i0 => exists l1 r0 l2, (i, r) :: l = l1 ++ (i0, r0) :: l2 /\ eligible f now r0 /\
                forall x, In x l1 -> ~ eligible f now (snd x)
      | None => forall x, (i, r) = x \/ In x l -> ~ eligible f now (snd x)
      end).
    { intros He Hp. specialize (IH Hp). destruct p as [j|].
      - destruct IH as (l1 & r0 & l2 & -> & Hel & Hl1). exists ((i, r) :: l1), r0, l2. split; auto. split; auto.
        intros x [<-|Hx]; auto.
      - intros x [<-|Hx]; auto. }
    assert (Hne : forall d', time_sub now (prev r) = Ok d' -> d' = d) by (intros; congruence).
    destruct (feq f (fsecs f d) (fzero f)) eqn:Hz.
    + destruct (fgt f (hz r) (fzero f)) eqn:Hg.
      * injection H as <-. exists [], r, l. split; auto. split; [exists d; auto|intros x []].
      * apply Hskip; auto. intros (d' & _ & Hg' & _). congruence.
    + destruct (negb (do_error_init r) && _) eqn:Hlate.
      * apply Hskip; auto. apply andb_prop in Hlate as [H1 H2]. apply negb_true_iff in H1.
        intros (d' & Hd' & Hg' & [H3|[H3|H3]]); apply Hne in Hd'; subst d'; congruence.
      * destruct (fgt f (hz r) (fzero f)) eqn:Hg.
        -- injection H as <-. exists [], r, l. split; auto. split; [|intros x []]. exists d. split; auto. split; auto.
           apply andb_false_iff in Hlate as [H1|H1]; [apply negb_false_iff in H1; auto|auto].
        -- apply Hskip; auto. intros (d' & _ & Hg' & _). congruence.
Qed.

Lemma ins_sorted x l :
  (forall a b c, In a (x :: l) -> In b (x :: l) -> In c (x :: l) ->
     fgt f (hz (snd a)) (hz (snd b)) = false -> fgt f (hz (snd b)) (hz (snd c)) = false -> fgt f (hz (snd a)) (hz (snd c)) = false) ->
  (forall a b c, In a (x :: l) -> In b (x :: l) -> In c (x :: l) ->
     fgt f (hz (snd a)) (hz (snd b)) = true -> fgt f (hz (snd b)) (hz (snd c)) = true -> fgt f (hz (snd a)) (hz (snd c)) = true) ->
  (forall a, In a (x :: l) -> fgt f (hz (snd a)) (hz (snd a)) = false) ->
  (forall y, In y l -> fst x < fst y) ->
  StronglySorted first_of l -> StronglySorted first_of (ins f x l).
Proof.
  intros HN HT HR Hlt HS. induction HS as [|y l HS IH HF]; cbn.
  - repeat constructor.
  - destruct (fgt f (hz (snd y)) (hz (snd x))) eqn:Hg.
    + constructor.
      * apply IH; intros; try (eapply HN; eauto; cbn in *; intuition; fail);
          try (eapply HT; eauto; cbn in *; intuition; fail); try (apply HR; cbn in *; intuition; fail);
          apply Hlt; cbn; auto.
      * rewrite Forall_forall in *. intros z Hz. apply ins_in in Hz as [->|Hz]; auto. split; auto.
        destruct (fgt f (hz (snd x)) (hz (snd y))) eqn:Hg'; auto.
        rewrite <- (HR x) by (cbn; auto). symmetry. eapply HT with (b := y); eauto; cbn; auto.
    + assert (Hy : first_of x y) by (split; auto; specialize (Hlt y (or_introl eq_refl)); lia).
      constructor; [constructor; auto|]. constructor; auto. rewrite Forall_forall in *. intros z Hz.
      specialize (HF z Hz). destruct HF as [HF _]. split.
      * eapply HN with (b := y); eauto; cbn; auto.
      * specialize (Hlt z (or_intror Hz)). lia.
Qed.

Lemma sort_sorted k rs : comparable f rs -> StronglySorted first_of (sort f (indexed k rs)).
Proof.
  intros (HR & HT & HN). assert (G : forall l, (forall x, In x l -> In (snd x) rs) -> StronglySorted (fun a b : nat * rate => fst a < fst b) l ->
    StronglySorted first_of (sort f l)).
  - induction l as [|x l IH]; intros Hl Hs; cbn; [constructor|]. inversion Hs as [|? ? Hs' HF]; subst.
    assert (Hin : forall y, In y (x :: sort f l) -> In (snd y) rs).
    { intros y [<-|Hy]; apply Hl; cbn; auto. right. now apply sort_in. }
    apply ins_sorted.
    + intros a b c Ha Hb Hc. apply HN; auto.
    + intros a b c Ha Hb Hc. apply HT; auto.
    + intros a Ha. apply HR; auto.
    + intros y Hy. rewrite Forall_forall in HF. apply HF. now apply (proj1 (sort_in l y)).
    + apply IH; auto. intros y Hy. apply Hl; cbn; auto.
  - apply G.
    + intros [i r] Hx. apply indexed_in in Hx as [_ Hx]. now apply nth_error_In in Hx.
    + clear. revert k. induction rs as [|r rs IH]; intros k; cbn; constructor; auto.
      rewrite Forall_forall. intros [i r'] Hx. apply indexed_in in Hx as [Hx _]. cbn. lia.
Qed.

Lemma find_pivot_fastest now rs i : comparable f rs -> find_pivot now rs = Ok (Some i) -> fastest f now rs i.
Proof.
  intros HC Hp. pose proof (sort_sorted 0 rs HC) as HS. unfold Latest_Model.find_pivot in Hp. apply pick_spec in Hp as (l1 & r & l2 & Heq & Hel & Hl1).
  assert (Hnth : nth_error rs i = Some r).
  { assert (Hin : In (i, r) (sort f (indexed 0 rs))) by (rewrite Heq; apply in_or_app; cbn; auto).
    apply sort_in, indexed_in in Hin as [_ Hin]. now rewrite Nat.sub_0_r in Hin. }
  exists r. split; auto. split; auto.
  intros q r' Hq Hel'.
  assert (Hin : In (q, r') (sort f (indexed 0 rs))).
  { apply sort_in, indexed_in. rewrite Nat.sub_0_r. split; [lia|auto]. }
  rewrite Heq in Hin. apply in_app_or in Hin as [Hin|[Hin|Hin]].
  - exfalso. now apply (Hl1 _ Hin).
  - injection Hin as -> ->. destruct HC as (HR & _). split; [apply HR; now apply nth_error_In in Hq|lia].
  - rewrite Heq in HS. apply StronglySorted_app in HS as (_ & HS & _). inversion HS as [|? ? _ HF]; subst.
    rewrite Forall_forall in HF. destruct (HF _ Hin) as [H1 H2]. auto.
Qed.

Lemma fastest_unique now rs i j : fastest f now rs i -> fastest f now rs j -> i = j.
Proof.
  intros (r & Hr & Er & Hi) (r' & Hr' & Er' & Hj). destruct (lt_eq_lt_dec i j) as [[H|H]|H]; auto; exfalso.
  - destruct (Hj i r Hr Er) as [_ H1]. specialize (H1 H). destruct (Hi j r' Hr' Er') as [H2 _]. congruence.
  - destruct (Hi j r' Hr' Er') as [_ H1]. specialize (H1 H). destruct (Hj i r Hr Er) as [H2 _]. congruence.
Qed.

Lemma fastest_find_pivot k now rs i :
  comparable f rs -> clk now = k -> (forall r, In r rs -> clk (prev r) = k) ->
  fastest f now rs i -> find_pivot now rs = Ok (Some i).
Proof.
  intros HC Hk Hr HF. destruct (find_pivot_one_clock k now rs Hk Hr) as [[j|] Hp].
  - rewrite Hp. repeat f_equal. eapply fastest_unique; eauto. now apply find_pivot_fastest.
  - exfalso. unfold Latest_Model.find_pivot in Hp. apply pick_spec in Hp. destruct HF as (r & Hn & He & _).
    apply (Hp (i, r)); auto. apply sort_in, indexed_in. rewrite Nat.sub_0_r. split; [lia|auto].
Qed.

(** ** first messages in index order *)
Lemma in_order_snoc (h : list op) o : started_in_order n (h ++ [o]) ->
  started_in_order n h /\ (forall i j e t, o = Add i e t -> j < i -> received j h <> []).
Proof.
  intros H. split.
  - intros h1 i j e t h2 -> Hj. apply (H h1 i j e t (h2 ++ [o])); auto. now rewrite <- app_assoc.
  - intros i j e t -> Hj. apply (H h i j e t []); auto.
Qed.

Lemma in_order_down (h : list op) : started_in_order n h -> forall i j, received i h <> [] -> j < i -> received j h <> [].
Proof.
  induction h as [|o h IH] using rev_ind; intros HO i j Hi Hj; [cbn in Hi; congruence|].
  apply in_order_snoc in HO as [HO Ho]. destruct o as [i0 e t|cs].
  - rewrite received_add in *. destruct (Nat.eqb_spec i0 i) as [->|Hne].
    + specialize (Ho i j e t eq_refl Hj). intros H. apply app_eq_nil in H as [H _]. congruence.
    + rewrite app_nil_r in Hi. specialize (IH HO i j Hi Hj). intros H. apply app_eq_nil in H as [H _]. congruence.
  - rewrite received_set in *. eauto.
Qed.

Lemma count_below (p : nat -> bool) i : i <= n -> (forall j, j < i -> p j = true) -> (forall j, i <= j -> p j = false) ->
  length (filter p (seq 0 n)) = i.
Proof.
  intros Hi H1 H2. replace n with (i + (n - i)) by lia. rewrite seq_app, filter_app, app_length.
  assert (HF : forall l, (forall j, In j l -> p j = true) -> filter p l = l).
  { induction l as [|x l IHl]; intros H; cbn; auto. rewrite H by (cbn; auto). f_equal. apply IHl. intros; apply H; cbn; auto. }
  assert (HG : forall l, (forall j, In j l -> p j = false) -> filter p l = []).
  { induction l as [|x l IHl]; intros H; cbn; auto. rewrite H by (cbn; auto). apply IHl. intros; apply H; cbn; auto. }
  rewrite HF, HG, seq_length; [cbn; lia| |].
  - intros j Hj. apply in_seq in Hj. apply H2. lia.
  - intros j Hj. apply in_seq in Hj. apply H1. lia.
Qed.

Lemma in_order_first (h : list op) i e t :
  started_in_order n (h ++ [Add i e t]) -> i < n -> received i h = [] -> started h = i.
Proof.
  intros HO Hi Hr. apply in_order_snoc in HO as [HO Ho]. apply count_below; [lia| |].
  - intros j Hj. specialize (Ho i j e t eq_refl Hj). destruct (received j h); congruence.
  - intros j Hj. destruct (received j h) eqn:Hj'; auto. exfalso.
    destruct (Nat.eq_dec i j) as [->|Hne]; [congruence|].
    apply (in_order_down h HO j i); [congruence|lia|auto].
Qed.

Lemma last_config_snoc (h : list op) o :
  last_config (h ++ [o]) = match o with SetConfig cs => cs | _ => last_config h end.
Proof. unfold last_config. now rewrite fold_left_app. Qed.

Lemma run_configs h s outs : run init h = Ok (s, outs) -> configs s = last_config h.
Proof.
  revert s outs. induction h as [|o h IH] using rev_ind; intros s outs Hr; [cbn in Hr; injection Hr as <- <-; reflexivity|].
  rewrite run_snoc in Hr. destruct (run init h) as [[s1 o1]|]; [|discriminate]. cbn [bind] in Hr.
  specialize (IH s1 o1 eq_refl). rewrite last_config_snoc.
  destruct (step s1 o) as [[s2 o2]|] eqn:Hs; [|discriminate]. cbn in Hr. injection Hr as <- <-.
  destruct o as [i e t|cs]; cbn in Hs.
  - rewrite <- IH. unfold Latest_Model.add in Hs. destruct (nth_error (events s1) i) as [[x|]|]; [| |discriminate].
    + destruct (nth_error (rates s1) i) as [r|]; [|discriminate].
      destruct (Latest_Model.compute_hz f t r) as [[r' b]|]; [|discriminate]. cbn [bind] in Hs.
      destruct b; [|injection Hs as <- <-; reflexivity].
      destruct (Latest_Model.find_pivot f t _) as [p|[]]; try discriminate; [|injection Hs as <- <-; reflexivity].
      destruct (match p with Some j => j =? i | None => false end); [|injection Hs as <- <-; reflexivity].
      destruct (full _); injection Hs as <- <-; reflexivity.
    + injection Hs as <- <-. reflexivity.
  - injection Hs as <- <-. reflexivity.
Qed.

Lemma config_for_expected (s : state) i : 0 < n -> i < n -> config_for n default s i = expected_config n default (configs s) i.
Proof.
  intros Hn Hi. unfold config_for, expected_config. destruct (configs s) as [|c0 [|c1 cs]]; auto.
  destruct (Nat.eqb_spec (length [c0]) n); auto. cbn in *. destruct i; [auto|lia].
Qed.

(** the slot of an input, its configuration and its last accepted reading *)
Lemma in_order_slots k h s outs :
  (forall z, fle f (fsecs f z) (fzero f) = (z <=? 0)%Z) ->
  well_indexed n h -> started_in_order n h -> one_clock k h -> run init h = Ok (s, outs) ->
  forall i e t, In (Add i e t) h -> exists r, nth_error (rates s) i = Some r /\ clk (prev r) = k /\ (ns t <= ns (prev r))%Z.
Proof.
  intros Hsec. revert s outs. induction h as [|o h IH] using rev_ind; intros s outs HW HO HK Hr i e t Hin; [destruct Hin|].
  apply well_indexed_snoc in HW as [HW Ho].
  assert (HK' : one_clock k h) by (intros ? ? ? Hi; eapply HK; apply in_or_app; left; eauto).
  pose proof HO as HO0. apply in_order_snoc in HO as [HO Hord].
  rewrite run_snoc in Hr. destruct (run init h) as [[s1 o1]|] eqn:Hrh; [|discriminate]. cbn [bind] in Hr.
  specialize (IH s1 o1 HW HO HK' eq_refl). destruct (run_inv h s1 o1 HW Hrh) as [HI _].
  destruct (one_clock_inv k h s1 o1 HW HK' Hrh) as [HC _].
  destruct (step s1 o) as [[s2 o2]|] eqn:Hs; [|discriminate]. cbn in Hr. injection Hr as <- <-.
  destruct o as [i0 e0 t0|cs]; cbn [Latest_Model.step] in Hs.
  - specialize (Ho i0 e0 t0 eq_refl). assert (Ht : clk t0 = k) by (eapply HK; apply in_or_app; right; left; eauto).
    destruct (add_cases h s1 i0 e0 t0 HI Ho) as [(Hrec & Hs')|[(Hrec & Hle & Hs')|(Hrec & Hlt & r & r' & b & o' & Hn & Hc & Hs' & _)]];
      rewrite Hs' in Hs; [|discriminate|]; injection Hs as <- <-; cbn [rates].
    + pose proof (in_order_first h i0 e0 t0 HO0 Ho Hrec) as Hst. rewrite <- (inv_rates _ _ HI) in Hst.
      apply in_app_or in Hin as [Hin|[Hin|[]]].
      * destruct (IH i e t Hin) as (r & Hr & H1 & H2). exists r. rewrite nth_error_app1 by (apply nth_error_Some; congruence). auto.
      * injection Hin as -> -> ->. eexists. rewrite nth_error_app2, Hst, Nat.sub_diag by lia. cbn. split; [reflexivity|].
        cbn. split; [auto|lia].
    + assert (Hlen : i0 < length (rates s1)) by (rewrite (inv_rates _ _ HI); auto).
      assert (Hnew : nth_error (upd i0 r' (rates s1)) i0 = Some r').
      { rewrite (nth_error_nth' _ r') by (now rewrite upd_length). now rewrite nth_upd_eq. }
      destruct (compute_hz_total t0 r) as (r1 & b1 & Hc1 & _ & Hb). rewrite Hc in Hc1. injection Hc1 as <- <-.
      assert (Hmono : (ns (prev r) <= ns (prev r'))%Z /\ clk (prev r') = k /\ (ns t0 <= ns (prev r'))%Z).
      { assert (Hrk : clk (prev r) = k) by (apply HC; now apply nth_error_In in Hn).
        assert (Hsub : time_sub t0 (prev r) = Ok (ns t0 - ns (prev r))%Z).
        { unfold time_sub. destruct (clock_eqb_spec (clk t0) (clk (prev r))); congruence. }
        destruct b.
        - destruct Hb as (-> & _). apply compute_hz_valid in Hc as (d & Hd & Hl). rewrite Hsub in Hd. injection Hd as <-.
          rewrite Hsec in Hl. apply Z.leb_gt in Hl. split; [lia|]. split; [auto|lia].
        - subst r'. apply compute_hz_invalid in Hc as [Hc|(d & Hd & Hl)]; [congruence|]. rewrite Hsub in Hd. injection Hd as <-.
          rewrite Hsec in Hl. apply Z.leb_le in Hl. split; [lia|]. split; [auto|lia]. }
      apply in_app_or in Hin as [Hin|[Hin|[]]].
      * destruct (IH i e t Hin) as (r0 & Hr0 & H1 & H2). destruct (Nat.eq_dec i0 i) as [->|Hne].
        -- exists r'. rewrite Hn in Hr0. injection Hr0 as <-. split; [exact Hnew|]. split; [tauto|lia].
        -- exists r0. split; auto. rewrite (nth_error_nth' _ r0).
           ++ rewrite nth_upd_neq by auto. f_equal. now apply nth_error_nth.
           ++ rewrite upd_length. apply nth_error_Some. congruence.
      * injection Hin as -> -> ->. exists r'. tauto.
  - injection Hs as <- <-. apply in_app_or in Hin as [Hin|[Hin|[]]]; [|discriminate]. apply (IH i e t Hin).
Qed.

Lemma in_order_conf h2 h1 i e t s outs :
  well_indexed n (h1 ++ Add i e t :: h2) -> started_in_order n (h1 ++ Add i e t :: h2) -> received i h1 = [] ->
  run init (h1 ++ Add i e t :: h2) = Ok (s, outs) ->
  nth_error (map (@conf D) (rates s)) i = Some (expected_config n default (last_config h1) i).
Proof.
  revert s outs. induction h2 as [|o h2 IH] using rev_ind; intros s outs HW HO Hrec Hr.
  - apply well_indexed_snoc in HW as [HW Ho]. specialize (Ho i e t eq_refl).
    rewrite run_snoc in Hr. destruct (run init h1) as [[s1 o1]|] eqn:Hrh; [|discriminate]. cbn [bind] in Hr.
    destruct (run_inv h1 s1 o1 HW Hrh) as [HI _]. cbn [Latest_Model.step] in Hr.
    destruct (add_cases h1 s1 i e t HI Ho) as [(_ & Hs)|[(H & _)|(H & _)]]; try congruence.
    rewrite Hs in Hr. cbn in Hr. injection Hr as <- <-. cbn [rates].
    pose proof (in_order_first h1 i e t HO Ho Hrec) as Hst. rewrite <- (inv_rates _ _ HI) in Hst.
    rewrite map_app, nth_error_app2; rewrite map_length, Hst; [|lia]. rewrite Nat.sub_diag. cbn.
    rewrite config_for_expected by lia. now rewrite (run_configs h1 s1 o1 Hrh).
  - rewrite app_comm_cons, app_assoc in HW, HO, Hr.
    apply well_indexed_snoc in HW as [HW Ho]. apply in_order_snoc in HO as [HO _].
    rewrite run_snoc in Hr. destruct (run init _) as [[s1 o1]|] eqn:Hrh; [|discriminate]. cbn [bind] in Hr.
    specialize (IH s1 o1 HW HO Hrec eq_refl). destruct (run_inv _ s1 o1 HW Hrh) as [HI _].
    destruct (step s1 o) as [[s2 o2]|] eqn:Hs; [|discriminate]. cbn in Hr. injection Hr as <- <-.
    destruct o as [i0 e0 t0|cs]; cbn [Latest_Model.step] in Hs.
    + specialize (Ho i0 e0 t0 eq_refl).
      destruct (add_cases _ s1 i0 e0 t0 HI Ho) as [(_ & Hs')|[(_ & _ & Hs')|(_ & _ & r & r' & b & o' & Hn & Hc & Hs' & _)]];
        rewrite Hs' in Hs; [|discriminate|]; injection Hs as <- <-; cbn [rates].
      * rewrite map_app, nth_error_app1; auto. apply nth_error_Some. congruence.
      * destruct (compute_hz_total t0 r) as (r1 & b1 & Hc1 & Hcf & _). rewrite Hc in Hc1. injection Hc1 as <- <-.
        now rewrite (upd_conf (rates s1) i0 r r' Hn Hcf).
    + injection Hs as <- <-. exact IH.
Qed.
End Proofs.
