(** LatestTime with strictly periodic inputs (property C67). *)
From Coq Require Import List Arith ZArith Lia Bool QArith Qabs.
From Verif Require Import Base RclTime Trace Latest_Model Latest_Spec Latest_Proofs Latest_Props.
Import ListNotations.
Open Scope nat_scope.

Section Steady.
Context {E D : Type} (f : fops D) (n : nat) (dflt : config D).
Notation run := (run (E := E) f n dflt).
Notation init := (init (E := E) (D := D) n).
Notation op := (op E D).

(** What is used of the arithmetic: [inv p] is the rate of period [p] nanoseconds. *)
Definition inv (p : Z) : D := fdiv f (fone f) (fsecs f p).
Record exact_laws : Prop := {
  l_sign : forall z, fle f (fsecs f z) (fzero f) = (z <=? 0)%Z;
  l_zero : forall z, feq f (fsecs f z) (fzero f) = (z =? 0)%Z;
  l_inv : forall p q, (0 < p)%Z -> (0 < q)%Z -> fgt f (inv p) (inv q) = (p <? q)%Z;
  l_inv_pos : forall p, (0 < p)%Z -> fgt f (inv p) (fzero f) = true;
  l_pos_inv : forall p, (0 < p)%Z -> fgt f (fzero f) (inv p) = false;
  l_irr : fgt f (fzero f) (fzero f) = false;
  l_late : forall p z, (0 < z)%Z -> (z <= p)%Z -> fgt f (fsub f (inv p) (inv z)) (fzero f) = false;
  l_delta : forall p, fabs f (fsub f (inv p) (inv p)) = fzero f;
  l_mul : forall a, fmul f a (fzero f) = fzero f;
  l_add : fadd f (fzero f) (fzero f) = fzero f;
  l_ema : forall a p, (0 < p)%Z -> fadd f (fdiv f a (fsecs f p)) (fmul f (fsub f (fone f) a) (inv p)) = inv p
}.

Variable P : nat -> Z.        (* the period of each input *)
Variable start : nat -> Z.    (* the time of its first message *)
Variable k : clock.
Notation count j h := (length (received (E := E) (D := D) j h)).

(** Every input [i] receives its messages at [start i], [start i + P i], [start i + 2 P i], ... and
    when a message is handled no message of an input that has started is overdue. *)
Definition on_schedule (h : list op) : Prop :=
  forall h1 i e t h2, h = h1 ++ Add i e t :: h2 ->
    clk t = k /\ ns t = (start i + P i * Z.of_nat (count i h1))%Z /\
    forall j, j < n -> received j h1 <> [] ->
      (start j + P j * (Z.of_nat (count j h1) - 1) <= ns t <= start j + P j * Z.of_nat (count j h1))%Z.

Definition slot (j c : nat) (r : rate D) : Prop :=
  prev r = mkTime (start j + P j * (Z.of_nat c - 1)) k /\
  (c = 1 -> hz r = fzero f /\ do_hz_init r = true /\ do_error_init r = true) /\
  (c = 2 -> hz r = inv (P j) /\ do_hz_init r = false /\ do_error_init r = true) /\
  (3 <= c -> hz r = inv (P j) /\ do_hz_init r = false /\ do_error_init r = false /\ error r = fzero f).

Hypothesis L : exact_laws.
Hypothesis Ppos : forall j, j < n -> (0 < P j)%Z.

Lemma slot_step j c r t : j < n -> 1 <= c -> slot j c r -> t = mkTime (start j + P j * Z.of_nat c) k ->
  exists r', compute_hz f t r = Ok (r', true) /\ slot j (S c) r'.
Proof.
  intros Hj Hc (Hp & H1 & H2 & H3) ->. pose proof (Ppos j Hj) as HP.
  unfold compute_hz. cbn [hz_loop]. unfold time_sub. rewrite Hp. cbn [clk ns].
  destruct (clock_eqb_spec k k) as [_|]; [|congruence].
  replace (start j + P j * Z.of_nat c - (start j + P j * (Z.of_nat c - 1)))%Z with (P j) by lia.
  rewrite (l_sign L). destruct (Z.leb_spec (P j) 0); [lia|]. fold (inv (P j)).
  destruct (Nat.eq_dec c 1) as [->|]; [|destruct (Nat.eq_dec c 2) as [->|]].
  - destruct (H1 eq_refl) as (Hh & Hd & He). rewrite Hd. eexists; split; [reflexivity|].
    split; [|split; [lia|split]].
    + cbn [prev]. f_equal; lia.
    + intros _. cbn. auto.
    + lia.
  - destruct (H2 eq_refl) as (Hh & Hd & He). rewrite Hd, He, Hh. eexists; split; [reflexivity|].
    split; [|split; [lia|split; [lia|]]].
    + cbn [prev]. f_equal; lia.
    + intros _. cbn. rewrite (l_ema L), (l_delta L) by auto. auto.
  - destruct (H3 ltac:(lia)) as (Hh & Hd & He & Her). rewrite Hd, He, Hh, Her.
    rewrite (l_delta L), (l_mul L), (l_irr L). eexists; split; [reflexivity|].
    split; [|split; [lia|split; [lia|]]].
    + cbn [prev]. f_equal; lia.
    + intros _. cbn. rewrite (l_ema L), !(l_mul L), (l_add L) by auto. auto.
Qed.

Lemma on_schedule_snoc h o : on_schedule (h ++ [o]) -> on_schedule h /\
  forall i e t, o = Add i e t -> clk t = k /\ ns t = (start i + P i * Z.of_nat (count i h))%Z /\
    forall j, j < n -> received j h <> [] ->
      (start j + P j * (Z.of_nat (count j h) - 1) <= ns t <= start j + P j * Z.of_nat (count j h))%Z.
Proof.
  intros H. split.
  - intros h1 i e t h2 ->. apply (H h1 i e t (h2 ++ [o])). now rewrite <- app_assoc.
  - intros i e t ->. apply (H h i e t []); auto.
Qed.

Lemma schedule_clock h : on_schedule h -> one_clock k h.
Proof. intros H i e t Hin. apply in_split in Hin as (h1 & h2 & ->). now apply (H h1 i e t h2). Qed.

Lemma slots h s outs :
  well_indexed n h -> started_in_order n h -> on_schedule h -> run init h = Ok (s, outs) ->
  forall j, j < n -> received j h <> [] -> exists r, nth_error (rates s) j = Some r /\ slot j (count j h) r.
Proof.
  revert s outs. induction h as [|o h IH] using rev_ind; intros s outs HW HO HS Hr j Hj Hrec; [cbn in Hrec; congruence|].
  apply well_indexed_snoc in HW as [HW Ho]. pose proof HO as HO0. apply in_order_snoc in HO as [HO _].
  apply on_schedule_snoc in HS as [HS Hs0].
  rewrite run_snoc in Hr. destruct (run init h) as [[s1 o1]|] eqn:Hrh; [|discriminate]. cbn [bind] in Hr.
  specialize (IH s1 o1 HW HO HS eq_refl). destruct (run_inv f n dflt h s1 o1 HW Hrh) as [HI _].
  destruct (step f n dflt s1 o) as [[s2 o2]|] eqn:Hs; [|discriminate]. cbn in Hr. injection Hr as <- <-.
  destruct o as [i e t|cs]; cbn [step] in Hs.
  - specialize (Ho i e t eq_refl). destruct (Hs0 i e t eq_refl) as (Hk & Ht & _). rewrite received_add in *.
    assert (Etime : t = mkTime (start i + P i * Z.of_nat (count i h)) k) by (destruct t; cbn in *; congruence).
    destruct (add_cases f n dflt h s1 i e t HI Ho) as [(Hi0 & Hs')|[(_ & _ & Hs')|(Hi1 & Hlt & r & r' & b & x & Hn & Hc & Hs' & _)]];
      rewrite Hs' in Hs; [|discriminate|]; injection Hs as <- <-; cbn [rates].
    + pose proof (in_order_first n h i e t HO0 Ho Hi0) as Hst. rewrite <- (inv_rates _ _ _ HI) in Hst.
      destruct (Nat.eqb_spec i j) as [->|Hne].
      * rewrite nth_error_app2, Hst, Nat.sub_diag by lia. eexists; split; [reflexivity|]. rewrite Hi0.
        split; [|split; [|split; cbn; lia]].
        -- cbn [prev new_rate]. rewrite Etime. rewrite Hi0. f_equal; cbn; lia.
        -- cbn. auto.
      * rewrite app_nil_r in *. destruct (IH j Hj Hrec) as (r & Hr & Hsl). exists r. split; auto.
        rewrite nth_error_app1; auto. apply nth_error_Some. congruence.
    + destruct (IH i Ho Hi1) as (r0 & Hr0 & Hsl). rewrite Hn in Hr0. injection Hr0 as <-.
      destruct (slot_step i (count i h) r t Ho) as (r1 & Hc1 & Hsl1); auto.
      { destruct (received i h); [congruence|cbn; lia]. }
      rewrite Hc in Hc1. injection Hc1 as <- ->.
      assert (Hlen : i < length (rates s1)) by (apply nth_error_Some; congruence).
      destruct (Nat.eqb_spec i j) as [->|Hne].
      * exists r'. split.
        -- rewrite (nth_error_nth' _ r') by (now rewrite upd_length). now rewrite nth_upd_eq.
        -- rewrite app_length. cbn. now rewrite Nat.add_1_r.
      * rewrite app_nil_r in *. destruct (IH j Hj Hrec) as (r0 & Hr & Hsl0). exists r0. split; auto.
        rewrite (nth_error_nth' _ r0).
        -- rewrite nth_upd_neq by auto. f_equal. now apply nth_error_nth.
        -- rewrite upd_length. apply nth_error_Some. congruence.
  - injection Hs as <- <-. rewrite received_set in *. auto.
Qed.

Lemma slot_hz j c r : j < n -> 1 <= c -> slot j c r ->
  (c = 1 /\ hz r = fzero f) \/ (2 <= c /\ hz r = inv (P j)).
Proof.
  intros Hj Hc (_ & H1 & H2 & H3). destruct (Nat.eq_dec c 1); [left; intuition|]. right.
  split; [lia|]. destruct (Nat.eq_dec c 2); [now apply H2|]. apply H3. lia.
Qed.

Lemma slot_eligible j c r t : j < n -> 1 <= c -> slot j c r -> clk t = k ->
  (start j + P j * (Z.of_nat c - 1) <= ns t <= start j + P j * Z.of_nat c)%Z ->
  (eligible f t r <-> 2 <= c).
Proof.
  intros Hj Hc Hsl Hk Ht. pose proof (Ppos j Hj) as HP. pose proof Hsl as (Hp & H1 & H2 & H3).
  assert (Hsub : time_sub t (prev r) = Ok (ns t - ns (prev r))%Z).
  { unfold time_sub. rewrite Hp. cbn. rewrite Hk. destruct (clock_eqb_spec k k); congruence. }
  split.
  - intros (z & _ & Hg & _). destruct (slot_hz j c r Hj Hc Hsl) as [(-> & Hh)|(? & _)]; auto.
    rewrite Hh, (l_irr L) in Hg. discriminate.
  - intros H2c. destruct (slot_hz j c r Hj Hc Hsl) as [(? & _)|(_ & Hh)]; [lia|].
    eexists; split; [exact Hsub|]. rewrite Hh. split; [now apply (l_inv_pos L)|].
    destruct (Nat.eq_dec c 2) as [->|Hne]; [right; left; apply H2; auto|].
    destruct (H3 ltac:(lia)) as (_ & _ & _ & Her). rewrite Her, (l_mul L), (l_zero L).
    destruct (Z.eqb_spec (ns t - ns (prev r)) 0) as [|Hnz]; [auto|]. right. right. fold (inv (ns t - ns (prev r))).
    rewrite Hp in *. cbn [ns] in *. apply (l_late L); lia.
Qed.

(** Inputs start in index order: those that have a rate have a message. *)
Lemma started_received (h : list op) j : started_in_order n h -> j < n -> j < started n h -> received j h <> [].
Proof.
  intros HO Hjn Hlt. intros Habs. assert (Hle : started n h <= j); [|lia].
      unfold started. replace n with (j + (n - j)) by lia. rewrite seq_app, filter_app, app_length.
      assert (Hz : length (filter (fun m => match received m h with [] => false | _ => true end) (seq (0 + j) (n - j))) = 0).
      { assert (forall l, (forall m, In m l -> j <= m) ->
          filter (fun m => match received m h with [] => false | _ => true end) l = []) as HF.
        { induction l as [|y l IHl]; intros Hl; cbn; auto. destruct (received y h) eqn:Hy.
          - apply IHl. intros; apply Hl; cbn; auto.
          - exfalso. destruct (Nat.eq_dec y j) as [->|]; [congruence|].
            specialize (Hl y (or_introl eq_refl)).
            apply (in_order_down n h HO y j); [congruence|lia|auto]. }
        rewrite HF; auto. intros m Hm. apply in_seq in Hm. lia. }
      rewrite Hz. assert (length (filter (fun m => match received m h with [] => false | _ => true end) (seq 0 j)) <= j); [|lia].
      rewrite <- (seq_length j 0) at 2. generalize (seq 0 j). induction l as [|y l IHl]; cbn; [lia|].
      destruct (received y h); cbn; lia.
Qed.

(** Published exactly by the messages of the fastest input among those with two messages. *)
Lemma steady h i e t s outs s' x :
  well_indexed n (h ++ [Add i e t]) -> started_in_order n (h ++ [Add i e t]) -> on_schedule (h ++ [Add i e t]) ->
  run init h = Ok (s, outs) -> run init (h ++ [Add i e t]) = Ok (s', outs ++ [x]) ->
  (exists set, x = Published set) <->
  (forall j, j < n -> received j (h ++ [Add i e t]) <> []) /\ received i h <> [] /\
  (forall j, j < n -> 2 <= count j (h ++ [Add i e t]) -> (P i < P j)%Z \/ P i = P j /\ i <= j).
Proof.
  intros HW HO HS Hr Hr'. assert (HW0 := HW). assert (HS0 := HS). assert (HO0 := HO).
  apply well_indexed_snoc in HW as [HW Hi]. specialize (Hi i e t eq_refl).
  apply in_order_snoc in HO as [HO _]. apply on_schedule_snoc in HS as [HS Ht]. destruct (Ht i e t eq_refl) as (Hk & Hti & Hj).
  destruct (run_inv f n dflt h s outs HW Hr) as [HI _]. destruct (run_inv f n dflt _ s' _ HW0 Hr') as [HI' _].
  assert (Hd : received i h = [] \/ received i h <> []) by (destruct (received i h); [auto|right; discriminate]).
  destruct Hd as [Hrec|Hrec'].
  { split; [|intros (_ & H & _); congruence]. intros (set & ->). exfalso.
    rewrite run_snoc, Hr in Hr'. cbn [bind step] in Hr'.
    destruct (add_cases f n dflt h s i e t HI Hi) as [(_ & Hs)|[(H & _)|(H & _)]]; [|congruence|congruence].
    rewrite Hs in Hr'. cbn in Hr'. injection Hr' as _ Hx. apply app_inj_tail in Hx as [_ Hx]. discriminate. }
  destruct (slots h s outs HW HO HS Hr i Hi Hrec') as (r & Hn & Hsl).
  assert (HSl : forall j r, nth_error (rates s') j = Some r -> j < n /\ received j (h ++ [Add i e t]) <> [] /\ slot j (count j (h ++ [Add i e t])) r).
  { intros j r0 Hn0. assert (Hlt : j < started n (h ++ [Add i e t])).
    { rewrite <- (inv_rates _ _ _ HI'). apply nth_error_Some. congruence. }
    assert (Hjn : j < n) by (pose proof (started_le n (h ++ [Add i e t])); lia).
    assert (Hrj : received j (h ++ [Add i e t]) <> []) by (now apply started_received).
    destruct (slots _ s' _ HW0 HO0 HS0 Hr' j Hjn Hrj) as (r1 & Hn1 & Hs1). rewrite Hn0 in Hn1. injection Hn1 as <-. auto. }
  assert (Hcnt : forall j, received j (h ++ [Add i e t]) <> [] -> 1 <= count j (h ++ [Add i e t])).
  { intros j H. destruct (received j (h ++ [Add i e t])); [congruence|cbn; lia]. }
  assert (HC : comparable f (rates s')).
  { assert (G : forall r, In r (rates s') -> hz r = fzero f \/ exists p, (0 < p)%Z /\ hz r = inv p).
    { intros r0 Hin. apply In_nth_error in Hin as [j Hn0]. destruct (HSl j r0 Hn0) as (Hjn & Hrj & Hsl0).
      destruct (slot_hz j _ r0 Hjn (Hcnt j Hrj) Hsl0) as [(_ & ->)|(_ & ->)]; [auto|]. right. exists (P j). split; auto. }
    split; [|split].
    - intros a Ha. destruct (G a Ha) as [->|(p & Hp & ->)]; [apply (l_irr L)|]. rewrite (l_inv L) by auto. apply Z.ltb_irrefl.
    - intros a b c Ha Hb Hc. destruct (G a Ha) as [->|(p & Hp & ->)], (G b Hb) as [->|(q & Hq & ->)], (G c Hc) as [->|(w & Hw & ->)];
        rewrite ?(l_irr L), ?(l_inv_pos L), ?(l_pos_inv L), ?(l_inv L) by auto; try discriminate; auto.
      rewrite !Z.ltb_lt. lia.
    - intros a b c Ha Hb Hc. destruct (G a Ha) as [->|(p & Hp & ->)], (G b Hb) as [->|(q & Hq & ->)], (G c Hc) as [->|(w & Hw & ->)];
        rewrite ?(l_irr L), ?(l_inv_pos L), ?(l_pos_inv L), ?(l_inv L) by auto; try discriminate; auto.
      rewrite !Z.ltb_ge. lia. }
  rewrite (C66_latest_pivot f n dflt k h i e t s outs s' x r HW0 (schedule_clock _ HS0) Hr Hrec' Hn Hr' HC).
  assert (Hprev : fle f (fsecs f (ns t - ns (prev r))) (fzero f) = false).
  { destruct Hsl as (-> & _). cbn [ns]. rewrite (l_sign L), Hti. apply Z.leb_gt. pose proof (Ppos i Hi). lia. }
  (* eligibility of every input at the time of the addition *)
  assert (HE : forall j r0, nth_error (rates s') j = Some r0 -> (eligible f t r0 <-> 2 <= count j (h ++ [Add i e t]))).
  { intros j r0 Hn0. destruct (HSl j r0 Hn0) as (Hjn & Hrj & Hs0). apply (slot_eligible j); auto.
    rewrite received_add in *. destruct (Nat.eqb_spec i j) as [->|Hne].
    - rewrite app_length. cbn. rewrite Hti. pose proof (Ppos j Hjn). nia.
    - rewrite app_nil_r in *. now apply Hj. }
  assert (Hci : 2 <= count i (h ++ [Add i e t])).
  { rewrite received_add, Nat.eqb_refl, app_length. cbn. destruct (received i h); [congruence|cbn; lia]. }
  assert (Hni : exists ri, nth_error (rates s') i = Some ri /\ hz ri = inv (P i) /\ eligible f t ri).
  { assert (Hri : received i (h ++ [Add i e t]) <> []) by (intros H; rewrite H in Hci; cbn in Hci; lia).
    destruct (slots _ s' _ HW0 HO0 HS0 Hr' i Hi Hri) as (ri & Hn1 & Hs1). exists ri. split; auto.
    destruct (slot_hz i _ ri Hi (Hcnt i Hri) Hs1) as [(? & _)|(_ & Hh)]; [lia|]. split; auto. apply (HE i ri Hn1). auto. }
  destruct Hni as (ri & Hni & Hhi & Hei).
  split.
  - intros (_ & Hall & (ri' & Hni' & _ & HF)). rewrite Hni in Hni'. injection Hni' as <-. split; auto. split; auto.
    intros j Hjn Hc2. assert (Hrj : received j (h ++ [Add i e t]) <> []) by auto.
    destruct (slots _ s' _ HW0 HO0 HS0 Hr' j Hjn Hrj) as (rj & Hnj & Hsj).
    destruct (HF j rj Hnj (proj2 (HE j rj Hnj) Hc2)) as [H1 H2].
    destruct (slot_hz j _ rj Hjn (Hcnt j Hrj) Hsj) as [(? & _)|(_ & Hhj)]; [lia|].
    rewrite Hhi, Hhj in *. rewrite (l_inv L) in H1, H2 by auto. apply Z.ltb_ge in H1.
    destruct (Z.eq_dec (P i) (P j)); [|lia]. right. split; auto. destruct (le_lt_dec i j) as [|Hlt]; auto.
    specialize (H2 Hlt). apply Z.ltb_lt in H2. lia.
  - intros (Hall & _ & Hmin). split; auto. split; auto. exists ri. split; auto. split; auto.
    intros j rj Hnj Hej. apply (HE j rj Hnj) in Hej. destruct (HSl j rj Hnj) as (Hjn & Hrj & Hsj).
    destruct (slot_hz j _ rj Hjn (Hcnt j Hrj) Hsj) as [(? & _)|(_ & Hhj)]; [lia|].
    rewrite Hhi, Hhj, !(l_inv L) by auto. specialize (Hmin j Hjn Hej). rewrite Z.ltb_ge, Z.ltb_lt. split; [lia|].
    intros Hlt. lia.
Qed.
End Steady.
