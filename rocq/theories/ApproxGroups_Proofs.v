From Coq Require Import List Arith ZArith Lia Bool Permutation Sorted.
From Verif Require Import Base RclTime Trace Approx_Model Approx_Spec Approx_Proofs Approx_Opt Approx_More ApproxGroups_Spec.
Import ListNotations.
Local Open Scope Z_scope.

Section Proofs.
Context {E : Type} (stamp : E -> Z) (group : E -> nat).
Variable c : cfg.
Variable F : nat -> list E.
Variables w num den tol : Z.
Hypothesis HF : respects stamp (n c) (bound c) F.
Hypothesis Hn : (0 < n c)%nat.
Hypothesis HG : grouped stamp group (n c) F w.
Notation N := (n c).
Notation selects := (selects N F).
Notation from := (from N).

Lemma w_nonneg i a : (i < N)%nat -> In a (F i) -> 0 <= w.
Proof. intros Hi Ha. pose proof (gr_same _ _ _ _ _ HG i i a a Hi Hi Ha Ha eq_refl). lia. Qed.

Lemma strict i k l a b : (i < N)%nat -> (k < l)%nat ->
  nth_error (F i) k = Some a -> nth_error (F i) l = Some b -> (group a < group b)%nat.
Proof.
  intros Hi Hkl Ha Hb.
  pose proof (mono stamp c F HF Hn i k l a b Hi ltac:(lia) Ha Hb) as Hle.
  pose proof (nth_error_In _ _ Ha) as Ia. pose proof (nth_error_In _ _ Hb) as Ib.
  destruct (lt_eq_lt_dec (group a) (group b)) as [[H|H]|H]; auto; exfalso.
  - pose proof (gr_once _ _ _ _ _ HG i Hi) as HN. rewrite NoDup_nth_error in HN.
    assert (k < length (map group (F i)))%nat by (rewrite map_length; apply nth_error_Some; congruence).
    specialize (HN k l H0). rewrite !nth_error_map, Ha, Hb in HN. cbn in HN. rewrite H in HN. specialize (HN eq_refl). lia.
  - pose proof (gr_apart _ _ _ _ _ HG i i b a Hi Hi Ib Ia H). pose proof (w_nonneg i a Hi Ia). lia.
Qed.

Lemma strict_le i k l a b : (i < N)%nat -> (k <= l)%nat ->
  nth_error (F i) k = Some a -> nth_error (F i) l = Some b -> (group a <= group b)%nat.
Proof.
  intros Hi Hkl Ha Hb. destruct (Nat.eq_dec k l) as [->|Hne]; [replace b with a by congruence; lia|].
  pose proof (strict i k l a b Hi ltac:(lia) Ha Hb). lia.
Qed.

Lemma strict_inv i k l a b : (i < N)%nat -> nth_error (F i) k = Some a -> nth_error (F i) l = Some b ->
  (group a <= group b)%nat -> (k <= l)%nat.
Proof.
  intros Hi Ha Hb Hle. destruct (le_lt_dec k l) as [|Hlt]; auto. pose proof (strict i l k b a Hi Hlt Hb Ha). lia.
Qed.

(** The groups before [ct] have been dealt with. *)
Definition Cut (ct : nat) (base : nat -> nat) : Prop :=
  forall i k e, (i < N)%nat -> nth_error (F i) k = Some e -> ((k < base i)%nat <-> (group e < ct)%nat).

Definition gsel (g : nat) (y : nat -> nat) (Y : list E) : Prop :=
  selects y Y /\ forall i e, (i < N)%nat -> nth_error (F i) (y i) = Some e -> group e = g.

Fixpoint idx (g : nat) (l : list E) : nat :=
  match l with [] => 0%nat | x :: l' => if Nat.eqb (group x) g then 0%nat else S (idx g l') end.
Lemma idx_spec g l : (exists e, In e l /\ group e = g) -> exists e, nth_error l (idx g l) = Some e /\ group e = g.
Proof.
  induction l as [|x l IH]; intros (e & He & Hg); [destruct He|]. cbn. destruct (Nat.eqb_spec (group x) g) as [Hx|Hx].
  - exists x. auto.
  - destruct He as [->|He]; [congruence|]. apply IH. eauto.
Qed.

Lemma complete_sel g : complete group N F g -> exists y Y, gsel g y Y.
Proof.
  intros HC. destruct (selects_exists c F (fun i => idx g (F i))) as (Y & HY).
  { intros i Hi. destruct (idx_spec g (F i) (HC i Hi)) as (e & -> & _). discriminate. }
  exists (fun i => idx g (F i)), Y. split; auto. intros i e Hi He.
  destruct (idx_spec g (F i) (HC i Hi)) as (e' & He' & Hg). cbn in He. congruence.
Qed.

Lemma sel_at g y Y i : gsel g y Y -> (i < N)%nat -> exists e, nth_error (F i) (y i) = Some e /\ nth_error Y i = Some e /\ In e Y /\ group e = g.
Proof.
  intros [HS HY] Hi. destruct (selects_at c F Hn y Y i HS Hi) as (e & H1 & H2 & H3). exists e. split; auto. split; auto. split; auto.
  eapply HY; eauto.
Qed.

Lemma gsel_complete g y Y : gsel g y Y -> complete group N F g.
Proof. intros H i Hi. destruct (sel_at g y Y i H Hi) as (e & H1 & _ & _ & H2). exists e. split; auto. eapply nth_error_In; eauto. Qed.

Lemma gsel_is_group g y Y : gsel g y Y -> is_group group N F g Y.
Proof.
  intros H. split; [apply H|]. intros i Hi. destruct (sel_at g y Y i H Hi) as (e & H1 & H2 & _ & H3). exists e. split; auto. split; auto.
  eapply nth_error_In; eauto.
Qed.

Lemma gsel_from ct base g y Y : Cut ct base -> gsel g y Y -> (ct <= g)%nat -> from base y.
Proof.
  intros HC H Hg i Hi. destruct (sel_at g y Y i H Hi) as (e & H1 & _ & _ & H3).
  destruct (le_lt_dec (base i) (y i)) as [|Hlt]; auto. apply (HC i (y i) e Hi H1) in Hlt. lia.
Qed.

Lemma from_cut ct base y Y i e : Cut ct base -> selects y Y -> from base y -> (i < N)%nat -> nth_error (F i) (y i) = Some e -> (ct <= group e)%nat.
Proof.
  intros HC HY Hf Hi He. destruct (le_lt_dec ct (group e)) as [|Hlt]; auto. apply (HC i (y i) e Hi He) in Hlt. specialize (Hf i Hi). lia.
Qed.

Lemma gsel_span g y Y : gsel g y Y -> span stamp Y <= w.
Proof.
  intros [HS HY]. unfold span. destruct (finish_in stamp Y (selects_ne c F Hn _ _ HS)) as (a & Ia & <-).
  destruct (start_in stamp Y (selects_ne c F Hn _ _ HS)) as (b & Ib & <-).
  destruct (selects_in c F _ _ _ HS Ia) as (i & Hi & Na). destruct (selects_in c F _ _ _ HS Ib) as (j & Hj & Nb).
  apply (gr_same _ _ _ _ _ HG i j); auto; try (eapply nth_error_In; eauto). now rewrite (HY i a Hi Na), (HY j b Hj Nb).
Qed.

Lemma gsel_cut g y Y : gsel g y Y -> Cut (S g) (fun i => S (y i)).
Proof.
  intros H i k e Hi He. destruct (sel_at g y Y i H Hi) as (a & H1 & _ & _ & H3). split; intros Hk.
  - pose proof (strict_le i k (y i) e a Hi ltac:(lia) He H1). lia.
  - pose proof (strict_inv i k (y i) e a Hi He H1 ltac:(lia)). lia.
Qed.

Lemma gsel_le g g' y Y y' Y' i : gsel g y Y -> gsel g' y' Y' -> (i < N)%nat -> (y i <= y' i)%nat -> (g <= g')%nat.
Proof.
  intros H H' Hi Hle. destruct (sel_at g y Y i H Hi) as (a & H1 & _ & _ & <-). destruct (sel_at g' y' Y' i H' Hi) as (b & H2 & _ & _ & <-).
  eapply strict_le; eauto.
Qed.

Lemma gsel_from_le g g' y Y y' Y' : gsel g y Y -> gsel g' y' Y' -> (g <= g')%nat -> from y y'.
Proof.
  intros H H' Hle i Hi. destruct (sel_at g y Y i H Hi) as (a & H1 & _ & _ & Ha). destruct (sel_at g' y' Y' i H' Hi) as (b & H2 & _ & _ & Hb).
  apply (strict_inv i _ _ a b Hi H1 H2). lia.
Qed.

(** A set that spans at most [w] is within one group. *)
Lemma narrow_gsel y Y : selects y Y -> span stamp Y <= w -> exists g, gsel g y Y.
Proof.
  intros HS Hw. destruct (selects_at c F Hn y Y 0%nat HS Hn) as (a & Na & _ & Ia). exists (group a). split; auto.
  intros i e Hi He. destruct (selects_at c F Hn y Y i HS Hi) as (e' & Ne & _ & Ie). replace e' with e in * by congruence. clear e'.
  pose proof (start_le stamp Y a Ia). pose proof (finish_ge stamp Y a Ia). pose proof (start_le stamp Y e Ie). pose proof (finish_ge stamp Y e Ie).
  unfold span in Hw. pose proof (nth_error_In _ _ Na) as Fa. pose proof (nth_error_In _ _ Ne) as Fe.
  destruct (lt_eq_lt_dec (group a) (group e)) as [[H3|H3]|H3]; auto; exfalso.
  - pose proof (gr_apart _ _ _ _ _ HG 0%nat i a e Hn Hi Fa Fe H3). lia.
  - pose proof (gr_apart _ _ _ _ _ HG i 0%nat e a Hi Hn Fe Fa H3). lia.
Qed.

(** ** the chain of outputs *)
Definition stepped (P : (nat -> nat) -> (nat -> nat) -> list E -> Prop) : Prop :=
  forall ct base x X, Cut ct base -> P base x X ->
    exists g, (ct <= g)%nat /\ gsel g x X /\ forall g', (ct <= g')%nat -> complete group N F g' -> (g <= g')%nat.

Lemma chain P base outs base' : stepped P -> sets_from N P base outs base' -> forall ct, Cut ct base ->
  exists ct' gs, Cut ct' base' /\ Forall2 (is_group group N F) gs outs /\ StronglySorted lt gs /\
    Forall (fun g => (ct <= g)%nat) gs /\
    forall g, complete group N F g -> (ct <= g < ct')%nat -> In g gs.
Proof.
  intros HP H. induction H as [base base' He|base x X outs base' HX _ IH]; intros ct HC.
  - exists ct, []. split; [intros i k e Hi Hk; rewrite <- He by auto; apply HC; auto|]. repeat split; auto; try constructor. intros; lia.
  - destruct (HP ct base x X HC HX) as (g & Hg & Hs & Hmin). destruct (IH (S g) (gsel_cut g x X Hs)) as (ct' & gs & H1 & H2 & H3 & H4 & H5).
    exists ct', (g :: gs). split; auto. split; [constructor; auto; eapply gsel_is_group; eauto|].
    split; [constructor; auto|].
    split; [constructor; auto; eapply (Forall_impl _ (fun a (Ha : (S g <= a)%nat) => Nat.le_trans ct g a Hg (Nat.lt_le_incl _ _ Ha))); exact H4|].
    intros g' Hg' Hr. destruct (Nat.eq_dec g g') as [->|Hne]; [now left|]. right. apply H5; auto.
    specialize (Hmin g' ltac:(lia) Hg'). lia.
Qed.

(** The last step: what has not been output does not wait without reason. *)
Definition admits (mx : Z) : Prop :=
  forall ct base g, Cut ct base -> (ct <= g)%nat -> complete group N F g ->
    exists f Fst g0, first_admissible stamp N F mx base f Fst /\ gsel g0 f Fst /\ (g0 <= g)%nat.

Lemma all_groups mx P outs base : stepped P -> admits mx -> sets_from N P (fun _ => 0%nat) outs base ->
  (forall f Fst, first_admissible stamp N F mx base f Fst -> exists i, (i < N)%nat /\ forall e, In e (F i) -> stamp e <= finish stamp Fst) ->
  the_groups group N F outs.
Proof.
  intros HP HA HS HE. destruct (chain P _ outs base HP HS 0%nat) as (ct & gs & H1 & H2 & H3 & _ & H5).
  { intros i k e _ _. lia. }
  exists gs. split; auto. split; auto. intros g Hg Hpast. apply H5; auto. split; [lia|].
  destruct (le_lt_dec ct g) as [Hle|]; auto. exfalso.
  destruct (HA ct base g H1 Hle Hg) as (f & Fst & g0 & Hf & Hs & Hg0). destruct (HE f Fst Hf) as (i & Hi & Hl).
  destruct (Hpast i Hi) as (e & He & Hge). specialize (Hl e He).
  destruct (finish_in stamp Fst (selects_ne c F Hn _ _ (proj1 Hs))) as (a & Ia & Ea).
  destruct (selects_in c F _ _ _ (proj1 Hs) Ia) as (j & Hj & Na).
  pose proof (gr_apart _ _ _ _ _ HG j i a e Hj Hi (nth_error_In _ _ Na) He) as Hap.
  rewrite (proj2 Hs j a Hj Na) in Hap. specialize (Hap ltac:(lia)).
  pose proof (w_nonneg i e Hi He). lia.
Qed.

(** ** with a maximum interval *)
Notation nxt mx := (next_set stamp N F num den mx tol).

Lemma stepped_narrow : stepped (fun base x X => nxt w base x X /\ span stamp X <= w).
Proof.
  intros ct base x X HC [(HS & Hfr & f & Fst & HA & Hfx & _ & (p & m & Hp & Hxp & Nm & _) & _) Hw].
  destruct (narrow_gsel x X HS Hw) as (g & Hg). exists g.
  assert (Hct : (ct <= g)%nat).
  { destruct (sel_at g x X p Hg Hp) as (e & He & _ & _ & <-). eapply from_cut; eauto. }
  split; auto. split; auto. intros g' Hg' Hc. destruct (complete_sel g' Hc) as (y & Y & Hy).
  pose proof (fa_least _ _ _ _ _ _ _ HA y Y (proj1 Hy) (gsel_from ct base g' y Y HC Hy Hg') (gsel_span _ _ _ Hy) p Hp) as Hle.
  apply (gsel_le g g' x X y Y p); auto. lia.
Qed.

Lemma complete_dec g : {complete group N F g} + {~ complete group N F g}.
Proof.
  destruct (forallb (fun i => existsb (fun e => Nat.eqb (group e) g) (F i)) (seq 0 N)) eqn:Ef.
  - left. intros i Hi. rewrite forallb_forall in Ef. specialize (Ef i ltac:(apply in_seq; lia)).
    apply existsb_exists in Ef as (e & H1 & H2). apply Nat.eqb_eq in H2. eauto.
  - right. intros H. assert (forallb (fun i => existsb (fun e => Nat.eqb (group e) g) (F i)) (seq 0 N) = true); [|congruence].
    apply forallb_forall. intros i Hi. apply in_seq in Hi. apply existsb_exists.
    destruct (H i ltac:(lia)) as (e & H1 & H2). exists e. split; auto. now apply Nat.eqb_eq.
Qed.

Lemma least_complete ct g : (ct <= g)%nat -> complete group N F g ->
  exists g0, (ct <= g0 <= g)%nat /\ complete group N F g0 /\ forall g', (ct <= g')%nat -> complete group N F g' -> (g0 <= g')%nat.
Proof.
  intros Hle Hg. assert (H : forall d, (d <= g - ct)%nat ->
    (exists g0, (ct <= g0 < ct + d)%nat /\ complete group N F g0 /\ forall g', (ct <= g')%nat -> complete group N F g' -> (g0 <= g')%nat) \/
    (forall g', (ct <= g' < ct + d)%nat -> ~ complete group N F g')).
  { induction d as [|d IH]; intros Hd; [right; intros; lia|]. destruct (IH ltac:(lia)) as [(g0 & H1 & H2)|H1]; [left; exists g0; split; auto; lia|].
    destruct (complete_dec (ct + d)) as [Hc|Hc].
    - left. exists (ct + d)%nat. split; [lia|]. split; auto. intros g' H2 H3. destruct (le_lt_dec (ct + d) g') as [|Hlt]; auto.
      exfalso. apply (H1 g' ltac:(lia) H3).
    - right. intros g' H2. destruct (Nat.eq_dec g' (ct + d)) as [->|Hne]; auto. apply H1. lia. }
  destruct (H (g - ct)%nat ltac:(lia)) as [(g0 & H1 & H2)|H1]; [exists g0; split; auto; lia|].
  exists g. split; [lia|]. split; auto. intros g' H2 H3. destruct (le_lt_dec g g'); auto. exfalso. apply (H1 g' ltac:(lia) H3).
Qed.

Lemma admits_narrow : admits w.
Proof.
  intros ct base g HC Hle Hg. destruct (least_complete ct g Hle Hg) as (g0 & [H1 H1'] & H2 & H3).
  destruct (complete_sel g0 H2) as (f & Fst & Hf). exists f, Fst, g0. split; [|auto]. constructor.
  - apply Hf.
  - eapply gsel_from; eauto.
  - eapply gsel_span; eauto.
  - intros y Y HY Hby Hsp. destruct (narrow_gsel y Y HY Hsp) as (g1 & Hg1). eapply gsel_from_le; eauto. apply H3; [|eapply gsel_complete; eauto].
    destruct (sel_at g1 y Y 0%nat Hg1 Hn) as (e & He & _ & _ & <-). eapply from_cut; eauto.
Qed.

(** ** without one, if nothing is missing *)
Variable mx : Z.
Hypothesis HM : none_missing group N F.
Hypothesis Hmx : forall i j a b, (i < N)%nat -> (j < N)%nat -> In a (F i) -> In b (F j) -> stamp a - stamp b <= mx.
Hypothesis Hnum : 0 < den <= num.
Hypothesis Htol : 0 <= tol < den.

Lemma heads_group ct base y Y : Cut ct base -> selects y Y -> from base y -> exists g B, gsel g base B /\ (ct <= g)%nat.
Proof.
  intros HC HY Hf. destruct HM as (G & HPre).
  assert (Hex : forall i, (i < N)%nat -> exists e, nth_error (F i) (base i) = Some e).
  { intros i Hi. destruct (selects_at c F Hn y Y i HY Hi) as (e & He & _). specialize (Hf i Hi).
    destruct (nth_error (F i) (base i)) as [a|] eqn:Ha; [eauto|]. apply nth_error_None in Ha.
    assert (y i < length (F i))%nat by (apply nth_error_Some; congruence). lia. }
  assert (HGn : forall i k e, (i < N)%nat -> nth_error (F i) k = Some e -> nth_error G k = Some (group e)).
  { intros i k e Hi He. destruct (HPre i Hi) as (r & ->). rewrite nth_error_app1; [now rewrite nth_error_map, He|].
    rewrite map_length. apply nth_error_Some. congruence. }
  assert (Hle : forall i j, (i < N)%nat -> (j < N)%nat -> (base j <= base i)%nat).
  { intros i j Hi Hj. destruct (le_lt_dec (base j) (base i)) as [|Hlt]; auto. exfalso.
    destruct (Hex i Hi) as (a & Ha). destruct (Hex j Hj) as (b & Hb).
    destruct (nth_error (F j) (base i)) as [b'|] eqn:Hb'.
    - pose proof (HGn i _ a Hi Ha) as E1. pose proof (HGn j _ b' Hj Hb') as E2. rewrite E1 in E2. injection E2 as E2.
      apply (HC j (base i) b' Hj Hb') in Hlt. rewrite <- E2 in Hlt. apply (HC i (base i) a Hi Ha) in Hlt. lia.
    - apply nth_error_None in Hb'. assert (base j < length (F j))%nat by (apply nth_error_Some; congruence). lia. }
  destruct (selects_exists c F base) as (B & HB). { intros i Hi. destruct (Hex i Hi) as (e & ->). discriminate. }
  destruct (Hex 0%nat Hn) as (a & Ha). exists (group a), B. split; [split; auto|].
  - intros i e Hi He. assert (base i = base 0%nat) by (pose proof (Hle i 0%nat Hi Hn); pose proof (Hle 0%nat i Hn Hi); lia).
    pose proof (HGn i _ e Hi He) as E1. pose proof (HGn 0%nat _ a Hn Ha) as E2. rewrite H, E2 in E1. now injection E1.
  - destruct (le_lt_dec ct (group a)) as [|Hlt]; auto. apply (HC 0%nat _ a Hn Ha) in Hlt. lia.
Qed.

Lemma span_unlimited y Y : selects y Y -> span stamp Y <= mx.
Proof.
  intros HS. unfold span. destruct (finish_in stamp Y (selects_ne c F Hn _ _ HS)) as (a & Ia & <-).
  destruct (start_in stamp Y (selects_ne c F Hn _ _ HS)) as (b & Ib & <-).
  destruct (selects_in c F _ _ _ HS Ia) as (i & Hi & Na). destruct (selects_in c F _ _ _ HS Ib) as (j & Hj & Nb).
  apply (Hmx i j); auto; eapply nth_error_In; eauto.
Qed.

Lemma stepped_unlimited : stepped (nxt mx).
Proof.
  intros ct base x X HC (HS & Hfr & f & Fst & HA & Hfx & (Hst & _) & (p & m & Hp & Hxp & Nm & Hm) & Hopt).
  destruct (heads_group ct base x X HC HS Hfr) as (g & B & HB & Hct).
  pose proof (fa_least _ _ _ _ _ _ _ HA base B (proj1 HB) (from_refl c Hn base) (span_unlimited base B (proj1 HB))) as Hfb.
  assert (Heq : forall i, (i < N)%nat -> f i = base i) by (apply from_antisym; auto; apply HA).
  assert (Fst = B) as -> by (eapply (selects_det N F f base); eauto; [apply HA|apply HB]).
  assert (Hxb : from x base).
  { destruct (Z_le_gt_dec (finish stamp X) (finish stamp B + w)) as [Hle|Hgt].
    - intros i Hi. destruct (le_lt_dec (x i) (base i)) as [|Hlt]; auto. exfalso.
      destruct (sel_at g base B i HB Hi) as (a & Na & _ & _ & Ga). destruct (selects_at c F Hn x X i HS Hi) as (e & Ne & _ & Ie).
      pose proof (strict i _ _ a e Hi Hlt Na Ne) as Hg. pose proof (finish_ge stamp X e Ie) as Hfe.
      destruct (finish_in stamp B (selects_ne c F Hn _ _ (proj1 HB))) as (b & Ib & Eb).
      destruct (selects_in c F _ _ _ (proj1 HB) Ib) as (j & Hj & Nb).
      pose proof (gr_apart _ _ _ _ _ HG j i b e Hj Hi (nth_error_In _ _ Nb) (nth_error_In _ _ Ne)) as Hap.
      rewrite (proj2 HB j b Hj Nb) in Hap. specialize (Hap ltac:(lia)). lia.
    - apply (Hopt base B); auto.
      + apply HB.
      + apply (from_refl c Hn).
      + split; [|lia]. apply start_finish, (selects_ne c F Hn _ _ (proj1 HB)).
      + unfold better_by. pose proof (gsel_span g base B HB) as Hsp. unfold span in Hsp.
        assert (0 <= w).
        { destruct (sel_at g base B 0%nat HB Hn) as (a & Na & _). eapply (w_nonneg 0%nat a); auto. eapply nth_error_In; eauto. }
        intros Hb. assert (num * (finish stamp X - finish stamp B) >= den * (w + 1)) by nia.
        assert (den * (start stamp X - start stamp B) <= den * w) by nia. lia. }
  assert (Hxx : forall i, (i < N)%nat -> x i = base i) by (apply from_antisym; auto).
  exists g. split; auto. split; [split; auto; intros i e Hi He; rewrite Hxx in He by auto; now apply (proj2 HB i e Hi)|].
  intros g' Hg' Hc. destruct (complete_sel g' Hc) as (y & Y & Hy).
  pose proof (gsel_from ct base g' y Y HC Hy Hg' 0%nat Hn). apply (gsel_le g g' base B y Y 0%nat); auto.
Qed.

Lemma admits_unlimited : admits mx.
Proof.
  intros ct base g HC Hle Hg. destruct (complete_sel g Hg) as (y & Y & Hy).
  pose proof (gsel_from ct base g y Y HC Hy Hle) as Hf. destruct (heads_group ct base y Y HC (proj1 Hy) Hf) as (g0 & B & HB & _).
  exists base, B, g0. split; [|split; auto; apply (gsel_le g0 g base B y Y 0%nat); auto]. constructor.
  - apply HB.
  - apply (from_refl c Hn).
  - apply (span_unlimited base), HB.
  - auto.
Qed.
End Proofs.

Lemma sets_from_forall {E} m (P : (nat -> nat) -> (nat -> nat) -> list E -> Prop) (Q : list E -> Prop) base outs base' :
  sets_from m P base outs base' -> Forall Q outs -> sets_from m (fun b x X => P b x X /\ Q X) base outs base'.
Proof. induction 1; intros HQ; [constructor; auto|]. inversion HQ; subst. econstructor; eauto. Qed.
