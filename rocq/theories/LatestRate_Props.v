(** Properties C67-C68: what LatestTime's rate estimation achieves, in exact (rational)
    arithmetic [Ex.qops].  Missing: the rounding of doubles, see LatestDouble_Props.v. *)
From Coq Require Import List Arith ZArith Lia Bool QArith Qabs Qreduction Lqa.
From Verif Require Import Base RclTime Trace Latest_Model Latest_Spec Latest_Proofs Latest_Props Latest_Steady.
Import ListNotations.
Open Scope nat_scope.

Notation ops := Ex.qops.

Lemma secs_eq z : (fsecs ops z == z # 1000000000)%Q.
Proof. apply Qred_correct. Qed.
Lemma inv_eq p : (0 < p)%Z -> (inv ops p == 1000000000 # Z.to_pos p)%Q.
Proof.
  intros H. unfold inv. cbn [fdiv fone Ex.qops]. rewrite Qred_correct, secs_eq. destruct p; try lia.
  reflexivity.
Qed.

Lemma gt_iff a b : fgt ops a b = true <-> (b < a)%Q.
Proof.
  change (fgt ops a b) with (negb (Qle_bool a b)).
  rewrite negb_true_iff, <- not_true_iff_false, Qle_bool_iff. split; [apply Qnot_le_lt|apply Qlt_not_le].
Qed.
Lemma gt_iff_false a b : fgt ops a b = false <-> (a <= b)%Q.
Proof. change (fgt ops a b) with (negb (Qle_bool a b)). now rewrite negb_false_iff, Qle_bool_iff. Qed.

Lemma inv_canon p : Qred (inv ops p) = inv ops p.
Proof. unfold inv. cbn [fdiv fone Ex.qops]. apply Qred_complete, Qred_correct. Qed.

Lemma q_exact : exact_laws ops.
Proof.
  constructor.
  - apply C37_nonvacuous.
  - intros z. apply eq_true_iff_eq. change (feq ops) with Qeq_bool. rewrite Qeq_bool_iff, Z.eqb_eq, secs_eq. unfold Qeq. cbn. lia.
  - intros p q Hp Hq. apply eq_true_iff_eq. rewrite gt_iff, Z.ltb_lt, !inv_eq by auto. unfold Qlt.
    destruct p, q; try lia. cbn [Qnum Qden Z.to_pos]. lia.
  - intros p Hp. apply gt_iff. rewrite inv_eq by auto. reflexivity.
  - intros p Hp. apply gt_iff_false. rewrite inv_eq by auto. unfold Qle. cbn. lia.
  - apply gt_iff_false. apply Qle_refl.
  - intros p z Hz Hzp. apply gt_iff_false. change (fsub ops (inv ops p) (inv ops z)) with (Qred (inv ops p - inv ops z)).
    rewrite Qred_correct, !inv_eq by lia.
    assert (1000000000 # Z.to_pos p <= 1000000000 # Z.to_pos z)%Q.
    { unfold Qle. destruct p, z; try lia. cbn [Qnum Qden Z.to_pos]. lia. }
    change (fzero ops) with 0%Q. lra.
  - intros p. cbn [fabs fsub Ex.qops fzero]. change 0%Q with (Qred 0). apply Qred_complete. rewrite Qred_correct.
    setoid_replace (inv ops p - inv ops p)%Q with 0%Q by ring. reflexivity.
  - intros a. cbn [fmul Ex.qops fzero]. change (Qred (a * 0) = Qred 0). apply Qred_complete. ring.
  - reflexivity.
  - intros a p Hp. rewrite <- (inv_canon p) at 2. cbn [fadd Ex.qops]. apply Qred_complete.
    cbn [fdiv fmul fsub fone Ex.qops]. rewrite !Qred_correct.
    unfold inv. cbn [fdiv fone Ex.qops]. rewrite !Qred_correct. field.
    rewrite secs_eq. unfold Qeq. cbn. lia.
Qed.

(** C67: strictly periodic inputs.  Once an input has two messages it takes part; from then
    on outputs happen exactly on the messages of the fastest input taking part (the lowest
    index among equally fast ones), as soon as every input has a message. *)
Theorem C67_latest_periodic_inputs_exact_partial {E} n d (P start : nat -> Z) k (h : list (op E Q)) i e t s outs s' x :
  (forall j, j < n -> (0 < P j)%Z) ->
  well_indexed n (h ++ [Add i e t]) -> started_in_order n (h ++ [Add i e t]) ->
  on_schedule n P start k (h ++ [Add i e t]) ->
  run ops n d (init n) h = Ok (s, outs) -> run ops n d (init n) (h ++ [Add i e t]) = Ok (s', outs ++ [x]) ->
  (exists set, x = Published set) <->
  (forall j, j < n -> received j (h ++ [Add i e t]) <> []) /\ received i h <> [] /\
  (forall j, j < n -> 2 <= length (received j (h ++ [Add i e t])) -> (P i < P j)%Z \/ P i = P j /\ i <= j).
Proof. intros HP. apply steady; auto. apply q_exact. Qed.

(** C68: the estimate of one input.  [t0] is its first reading, [ts] the later ones. *)
Fixpoint estimate (r : rate Q) (ts : list time) : res (rate Q) :=
  match ts with [] => Ok r | t :: ts' => do '(r', _) <- compute_hz ops t r; estimate r' ts' end.

(** Consecutive readings, of one source and increasing, whose rates lie in [lo, hi]. *)
Fixpoint rates_within (lo hi : Q) (t0 : time) (ts : list time) : Prop :=
  match ts with
  | [] => True
  | t :: ts' => clk t = clk t0 /\ (ns t0 < ns t)%Z /\
                (lo <= 1000000000 # Z.to_pos (ns t - ns t0) <= hi)%Q /\ rates_within lo hi t ts'
  end.

Definition good (lo hi : Q) (r : rate Q) : Prop :=
  (lo <= hz r <= hi)%Q /\ do_hz_init r = false /\ (do_error_init r = false -> (0 <= error r <= hi - lo)%Q).

Lemma convex a x y lo hi : (0 <= a <= 1 -> lo <= x <= hi -> lo <= y <= hi -> lo <= a * x + (1 - a) * y <= hi)%Q.
Proof.
  intros [Ha Ha'] [Hx Hx'] [Hy Hy']. split.
  - assert (0 <= a * (x - lo))%Q by (apply Qmult_le_0_compat; lra).
    assert (0 <= (1 - a) * (y - lo))%Q by (apply Qmult_le_0_compat; lra). lra.
  - assert (0 <= a * (hi - x))%Q by (apply Qmult_le_0_compat; lra).
    assert (0 <= (1 - a) * (hi - y))%Q by (apply Qmult_le_0_compat; lra). lra.
Qed.

Lemma good_step lo hi t r :
  (0 <= rate_alpha (conf r) <= 1)%Q -> (0 <= error_alpha (conf r) <= 1)%Q ->
  clk t = clk (prev r) -> (ns (prev r) < ns t)%Z ->
  (lo <= 1000000000 # Z.to_pos (ns t - ns (prev r)) <= hi)%Q ->
  (do_hz_init r = true -> do_error_init r = true) -> (do_hz_init r = false -> good lo hi r) ->
  exists r', compute_hz ops t r = Ok (r', true) /\ good lo hi r' /\ conf r' = conf r /\ prev r' = t.
Proof.
  intros Ha Hb Hk Ht Hx Hi Hg.
  assert (Hp : (0 < ns t - ns (prev r))%Z) by lia. set (z := (ns t - ns (prev r))%Z) in *.
  assert (Hsub : time_sub t (prev r) = Ok z).
  { unfold time_sub. destruct (clock_eqb_spec (clk t) (clk (prev r))); [reflexivity|congruence]. }
  rewrite <- (inv_eq z Hp) in Hx.
  assert (Hsign : fle ops (fsecs ops z) (fzero ops) = false).
  { rewrite (l_sign _ q_exact). apply Z.leb_gt. exact Hp. }
  assert (Hnz : ~ (fsecs ops z == 0)%Q).
  { rewrite secs_eq. unfold Qeq. cbn. lia. }
  assert (Hema : forall y, (lo <= y <= hi)%Q ->
    (lo <= fadd ops (fdiv ops (rate_alpha (conf r)) (fsecs ops z)) (fmul ops (fsub ops (fone ops) (rate_alpha (conf r))) y) <= hi)%Q).
  { intros y Hy. cbn [fadd fdiv fmul fsub fone Ex.qops]. rewrite !Qred_correct.
    setoid_replace (rate_alpha (conf r) / fsecs ops z)%Q with (rate_alpha (conf r) * inv ops z)%Q.
    - now apply convex.
    - unfold inv. cbn [fdiv fone Ex.qops]. rewrite Qred_correct. field. exact Hnz. }
  assert (Hdelta : forall y, (lo <= y <= hi)%Q -> (0 <= fabs ops (fsub ops y (inv ops z)) <= hi - lo)%Q).
  { intros y Hy. cbn [fabs fsub Ex.qops]. rewrite !Qred_correct. split; [apply Qabs_nonneg|].
    apply Qabs_Qle_condition. lra. }
  assert (Hreset : exists r', Ok (mkRate t (inv ops z) (error r) (conf r) false true, true) = Ok (r', true) /\
            good lo hi r' /\ conf r' = conf r /\ prev r' = t).
  { eexists; split; [reflexivity|]. split; [|split; reflexivity]. split; [exact Hx|]. split; [reflexivity|discriminate]. }
  unfold compute_hz. cbn [hz_loop]. rewrite Hsub, Hsign. fold (inv ops z).
  destruct (do_hz_init r) eqn:Hd.
  - rewrite (Hi eq_refl). exact Hreset.
  - destruct (Hg eq_refl) as (Hh & _ & He). destruct (do_error_init r) eqn:Hde.
    + eexists; split; [reflexivity|]. split; [|split; reflexivity]. split; [now apply Hema|].
      split; [reflexivity|]. intros _. cbn [error]. now apply Hdelta.
    + destruct (fgt ops _ _).
      * cbn [prev do_hz_init hz error conf do_error_init]. rewrite Hsub, Hsign. exact Hreset.
      * eexists; split; [reflexivity|]. split; [|split; reflexivity]. split; [now apply Hema|].
        split; [reflexivity|]. intros _. cbn [error]. specialize (He eq_refl). pose proof (Hdelta _ Hh) as Hdl.
        remember (fabs ops (fsub ops (hz r) (inv ops z))) as dl eqn:Edl. clear Edl.
        cbn [fadd fmul fsub fone Ex.qops]. rewrite !Qred_correct. now apply convex.
Qed.

Lemma good_run lo hi ts : forall r,
  (0 <= rate_alpha (conf r) <= 1)%Q -> (0 <= error_alpha (conf r) <= 1)%Q ->
  (do_hz_init r = true -> do_error_init r = true) -> (do_hz_init r = false -> good lo hi r) ->
  rates_within lo hi (prev r) ts -> ts <> [] ->
  exists r', estimate r ts = Ok r' /\ good lo hi r'.
Proof.
  induction ts as [|t ts IH]; intros r Ha Hb Hi Hg HW Hne; [congruence|].
  destruct HW as (Hk & Ht & Hx & HW). destruct (good_step lo hi t r Ha Hb Hk Ht Hx Hi Hg) as (r' & Hc & Hg' & Hcf & Hpr).
  cbn [estimate]. rewrite Hc. cbn [bind]. destruct ts as [|t2 ts]; [exists r'; auto|].
  pose proof Hg' as (_ & Hd & _). apply IH; auto; try congruence.
Qed.

(** The estimate lies between the smallest and the largest rate observed, and the error
    estimate is at most their distance. *)
Theorem C68_latest_estimate_within_exact_partial t0 ts cf lo hi :
  (0 <= rate_alpha cf <= 1)%Q -> (0 <= error_alpha cf <= 1)%Q ->
  rates_within lo hi t0 ts -> ts <> [] ->
  exists r, estimate (new_rate ops t0 cf) ts = Ok r /\ (lo <= hz r <= hi)%Q /\
            (do_error_init r = false -> (0 <= error r <= hi - lo)%Q).
Proof.
  intros Ha Hb HW Hne. destruct (good_run lo hi ts (new_rate ops t0 cf)) as (r & Hr & Hg & _ & He); auto.
  { discriminate. }
  exists r. auto.
Qed.

(** With a constant period the estimate is exact. *)
Corollary C68_latest_estimate_constant_exact_partial t0 ts cf p :
  (0 <= rate_alpha cf <= 1)%Q -> (0 <= error_alpha cf <= 1)%Q -> (0 < p)%Z ->
  ts = map (fun m => mkTime (ns t0 + p * Z.of_nat m) (clk t0)) (seq 1 (length ts)) -> ts <> [] ->
  exists r, estimate (new_rate ops t0 cf) ts = Ok r /\ (hz r == 1000000000 # Z.to_pos p)%Q.
Proof.
  intros Ha Hb Hp Hts Hne.
  destruct (C68_latest_estimate_within_exact_partial t0 ts cf (1000000000 # Z.to_pos p) (1000000000 # Z.to_pos p)) as (r & Hr & Hh & _); auto.
  - assert (G : forall len m t, t = mkTime (ns t0 + p * Z.of_nat m) (clk t0) ->
      rates_within (1000000000 # Z.to_pos p) (1000000000 # Z.to_pos p) t
        (map (fun m => mkTime (ns t0 + p * Z.of_nat m) (clk t0)) (seq (S m) len))).
    { induction len as [|len IH]; intros m t ->; cbn -[Z.of_nat Z.to_pos]; auto.
      split; [reflexivity|]. split; [lia|].
      replace (ns t0 + p * Z.of_nat (S m) - (ns t0 + p * Z.of_nat m))%Z with p by lia.
      split; [split; apply Qle_refl|]. now apply IH. }
    rewrite Hts. apply G. destruct t0; cbn -[Z.of_nat]. f_equal. lia.
  - exists r. split; auto. apply Qle_antisym; tauto.
Qed.

(** ** Non-vacuity: two inputs with periods 20 ms and 30 ms. *)
Definition C67_h : list (op nat Q) :=
  [Add 0 1 (Ex.T 0); Add 1 2 (Ex.T 10); Add 0 3 (Ex.T 20); Add 1 4 (Ex.T 40); Add 0 5 (Ex.T 40)].
Definition C67_P (i : nat) : Z := match i with O => 20000000 | _ => 30000000 end.
Definition C67_start (i : nat) : Z := match i with O => 0 | _ => 10000000 end.
Example C67_nonvacuous :
  well_indexed 2 C67_h /\ started_in_order 2 C67_h /\ on_schedule 2 C67_P C67_start RosClock C67_h /\
  Ex.go 2 C67_h = Some [Quiet; Quiet; Published [3; 2]; Quiet; Published [5; 4]].
Proof.
  split; [wi; lia|]. split; [|split; [|vm_compute; reflexivity]].
  - intros h1 i j e t h2 Heq Hj. destruct h1 as [|? [|? [|? [|? [|? h1]]]]]; cbn in Heq; inversion Heq; subst; try lia.
    + assert (j = 0) by lia. subst. discriminate.
    + assert (j = 0) by lia. subst. discriminate.
    + destruct h1; discriminate.
  - intros h1 i e t h2 Heq. destruct h1 as [|? [|? [|? [|? [|? h1]]]]]; cbn in Heq; inversion Heq; subst;
      try (split; [reflexivity|]; split; [reflexivity|]; intros [|[|j]] Hj Hr; vm_compute in Hr; try congruence;
           [vm_compute; split; discriminate|vm_compute; split; discriminate|lia]);
      try (split; [reflexivity|]; split; [reflexivity|]; intros [|[|j]] Hj Hr; [..|lia]; try (vm_compute in Hr; congruence);
           vm_compute; split; discriminate).
    destruct h1; discriminate.
Qed.
Example C68_nonvacuous : rates_within 40 60 (Ex.T 0) [Ex.T 20; Ex.T 43; Ex.T 60] /\
  (0 <= rate_alpha Ex.dflt <= 1)%Q /\ (0 <= error_alpha Ex.dflt <= 1)%Q.
Proof.
  split; [|split; split; discriminate].
  cbn [rates_within]. repeat (split; [vm_compute; first [reflexivity|split; discriminate]|]). exact I.
Qed.

Print Assumptions C67_latest_periodic_inputs_exact_partial.
Print Assumptions C68_latest_estimate_within_exact_partial.
Print Assumptions C68_latest_estimate_constant_exact_partial.
