(** Structural proofs about ApproximateTime: no failing check, termination, the shape
    of one iteration, per-input accounting, spans. *)
From Coq Require Import List Arith ZArith Lia Bool Permutation Sorted.
From Verif Require Import Base RclTime Trace Approx_Model.
Import ListNotations.
Local Open Scope Z_scope.

(* ------------------------------------------------------------------ *)
(** Generic list facts *)
Lemma map2_length {A B C} (f : A -> B -> C) la lb :
  length la = length lb -> length (map2 f la lb) = length la.
Proof. revert lb; induction la; destruct lb; cbn; intros; try lia. f_equal; auto. Qed.

Lemma nth_map2 {A B C} (f : A -> B -> C) la lb i da db dc :
  length la = length lb -> (i < length la)%nat ->
  nth i (map2 f la lb) dc = f (nth i la da) (nth i lb db).
Proof.
  revert lb i; induction la; destruct lb; cbn; intros i HL Hi; try lia.
  destruct i; auto. apply IHla; lia.
Qed.

Lemma nth_map_nil {A B} (l : list A) i : nth i (map (fun _ => @nil B) l) [] = [].
Proof. revert i; induction l; destruct i; cbn; auto. Qed.

Lemma nth_repeat_nil {B} k i : nth i (repeat (@nil B) k) [] = [].
Proof. revert i; induction k; destruct i; cbn; auto. Qed.

Lemma nth_nil_out {A} (l : list (list A)) i : (length l <= i)%nat -> nth i l [] = [].
Proof. apply nth_overflow. Qed.

Lemma is_nil_spec {A} (l : list A) : is_nil l = true <-> l = [].
Proof. destruct l; cbn; split; congruence. Qed.

Section P.
Context {E : Type} (stamp : E -> Z) (c : cfg).
Notation state := (state E).
Notation N := (n c).

Definition nz (q : list E) : nat := if is_nil q then 0 else 1.

Lemma count_cons q qs : count_nonempty (q :: qs) = (nz q + count_nonempty (E := E) qs)%nat.
Proof. unfold nz. cbn. destruct (is_nil q); reflexivity. Qed.

Lemma count_le (qs : list (list E)) : (count_nonempty qs <= length qs)%nat.
Proof. induction qs; cbn; auto. destruct (is_nil a); lia. Qed.

Lemma count_full (qs : list (list E)) :
  count_nonempty qs = length qs -> forall i, (i < length qs)%nat -> nth i qs [] <> [].
Proof.
  induction qs as [|q qs IH]; cbn; intros H i Hi; [lia|].
  pose proof (count_le qs).
  destruct q; cbn in H; [lia|].
  destruct i; [discriminate|]. apply IH; lia.
Qed.

Lemma count_full_iff (qs : list (list E)) :
  (forall i, (i < length qs)%nat -> nth i qs [] <> []) -> count_nonempty qs = length qs.
Proof.
  induction qs as [|q qs IH]; cbn; intros H; auto.
  destruct q; cbn.
  - exfalso. apply (H O); [lia|reflexivity].
  - f_equal. apply IH. intros i Hi. apply (H (S i)). lia.
Qed.

Lemma count_upd (qs : list (list E)) i q :
  (i < length qs)%nat ->
  (count_nonempty (upd i q qs) + nz (nth i qs []) = count_nonempty qs + nz q)%nat.
Proof.
  revert i; induction qs as [|a qs IH]; intros i Hi; cbn [length] in Hi; [lia|].
  destruct i; cbn [upd nth].
  - rewrite !count_cons. lia.
  - rewrite !count_cons. specialize (IH i ltac:(lia)). lia.
Qed.

Lemma total_upd (qs : list (list E)) i q :
  (i < length qs)%nat ->
  (total (upd i q qs) + length (nth i qs []) = total qs + length q)%nat.
Proof.
  revert i; induction qs as [|a qs IH]; intros i Hi; cbn [length] in Hi; [lia|].
  destruct i; cbn [upd nth total]; [lia|].
  specialize (IH i ltac:(lia)). lia.
Qed.

Lemma total_map2 (a b : list (list E)) :
  length a = length b -> total (map2 (@app E) a b) = (total a + total b)%nat.
Proof.
  revert b; induction a; destruct b; cbn; intros; try lia.
  rewrite app_length, IHa; lia.
Qed.

Lemma total_nil {A} (l : list A) : total (map (fun _ => @nil E) l) = 0%nat.
Proof. induction l; cbn; auto. Qed.

Lemma fronts_some (qs : list (list E)) :
  (forall i, (i < length qs)%nat -> nth i qs [] <> []) ->
  exists hs, fronts qs = Some hs /\ length hs = length qs /\
    forall i, (i < length qs)%nat -> nth_error hs i = hd_error (nth i qs []).
Proof.
  induction qs as [|q qs IH]; cbn; intros H.
  - exists []. split; auto. split; auto. intros; lia.
  - destruct q as [|x q]; [exfalso; apply (H O); [lia|reflexivity]|].
    destruct IH as (hs & -> & HL & HN).
    { intros i Hi. apply (H (S i)). lia. }
    exists (x :: hs). split; auto. split; [cbn; lia|].
    intros [|i] Hi; cbn; auto. apply HN; lia.
Qed.

Lemma tails_some (qs : list (list E)) :
  (forall i, (i < length qs)%nat -> nth i qs [] <> []) -> tails qs = Some (map (@tl E) qs).
Proof.
  induction qs as [|q qs IH]; cbn; intros H; auto.
  destruct q as [|x q]; [exfalso; apply (H O); [lia|reflexivity]|].
  rewrite IH; auto. intros i Hi. apply (H (S i)). lia.
Qed.

Lemma nth_map_tl (qs : list (list E)) i : nth i (map (@tl E) qs) [] = tl (nth i qs []).
Proof. revert i; induction qs; destruct i; cbn; auto. Qed.

Lemma total_tails (qs : list (list E)) :
  (0 < length qs)%nat -> (forall i, (i < length qs)%nat -> nth i qs [] <> []) ->
  (total (map (@tl E) qs) < total qs)%nat.
Proof.
  destruct qs as [|q qs]; cbn; [lia|]. intros _ H.
  assert (forall l : list (list E), (total (map (@tl E) l) <= total l)%nat) as HA.
  { induction l as [|[|]]; cbn; lia. }
  specialize (HA qs). destruct q; [exfalso; apply (H O); [lia|reflexivity]|]. cbn. lia.
Qed.

(* ------------------------------------------------------------------ *)
(** boundary *)
Lemma boundary_from_spec (e : bool) ts : forall k (all : list Z) (cur : nat * Z),
  (forall j, (j < length ts)%nat -> nth (k + j) all 0 = nth j ts 0) ->
  (k + length ts = length all)%nat ->
  (fst cur < k)%nat -> nth (fst cur) all 0 = snd cur ->
  (forall j, (j < k)%nat -> if e then nth j all 0 <= snd cur else snd cur <= nth j all 0) ->
  let r := boundary_from e k ts cur in
  (fst r < length all)%nat /\ nth (fst r) all 0 = snd r /\
  (forall j, (j < length all)%nat -> if e then nth j all 0 <= snd r else snd r <= nth j all 0).
Proof.
  induction ts as [|t ts IH]; intros k all cur HA HL Hk Hc HB; cbn [length] in *.
  - cbn. split; [lia|]. split; auto. intros j Hj. apply HB; lia.
  - cbn [boundary_from]. apply IH.
    + intros j Hj. specialize (HA (S j) ltac:(lia)). cbn in HA. rewrite <- HA. f_equal. lia.
    + lia.
    + destruct (xorb _ _); cbn; lia.
    + specialize (HA O ltac:(lia)). cbn in HA. rewrite Nat.add_0_r in HA.
      destruct (xorb _ _); cbn; auto.
    + specialize (HA O ltac:(lia)). cbn in HA. rewrite Nat.add_0_r in HA.
      intros j Hj. destruct (Nat.eq_dec j k) as [->|Hn].
      * rewrite HA. destruct (Z.ltb_spec t (snd cur)), e; cbn; lia.
      * specialize (HB j ltac:(lia)).
        destruct (Z.ltb_spec t (snd cur)), e; cbn; auto; lia.
Qed.

Lemma boundary_spec (e : bool) ts :
  (0 < length ts)%nat ->
  let r := boundary e ts in
  (fst r < length ts)%nat /\ nth (fst r) ts 0 = snd r /\
  (forall j, (j < length ts)%nat -> if e then nth j ts 0 <= snd r else snd r <= nth j ts 0).
Proof.
  destruct ts as [|t ts]; cbn [length]; intros H; [lia|].
  cbn [boundary]. apply (boundary_from_spec e ts 1 (t :: ts)); cbn; auto.
  intros j Hj. replace j with O by lia. destruct e; cbn; lia.
Qed.

Lemma boundary_from_first ts : forall k (all : list Z) (cur : nat * Z),
  (forall j, (j < length ts)%nat -> nth (k + j) all 0 = nth j ts 0) ->
  (fst cur < k)%nat ->
  (forall j, (j < fst cur)%nat -> snd cur < nth j all 0) ->
  (forall j, (j < k)%nat -> snd cur <= nth j all 0) ->
  let r := boundary_from false k ts cur in
  forall j, (j < fst r)%nat -> snd r < nth j all 0.
Proof.
  induction ts as [|t ts IH]; intros k all cur HA Hk HF HB; cbn [length] in *; [exact HF|].
  pose proof (HA O ltac:(lia)) as H0. cbn in H0. rewrite Nat.add_0_r in H0.
  cbn [boundary_from]. rewrite xorb_false_r. apply IH.
  - intros j Hj. specialize (HA (S j) ltac:(lia)). cbn in HA. rewrite <- HA. f_equal. lia.
  - destruct (_ <? _); cbn; lia.
  - intros j Hj. destruct (Z.ltb_spec t (snd cur)); cbn in *; auto.
    specialize (HB j Hj). lia.
  - intros j Hj. destruct (Nat.eq_dec j k) as [->|Hn].
    + rewrite H0. destruct (Z.ltb_spec t (snd cur)); cbn; lia.
    + specialize (HB j ltac:(lia)). destruct (Z.ltb_spec t (snd cur)); cbn; lia.
Qed.

(** getCandidateStart takes the first of the earliest. *)
Lemma boundary_first ts j : (j < fst (boundary false ts))%nat ->
  snd (boundary false ts) < nth j ts 0.
Proof.
  destruct ts as [|t ts]; cbn [boundary]; [cbn; lia|].
  apply (boundary_from_first ts 1 (t :: ts)); cbn; auto.
  - lia.
  - intros i Hi. replace i with O by lia. lia.
Qed.

(* ------------------------------------------------------------------ *)
(** Invariant *)
Definition dq (s : state) i := nth i (deques s) [].
Definition pa (s : state) i := nth i (past s) [].

Record WF (s : state) : Prop := {
  wf_dq : length (deques s) = N;
  wf_pa : length (past s) = N;
  wf_dr : length (dropped s) = N;
  wf_num : num s = count_nonempty (deques s)
}.

Definition has_candidate (s : state) : Prop :=
  exists cand, candidate s = Some cand /\ length cand = N /\
    forall i, (i < N)%nat -> nth_error cand i = hd_error (pa s i ++ dq s i).

Definition PInv (s : state) : Prop :=
  match pivot s with
  | None => forall i, pa s i = []
  | Some p =>
      (p < N)%nat /\ has_candidate s /\ pa s p = [] /\
      exists x, hd_error (dq s p) = Some x /\ stamp x = ptime s
  end.

(* pure versions of the state changes *)
Definition mv (i : nat) (s : state) : state :=
  let q := upd i (tl (dq s i)) (deques s) in
  set_queues q (count_nonempty q) (upd i (pa s i ++ firstn 1 (dq s i)) (past s)) s.
Definition del (i : nat) (s : state) : state :=
  let q := upd i (tl (dq s i)) (deques s) in
  set_queues q (count_nonempty q) (past s) s.
Definition pub (s : state) : state :=
  let q := map (@tl E) (pending s) in
  mkState q (count_nonempty q) (map (fun _ => []) (past s)) None (cstart s) (cend s) None
          (ptime s) (dropped s) (warned s).
Definition better_heads (s : state) (st et : Z) : bool :=
  negb (st - cstart s <=? scale c (et - cend s)).
Definition choose (hs : list E) (st et : Z) (ei : nat) (s : state) : state :=
  match pivot s with
  | None => mkState (deques s) (num s) (map (fun _ => []) (past s)) (Some hs) st et
                    (Some ei) et (dropped s) (warned s)
  | Some p =>
      if better_heads s st et then
        mkState (deques s) (num s) (map (fun _ => []) (past s)) (Some hs) st et
                (Some p) (ptime s) (dropped s) (warned s)
      else s
  end.

Lemma move_front_ok i s :
  WF s -> (i < N)%nat -> dq s i <> [] -> move_front i s = Ok (mv i s).
Proof.
  intros [H1 H2 H3 H4] Hi Hq. unfold move_front, mv, dq, pa in *.
  rewrite (nth_error_nth' _ []) by lia.
  pose proof (count_upd (deques s) i (tl (nth i (deques s) [])) ltac:(lia)) as HC.
  destruct (nth i (deques s) []) as [|x q] eqn:Eq; [congruence|].
  cbn [tl firstn] in *. f_equal. unfold set_queues. f_equal.
  unfold nz in HC. cbn in HC. destruct (is_nil q); lia.
Qed.

Lemma delete_front_ok i s :
  WF s -> (i < N)%nat -> dq s i <> [] -> delete_front i s = Ok (del i s).
Proof.
  intros [H1 H2 H3 H4] Hi Hq. unfold delete_front, del, dq, pa in *.
  rewrite (nth_error_nth' _ []) by lia.
  pose proof (count_upd (deques s) i (tl (nth i (deques s) [])) ltac:(lia)) as HC.
  destruct (nth i (deques s) []) as [|x q] eqn:Eq; [congruence|].
  cbn [tl firstn] in *. f_equal. unfold set_queues. f_equal.
  unfold nz in HC. cbn in HC. destruct (is_nil q); lia.
Qed.

Lemma nth_pending s i : WF s -> nth i (pending s) [] = pa s i ++ dq s i.
Proof.
  intros [H1 H2 _ _]. unfold pending, pa, dq.
  destruct (lt_dec i N) as [Hi|Hi].
  - apply nth_map2; lia.
  - rewrite !nth_overflow; auto; try lia. rewrite map2_length; lia.
Qed.

Lemma pending_length s : WF s -> length (pending s) = N.
Proof. intros [H1 H2 _ _]. unfold pending. rewrite map2_length; lia. Qed.

Lemma publish_ok s :
  WF s -> has_candidate s ->
  exists cand, candidate s = Some cand /\ publish s = Ok (pub s, [cand]).
Proof.
  intros HW (cand & Hc & HL & Hh). exists cand. split; auto.
  unfold publish. rewrite Hc.
  rewrite (tails_some (map2 (@app E) (past s) (deques s))).
  - reflexivity.
  - fold (pending s). intros i Hi. rewrite pending_length in Hi by auto.
    rewrite nth_pending by auto. specialize (Hh i Hi).
    destruct (pa s i ++ dq s i); [|discriminate].
    cbn in Hh. apply nth_error_None in Hh. lia.
Qed.

Lemma mv_dq i j s : (length (deques s) = N) -> (i < N)%nat ->
  dq (mv i s) j = if Nat.eq_dec i j then tl (dq s j) else dq s j.
Proof.
  intros HL Hi. unfold mv, dq. cbn. destruct (Nat.eq_dec i j) as [<-|Hn].
  - rewrite nth_upd_eq by lia. reflexivity.
  - now rewrite nth_upd_neq.
Qed.

Lemma mv_pa i j s : (length (past s) = N) -> (i < N)%nat ->
  pa (mv i s) j = if Nat.eq_dec i j then pa s j ++ firstn 1 (dq s j) else pa s j.
Proof.
  intros HL Hi. unfold mv, pa. cbn. destruct (Nat.eq_dec i j) as [<-|Hn].
  - rewrite nth_upd_eq by lia. reflexivity.
  - now rewrite nth_upd_neq.
Qed.

Lemma firstn1_tl {A} (l : list A) : firstn 1 l ++ tl l = l.
Proof. destruct l; reflexivity. Qed.

Lemma mv_pend i j s : WF s -> (i < N)%nat ->
  pa (mv i s) j ++ dq (mv i s) j = pa s j ++ dq s j.
Proof.
  intros [H1 H2 _ _] Hi. rewrite mv_pa, mv_dq by auto.
  destruct (Nat.eq_dec i j); auto. now rewrite <- app_assoc, firstn1_tl.
Qed.

Lemma mv_WF i s : WF s -> WF (mv i s).
Proof. intros [H1 H2 H3 H4]. split; cbn; rewrite ?upd_length; auto. Qed.

Lemma del_WF i s : WF s -> WF (del i s).
Proof. intros [H1 H2 H3 H4]. split; cbn; rewrite ?upd_length; auto. Qed.

Lemma pub_WF s : WF s -> WF (pub s).
Proof.
  intros HW. pose proof (pending_length s HW). destruct HW as [H1 H2 H3 H4].
  split; cbn; rewrite ?map_length; auto.
Qed.

Lemma choose_WF hs st et ei s : WF s -> WF (choose hs st et ei s).
Proof.
  intros [H1 H2 H3 H4]. unfold choose.
  destruct (pivot s); [destruct (better_heads _ _ _)|]; split; cbn; rewrite ?map_length; auto.
Qed.

Lemma keep_only_length i k l : length (keep_only_from i k l) = length l.
Proof. revert i; induction l; cbn; auto. Qed.

Lemma clear_WF k s : WF s -> WF (clear_dropped k s).
Proof. intros [H1 H2 H3 H4]. split; cbn; rewrite ?keep_only_length; auto. Qed.

Lemma choose_dq hs st et ei s : deques (choose hs st et ei s) = deques s.
Proof. unfold choose. destruct (pivot s); [destruct (better_heads _ _ _)|]; reflexivity. Qed.

(* ------------------------------------------------------------------ *)
(** The virtual search *)
Definition vtime (pt : Z) (i : nat) (v q : list E) : Z :=
  match q with
  | x :: _ => stamp x
  | [] => match rev v with
          | [] => 0
          | l :: _ => Z.max pt (stamp l + bound c i)
          end
  end.

(** What a successful virtual search has established, with the candidate's start and
    end [cs], [ce] and the pivot time [pt]. *)
Inductive vproof (cs ce pt : Z) (vs qs : list (list E)) : Prop :=
| vp_done ei :
    (ei < N)%nat ->
    pt - cs <= scale c (vtime pt ei (nth ei vs []) (nth ei qs []) - ce) ->
    vproof cs ce pt vs qs
| vp_move ei si x q' :
    (ei < N)%nat -> (si < N)%nat -> nth si qs [] = x :: q' ->
    stamp x - cs <= scale c (vtime pt ei (nth ei vs []) (nth ei qs []) - ce) ->
    vproof cs ce pt (upd si (nth si vs [] ++ [x]) vs) (upd si q' qs) ->
    vproof cs ce pt vs qs.

Lemma virtual_times_ok s p :
  pivot s = Some p ->
  forall vs qs k, length vs = length qs ->
  (forall i, (i < length qs)%nat -> nth i vs [] ++ nth i qs [] <> []) ->
  exists ts, virtual_times_from stamp c s k vs qs = Ok ts /\ length ts = length qs /\
    forall i, (i < length qs)%nat -> nth i ts 0 = vtime (ptime s) (k + i) (nth i vs []) (nth i qs []).
Proof.
  intros Hp. induction vs as [|v vs IH]; intros [|q qs] k HL HN; cbn [length] in *; try lia.
  - exists []. split; auto. split; auto. intros; lia.
  - destruct (IH qs (S k) ltac:(lia)) as (ts & E1 & HLt & Ht).
    { intros i Hi. apply (HN (S i)). lia. }
    assert (virtual_time stamp c s k v q = Ok (vtime (ptime s) k v q)) as EV.
    { unfold virtual_time, vtime. rewrite Hp. destruct q; auto.
      destruct (rev v) as [|l rv] eqn:Er.
      - exfalso. apply (HN O); [lia|]. cbn. rewrite app_nil_r.
        apply (f_equal (@rev E)) in Er. now rewrite rev_involutive in Er.
      - destruct (Z.ltb_spec (ptime s) (stamp l + bound c k)).
        + rewrite Z.max_r by lia. reflexivity.
        + rewrite Z.max_l by lia. reflexivity. }
    exists (vtime (ptime s) k v q :: ts). cbn [virtual_times_from].
    rewrite EV. cbn [bind]. rewrite E1. cbn [bind].
    split; auto. split; [cbn; lia|].
    intros [|i] Hi; cbn [nth].
    + now rewrite Nat.add_0_r.
    + rewrite Ht by lia. f_equal. lia.
Qed.

(** [vs] is a state of the virtual search started in [s]: [mvs i] messages of input [i]
    were moved from the deque to the past vector. *)
Definition vrel (s vs : state) (mvs : list nat) : Prop :=
  vs = set_queues (deques vs) (num vs) (past vs) s /\
  WF vs /\ length mvs = N /\
  forall i, (i < N)%nat ->
    exists m, pa vs i = pa s i ++ m /\ m ++ dq vs i = dq s i /\ length m = nth i mvs 0%nat.

Lemma vrel_fields s vs mvs : vrel s vs mvs ->
  candidate vs = candidate s /\ cstart vs = cstart s /\ cend vs = cend s /\
  pivot vs = pivot s /\ ptime vs = ptime s /\ dropped vs = dropped s /\ warned vs = warned s.
Proof. intros (-> & _). cbn. do 6 (split; [reflexivity|]). reflexivity. Qed.

Lemma vrel_pend s vs mvs i : vrel s vs mvs -> (i < N)%nat ->
  pa vs i ++ dq vs i = pa s i ++ dq s i.
Proof.
  intros (_ & _ & _ & H) Hi. destruct (H i Hi) as (m & -> & <- & _). now rewrite app_assoc.
Qed.

Lemma all_le_ok ks (vs : list (list E)) :
  length ks = length vs ->
  (forall i, (i < length ks)%nat -> (nth i ks 0 <= length (nth i vs []))%nat) -> all_le ks vs = true.
Proof.
  revert vs; induction ks as [|k ks IH]; intros [|v vs] HL H; cbn in *; auto; try lia.
  rewrite IH; [|lia|].
  - rewrite andb_true_r. apply Nat.leb_le. apply (H O). lia.
  - intros i Hi. apply (H (S i)). lia.
Qed.

Lemma recover_some_ok s vs mvs :
  WF s -> vrel s vs mvs -> recover_some mvs vs = Ok s.
Proof.
  intros HW HV. pose proof (vrel_fields _ _ _ HV) as HF.
  destruct HV as (Es & [H1 H2 H3 H4] & HL & HR). destruct HW as [K1 K2 K3 K4].
  unfold recover_some. rewrite all_le_ok.
  - assert (map2 (fun kv q => recover_back (fst kv) (snd kv) q)
                 (map2 pair mvs (past vs)) (deques vs) = deques s) as ED.
    { apply (list_eq_nth []).
      - rewrite map2_length; rewrite map2_length; lia.
      - intros i _. destruct (lt_dec i N) as [Hi|Hi].
        + rewrite (nth_map2 _ _ _ i (0%nat, []) []) by (rewrite ?map2_length; lia).
          rewrite (nth_map2 _ _ _ i 0%nat []) by lia. cbn [fst snd].
          destruct (HR i Hi) as (m & E1 & E2 & E3). unfold pa, dq in *.
          rewrite E1, <- E3. unfold recover_back. rewrite app_length.
          replace (_ + _ - _)%nat with (length (nth i (past s) [])) by lia.
          rewrite skipn_app, skipn_all, Nat.sub_diag. cbn. exact E2.
        + rewrite !nth_overflow; auto; try lia.
          rewrite map2_length; rewrite map2_length; lia. }
    assert (map2 recover_keep mvs (past vs) = past s) as EP.
    { apply (list_eq_nth []).
      - rewrite map2_length; lia.
      - intros i _. destruct (lt_dec i N) as [Hi|Hi].
        + rewrite (nth_map2 _ _ _ i 0%nat []) by lia.
          destruct (HR i Hi) as (m & E1 & E2 & E3). unfold pa, dq in *.
          rewrite E1, <- E3. unfold recover_keep. rewrite app_length.
          replace (_ + _ - _)%nat with (length (nth i (past s) [])) by lia.
          rewrite firstn_app, firstn_all, Nat.sub_diag. cbn. apply app_nil_r.
        + rewrite !nth_overflow; auto; try lia. rewrite map2_length; lia. }
    cbv zeta. rewrite ED, EP. f_equal.
    destruct HF as (F1 & F2 & F3 & F4 & F5 & F6 & F7).
    unfold set_queues. rewrite F1, F2, F3, F4, F5, F6, F7, <- K4. destruct s; reflexivity.
  - lia.
  - intros i Hi. destruct (HR i ltac:(lia)) as (m & E1 & E2 & E3). unfold pa in *.
    rewrite E1, app_length. lia.
Qed.

Lemma pub_vrel s vs mvs : WF s -> vrel s vs mvs -> pub vs = pub s.
Proof.
  intros HW HV. pose proof (vrel_fields _ _ _ HV) as (F1 & F2 & F3 & F4 & F5 & F6 & F7).
  pose proof HV as (_ & HWv & _ & _).
  assert (pending vs = pending s) as EP.
  { apply (list_eq_nth []).
    - rewrite !pending_length; auto.
    - intros i _. rewrite !nth_pending by auto. destruct (lt_dec i N) as [Hi|Hi].
      + eapply vrel_pend; eauto.
      + destruct HW, HWv. unfold pa, dq. rewrite !nth_overflow; auto; lia. }
  assert (map (fun _ => @nil E) (past vs) = map (fun _ => []) (past s)) as EQ.
  { destruct HW, HWv. apply (list_eq_nth []).
    - rewrite !map_length. lia.
    - intros i _. now rewrite !nth_map_nil. }
  unfold pub. now rewrite EP, EQ, F2, F3, F5, F6, F7.
Qed.

Lemma has_candidate_vrel s vs mvs : vrel s vs mvs -> has_candidate s -> has_candidate vs.
Proof.
  intros HV (cand & H1 & H2 & H3).
  destruct (vrel_fields _ _ _ HV) as (F1 & _).
  exists cand. rewrite F1. split; auto. split; auto.
  intros i Hi. rewrite H3 by auto. now erewrite <- vrel_pend by eauto.
Qed.

Lemma virtual_search_ok s p x :
  WF s -> (0 < N)%nat -> pivot s = Some p -> (p < N)%nat -> has_candidate s ->
  forall fuel vs mvs,
  vrel s vs mvs -> (total (deques vs) < fuel)%nat ->
  hd_error (dq vs p) = Some x -> stamp x = ptime s ->
  (exists cand, candidate s = Some cand /\
     virtual_search stamp c fuel (num s) mvs vs = Ok (pub s, [cand]) /\
     vproof (cstart s) (cend s) (ptime s) (past vs) (deques vs)) \/
  virtual_search stamp c fuel (num s) mvs vs = Ok (s, []).
Proof.
  intros HW Hn Hp HpN HC. induction fuel as [|fuel IH]; intros vs mvs HV HF Hx Hpt; [lia|].
  pose proof (vrel_fields _ _ _ HV) as (F1 & F2 & F3 & F4 & F5 & F6 & F7).
  pose proof HV as (_ & HWv & HLm & HR).
  pose proof (has_candidate_vrel _ _ _ HV HC) as HCv.
  pose proof HWv as [L1 L2 L3 L4].
  cbn [virtual_search]. unfold virtual_times.
  destruct (virtual_times_ok vs p ltac:(congruence) (past vs) (deques vs) 0 ltac:(lia))
    as (ts & -> & HLt & Ht).
  { intros i Hi. destruct HCv as (cand & _ & HLc & HN).
    specialize (HN i ltac:(lia)). unfold pa, dq in HN. intros HE. rewrite HE in HN. cbn in HN.
    apply nth_error_None in HN. lia. }
  cbn [bind].
  pose proof (boundary_spec true ts ltac:(lia)) as (B1 & B2 & B3).
  pose proof (boundary_spec false ts ltac:(lia)) as (C1 & C2 & C3).
  destruct (boundary true ts) as (ei & et). destruct (boundary false ts) as (si & st).
  cbn [fst snd] in *.
  rewrite F2, F3, F4, F5, Hp.
  assert (et = vtime (ptime s) ei (nth ei (past vs) []) (nth ei (deques vs) [])) as Eet.
  { rewrite <- B2, Ht by lia. rewrite F5. reflexivity. }
  destruct (Z.leb_spec (ptime s - cstart s) (scale c (et - cend s))) as [HP|HP].
  { left. destruct (publish_ok vs HWv HCv) as (cand & Ec & ->).
    exists cand. rewrite F1 in Ec. split; auto. split.
    - now rewrite (pub_vrel s vs mvs).
    - apply vp_done with (ei := ei); [lia|]. now rewrite <- Eet. }
  destruct (Z.ltb_spec (scale c (et - cend s)) (st - cstart s)) as [HQ|HQ].
  { right. rewrite (recover_some_ok s vs mvs) by auto. cbn [bind]. now rewrite Nat.eqb_refl. }
  assert (st < ptime s) as Hst by lia.
  assert (nth p ts 0 = ptime s) as Htp.
  { rewrite Ht by lia. cbn [Nat.add]. unfold vtime. unfold dq in Hx.
    destruct (nth p (deques vs) []); [discriminate|]. cbn in Hx. congruence. }
  destruct (Nat.eqb_spec si p) as [->|Hsp]; [lia|].
  destruct (Z.ltb_spec st (ptime s)); [|lia]. cbn [negb].
  (* the deque of si is not empty *)
  assert (exists y q', dq vs si = y :: q' /\ stamp y = st) as (y & q' & Ey & Hy).
  { rewrite Ht in C2 by lia. cbn [Nat.add] in C2. unfold vtime in C2. unfold dq.
    destruct (nth si (deques vs) []) as [|y q'] eqn:Eq; [|exists y, q'; auto].
    destruct (rev (nth si (past vs) [])) as [|l rv] eqn:Er.
    - exfalso. destruct HCv as (cand & _ & HLc & HN). specialize (HN si ltac:(lia)).
      unfold pa, dq in HN. apply (f_equal (@rev E)) in Er. rewrite rev_involutive in Er.
      cbn in Er. rewrite Eq, Er in HN. cbn in HN. apply nth_error_None in HN. lia.
    - rewrite F5 in C2. lia. }
  rewrite move_front_ok by (try (rewrite Ey); auto; try discriminate; lia).
  cbn [bind].
  assert (vrel s (mv si vs) (upd si (S (nth si mvs 0%nat)) mvs)) as HV'.
  { split; [|split; [|split]].
    - unfold mv, set_queues. cbn. now rewrite F1, F2, F3, F4, F5, F6, F7.
    - now apply mv_WF.
    - rewrite upd_length. auto.
    - intros i Hi. destruct (HR i Hi) as (m & E1 & E2 & E3).
      rewrite mv_pa, mv_dq by (auto; lia). destruct (Nat.eq_dec si i) as [->|Hne].
      + exists (m ++ [y]). rewrite Ey. cbn [firstn tl]. split; [now rewrite E1, app_assoc|].
        split; [rewrite <- app_assoc; cbn; now rewrite <- Ey|].
        rewrite nth_upd_eq by lia. rewrite app_length. cbn. lia.
      + exists m. split; auto. split; auto. rewrite nth_upd_neq by congruence. auto. }
  assert (total (deques (mv si vs)) < fuel)%nat as HF'.
  { unfold mv. cbn. pose proof (total_upd (deques vs) si (tl (dq vs si)) ltac:(lia)) as HT.
    unfold dq in *. rewrite Ey in HT |- *. cbn [tl length] in *. lia. }
  destruct (IH (mv si vs) (upd si (S (nth si mvs 0%nat)) mvs) HV' HF') as [(cand & Ec & Ev & HVP)|Ev].
  - rewrite mv_dq by (auto; lia). destruct (Nat.eq_dec si p); [congruence|]. exact Hx.
  - exact Hpt.
  - left. exists cand. split; auto. split; auto.
    apply vp_move with (ei := ei) (si := si) (x := y) (q' := q'); try lia; auto.
    + rewrite <- Eet. lia.
    + unfold mv in HVP. cbn in HVP. rewrite Ey in HVP. cbn [tl firstn] in HVP. exact HVP.
  - right. exact Ev.
Qed.

(* ------------------------------------------------------------------ *)
(** One iteration *)
Lemma keep_only_nth k l : forall i j, nth j (keep_only_from i k l) false =
  if Nat.eqb (i + j) k then nth j l false else false.
Proof.
  induction l as [|b l IH]; intros i j; cbn [keep_only_from].
  - destruct j; cbn; destruct (Nat.eqb _ _); auto.
  - destruct j; cbn [nth].
    + now rewrite Nat.add_0_r.
    + rewrite IH. replace (S i + j)%nat with (i + S j)%nat by lia. reflexivity.
Qed.

Definition heads (s : state) (hs : list E) : Prop :=
  length hs = N /\ forall i, (i < N)%nat -> nth_error hs i = hd_error (dq s i).

(** [ei]/[et] the latest and [si]/[st] the earliest of the heads. *)
Record extremes (hs : list E) (ei : nat) (et : Z) (si : nat) (st : Z) : Prop := {
  ex_ei : (ei < length hs)%nat;
  ex_si : (si < length hs)%nat;
  ex_et : exists e, nth_error hs ei = Some e /\ stamp e = et;
  ex_st : exists e, nth_error hs si = Some e /\ stamp e = st;
  ex_all : forall i e, nth_error hs i = Some e -> st <= stamp e <= et;
  ex_first : forall i e, (i < si)%nat -> nth_error hs i = Some e -> st < stamp e
}.

Lemma boundary_extremes (hs : list E) :
  (0 < length hs)%nat ->
  let b1 := boundary true (map stamp hs) in
  let b2 := boundary false (map stamp hs) in
  extremes hs (fst b1) (snd b1) (fst b2) (snd b2).
Proof.
  intros HL b1 b2.
  pose proof (boundary_spec true (map stamp hs) ltac:(rewrite map_length; lia)) as (B1 & B2 & B3).
  pose proof (boundary_spec false (map stamp hs) ltac:(rewrite map_length; lia)) as (C1 & C2 & C3).
  fold b1 in B1, B2, B3. fold b2 in C1, C2, C3.
  rewrite map_length in *.
  assert (forall i, (i < length hs)%nat ->
            exists e, nth_error hs i = Some e /\ nth i (map stamp hs) 0 = stamp e) as HA.
  { intros i Hi. destruct (nth_error hs i) as [e|] eqn:Ee.
    - exists e. split; auto. apply nth_error_nth. now apply map_nth_error.
    - apply nth_error_None in Ee. lia. }
  split; auto.
  - destruct (HA _ B1) as (e & Ee & En). exists e. split; auto. congruence.
  - destruct (HA _ C1) as (e & Ee & En). exists e. split; auto. congruence.
  - intros i e Ee.
    assert (i < length hs)%nat as Hi by (apply nth_error_Some; congruence).
    specialize (B3 i Hi). specialize (C3 i Hi).
    rewrite (nth_error_nth (map stamp hs) i 0 (map_nth_error stamp i hs Ee)) in *. lia.
  - intros i e Hi Ee. pose proof (boundary_first (map stamp hs) i Hi) as HF.
    now rewrite (nth_error_nth (map stamp hs) i 0 (map_nth_error stamp i hs Ee)) in HF.
Qed.

Lemma clear_dq k s i : dq (clear_dropped k s) i = dq s i. Proof. reflexivity. Qed.
Lemma clear_pa k s i : pa (clear_dropped k s) i = pa s i. Proof. reflexivity. Qed.

Lemma clear_PInv k s : PInv s -> PInv (clear_dropped k s).
Proof. intros H. exact H. Qed.

Lemma choose_PInv hs ei et si st s :
  WF s -> PInv s -> heads s hs -> extremes hs ei et si st ->
  exists p, pivot (choose hs st et ei s) = Some p /\ PInv (choose hs st et ei s).
Proof.
  intros HW HP [HL HH] HX. pose proof HW as [W1 W2 W3 W4].
  assert (has_candidate (mkState (deques s) (num s) (map (fun _ => []) (past s)) (Some hs) st et
                    (Some ei) et (dropped s) (warned s))) as HC.
  { exists hs. cbn. split; auto. split; auto.
    intros i Hi. unfold pa. cbn. rewrite nth_map_nil. cbn. now apply HH. }
  unfold choose. unfold PInv in HP. destruct (pivot s) as [p|] eqn:Ep.
  - destruct (better_heads s st et).
    + exists p. split; auto. cbn. destruct HP as (P1 & P2 & P3 & P4).
      split; auto. split; [exact HC|]. split; [unfold pa; cbn; apply nth_map_nil|]. exact P4.
    + exists p. rewrite Ep. split; auto. unfold PInv. rewrite Ep. auto.
  - exists ei. split; auto. cbn. destruct HX as [X1 X2 (e & X3 & X4) X5 X6].
    rewrite HL in X1.
    split; auto. split; [exact HC|]. split; [unfold pa; cbn; apply nth_map_nil|].
    exists e. split; auto. rewrite HH in X3 by auto. exact X3.
Qed.

Lemma has_candidate_mv i s : WF s -> (i < N)%nat -> has_candidate s -> has_candidate (mv i s).
Proof.
  intros HW Hi (cand & H1 & H2 & H3). exists cand. split; auto. split; auto.
  intros j Hj. rewrite mv_pend by auto. auto.
Qed.

Definition justified (si : nat) (et : Z) (p : nat) (s2 : state) : Prop :=
  si = p \/ ptime s2 - cstart s2 <= scale c (et - cend s2) \/
  vproof (cstart s2) (cend s2) (ptime s2) (past s2) (deques s2).

Inductive step_kind (s : state) (hs : list E) (ei : nat) (et : Z) (si : nat) (st : Z)
  : state -> list (list E) -> Prop :=
| sk_delete :
    pivot s = None ->
    (max_interval c < et - st \/ nth ei (dropped s) false = true) ->
    step_kind s hs ei et si st (del si (clear_dropped ei s)) []
| sk_publish p cand :
    (pivot s = None -> et - st <= max_interval c /\ nth ei (dropped s) false = false) ->
    let s2 := mv si (choose hs st et ei (clear_dropped ei s)) in
    pivot s2 = Some p -> candidate s2 = Some cand -> justified si et p s2 ->
    step_kind s hs ei et si st (pub s2) [cand]
| sk_search p :
    (pivot s = None -> et - st <= max_interval c /\ nth ei (dropped s) false = false) ->
    let s2 := mv si (choose hs st et ei (clear_dropped ei s)) in
    pivot s2 = Some p -> si <> p ->
    scale c (et - cend s2) < ptime s2 - cstart s2 ->
    step_kind s hs ei et si st s2 [].

Lemma conclude_ok hs ei et si st s :
  WF s -> PInv s -> (0 < N)%nat -> heads s hs -> extremes hs ei et si st ->
  let s1 := choose hs st et ei s in
  let s2 := mv si s1 in
  exists p cand, pivot s2 = Some p /\ candidate s2 = Some cand /\
    ((conclude stamp c si et s2 = Ok (pub s2, [cand]) /\ justified si et p s2) \/
     (conclude stamp c si et s2 = Ok (s2, []) /\ si <> p /\
       scale c (et - cend s2) < ptime s2 - cstart s2)).
Proof.
  intros HW HP Hn HH HX s1 s2.
  pose proof (choose_PInv hs ei et si st s HW HP HH HX) as (p & Ep & HP1).
  fold s1 in Ep, HP1.
  assert (WF s1) as HW1 by (now apply choose_WF).
  assert (WF s2) as HW2 by (now apply mv_WF).
  assert (si < N)%nat as Hsi by (destruct HX, HH; lia).
  unfold PInv in HP1. rewrite Ep in HP1. destruct HP1 as (Hp & HC & Hpp & x & Hx & Hpt).
  assert (has_candidate s2) as HC2 by (now apply has_candidate_mv).
  assert (pivot s2 = Some p) as Ep2 by exact Ep.
  pose proof HC2 as (cand & Ec & _).
  exists p, cand. split; auto. split; auto.
  unfold conclude. rewrite Ep2.
  destruct (publish_ok s2 HW2 HC2) as (cand' & Ec' & Epub).
  assert (cand' = cand) as -> by congruence.
  destruct (Nat.eqb_spec si p) as [->|Hne].
  { left. split; auto. left; auto. }
  destruct (Z.leb_spec (ptime s2 - cstart s2) (scale c (et - cend s2))) as [Hle|Hlt].
  { left. split; auto. right; left; auto. }
  destruct (Nat.ltb_spec (num s2) N) as [Hlt'|Hge].
  2: { right. auto. }
  destruct (virtual_search_ok s2 p x HW2 Hn Ep2 Hp HC2 (S (total (deques s2))) s2 (repeat 0%nat N))
    as [(cand' & E1 & E2 & HVP)|E1].
  - split; [destruct s2; reflexivity|]. split; auto. split; [apply repeat_length|].
    intros i Hi. exists []. rewrite app_nil_r. split; auto. split; auto.
    cbn. now rewrite nth_repeat.
  - lia.
  - destruct HW1. unfold s2. rewrite mv_dq by auto. destruct (Nat.eq_dec si p); [congruence|]. auto.
  - exact Hpt.
  - assert (cand' = cand) as -> by congruence. left. split; auto. right; right; auto.
  - right. split; auto.
Qed.

Lemma iteration_cases s :
  WF s -> PInv s -> (0 < N)%nat -> num s = N ->
  exists hs ei et si st s' o,
    heads s hs /\ extremes hs ei et si st /\
    iteration stamp c s = Ok (s', o) /\ step_kind s hs ei et si st s' o.
Proof.
  intros HW HP Hn Hnum. pose proof HW as [W1 W2 W3 W4].
  assert (forall i, (i < length (deques s))%nat -> nth i (deques s) [] <> []) as HNE.
  { apply count_full. congruence. }
  destruct (fronts_some _ HNE) as (hs & Ef & HL & Hf).
  assert (heads s hs) as HH.
  { split; [congruence|]. intros i Hi. apply Hf. lia. }
  pose proof (boundary_extremes hs ltac:(lia)) as HX. cbv zeta in HX.
  unfold iteration. rewrite Ef.
  destruct (boundary true (map stamp hs)) as (ei & et).
  destruct (boundary false (map stamp hs)) as (si & st).
  cbn [fst snd] in HX.
  assert (si < N)%nat as Hsi by (destruct HX; lia).
  assert (ei < N)%nat as Hei by (destruct HX; lia).
  set (s0 := clear_dropped ei s).
  assert (WF s0) as HW0 by (now apply clear_WF).
  assert (PInv s0) as HP0 by (now apply clear_PInv).
  assert (heads s0 hs) as HH0 by exact HH.
  assert (nth ei (dropped s0) false = nth ei (dropped s) false) as Edr.
  { cbn. rewrite keep_only_nth. cbn. now rewrite Nat.eqb_refl. }
  pose proof (conclude_ok hs ei et si st s0 HW0 HP0 Hn HH0 HX) as (p & cand & Ep & Ec & HCon).
  assert (dq s0 si <> []) as Hdq by (apply HNE; lia).
  assert (forall s1, WF s1 -> deques s1 = deques s0 -> move_front si s1 = Ok (mv si s1)) as Hmv.
  { intros s1 HW1 Ed. apply move_front_ok; auto. unfold dq. rewrite Ed. exact Hdq. }
  assert (Hmk : forall s1 a b, deques s1 = deques s0 -> make_candidate a b s1 =
      Ok (mkState (deques s1) (num s1) (map (fun _ => []) (past s1)) (Some hs) a b
                  (pivot s1) (ptime s1) (dropped s1) (warned s1))).
  { intros s1 a b Ed. unfold make_candidate. rewrite Ed. cbn [s0 clear_dropped deques]. now rewrite Ef. }
  pose proof (choose_WF hs st et ei s0 HW0) as HWc.
  destruct (pivot s0) as [p0|] eqn:Ep0.
  - (* a pivot exists *)
    assert (pivot s = Some p0) as Eps by exact Ep0.
    assert (Hit : (if st - cstart s0 <=? scale c (et - cend s0)
       then do s2 <- move_front si s0; conclude stamp c si et s2
       else do s1 <- make_candidate st et s0; do s2 <- move_front si s1; conclude stamp c si et s2)
      = conclude stamp c si et (mv si (choose hs st et ei s0))).
    { unfold choose in HWc |- *. rewrite Ep0 in HWc |- *. unfold better_heads in HWc |- *.
      destruct (Z.leb_spec (st - cstart s0) (scale c (et - cend s0))); cbn [negb] in *.
      - rewrite Hmv by auto. reflexivity.
      - rewrite Hmk by auto. cbn [bind]. rewrite Hmv; auto; [|now rewrite Ep0].
        cbn [bind]. now rewrite Ep0. }
    rewrite Hit.
    destruct HCon as [[HCon HJ]|(HCon & HJ & HJ2)].
    + exists hs, ei, et, si, st; eexists; eexists; split; [exact HH|]. split; [exact HX|].
      split; [exact HCon|]. apply sk_publish with (p := p); auto. congruence.
    + exists hs, ei, et, si, st; eexists; eexists; split; [exact HH|]. split; [exact HX|].
      split; [exact HCon|]. apply sk_search with (p := p); auto. congruence.
  - assert (pivot s = None) as Eps by exact Ep0.
    rewrite Edr.
    destruct (Z.ltb_spec (max_interval c) (et - st)) as [Hbig|Hsm].
    { rewrite delete_front_ok by auto. cbn [bind].
      exists hs, ei, et, si, st; eexists; eexists; split; [exact HH|]. split; [exact HX|].
      split; [reflexivity|]. apply sk_delete; auto. }
    destruct (nth ei (dropped s) false) eqn:Edd.
    { rewrite delete_front_ok by auto. cbn [bind].
      exists hs, ei, et, si, st; eexists; eexists; split; [exact HH|]. split; [exact HX|].
      split; [reflexivity|]. apply sk_delete; auto. }
    assert (Hit : (do s1 <- make_candidate st et s0;
       do s2 <- move_front si (set_pivot ei et s1); conclude stamp c si et s2)
      = conclude stamp c si et (mv si (choose hs st et ei s0))).
    { rewrite Hmk by auto. cbn [bind]. unfold choose in HWc |- *. rewrite Ep0 in HWc |- *.
      unfold set_pivot. cbn [deques num past candidate cstart cend dropped warned].
      rewrite Hmv; auto. }
    rewrite Hit.
    destruct HCon as [[HCon HJ]|(HCon & HJ & HJ2)].
    + exists hs, ei, et, si, st; eexists; eexists; split; [exact HH|]. split; [exact HX|].
      split; [exact HCon|]. apply sk_publish with (p := p); auto.
    + exists hs, ei, et, si, st; eexists; eexists; split; [exact HH|]. split; [exact HX|].
      split; [exact HCon|]. apply sk_search with (p := p); auto.
Qed.

(* ------------------------------------------------------------------ *)
(** Preservation and termination *)
Lemma pub_dq s i : WF s -> dq (pub s) i = tl (pa s i ++ dq s i).
Proof. intros HW. unfold dq at 1. cbn. rewrite nth_map_tl. now rewrite nth_pending. Qed.
Lemma pub_pa s i : pa (pub s) i = [].
Proof. unfold pa. cbn. apply nth_map_nil. Qed.
Lemma del_dq i j s : (length (deques s) = N) -> (i < N)%nat ->
  dq (del i s) j = if Nat.eq_dec i j then tl (dq s j) else dq s j.
Proof.
  intros HL Hi. unfold del, dq. cbn. destruct (Nat.eq_dec i j) as [<-|Hn].
  - rewrite nth_upd_eq by lia. reflexivity.
  - now rewrite nth_upd_neq.
Qed.

Lemma step_inv s hs ei et si st s' o :
  WF s -> PInv s -> (0 < N)%nat -> heads s hs -> extremes hs ei et si st ->
  step_kind s hs ei et si st s' o -> WF s' /\ PInv s'.
Proof.
  intros HW HP Hn HH HX HS. pose proof HW as [W1 W2 W3 W4].
  assert (si < N)%nat as Hsi by (destruct HX, HH; lia).
  destruct HS as [Hpv Hc | p cand Hc s2 Hp2 Hc2 HJ | p Hc s2 Hp2 Hne Hag].
  - split; [apply del_WF; now apply clear_WF|].
    unfold PInv in *. cbn. rewrite Hpv in *. exact HP.
  - assert (WF s2) as HW2 by (apply mv_WF, choose_WF, clear_WF; auto).
    split; [now apply pub_WF|]. unfold PInv. intros i. apply pub_pa.
  - assert (WF s2) as HW2 by (apply mv_WF, choose_WF, clear_WF; auto).
    split; auto.
    destruct (choose_PInv hs ei et si st (clear_dropped ei s)) as (p' & Ep & HP1);
      auto using clear_WF, clear_PInv.
    set (s1 := choose hs st et ei (clear_dropped ei s)) in *.
    assert (p' = p) as -> by (cbn in Hp2; congruence).
    assert (WF s1) as HW1 by (apply choose_WF, clear_WF; auto).
    unfold PInv in HP1 |- *. rewrite Hp2, Ep in *.
    destruct HP1 as (P1 & P2 & P3 & P4). destruct HW1.
    split; auto. split; [now apply has_candidate_mv|].
    unfold s2. rewrite mv_pa, mv_dq by auto. destruct (Nat.eq_dec si p); [congruence|].
    split; auto.
Qed.

Definition msr (s : state) (t0 : nat) : nat :=
  (total (pending s) * S t0 + total (deques s))%nat.

Lemma total_le (a b : list (list E)) : length a = length b ->
  (forall i, (i < length a)%nat -> (length (nth i a []) <= length (nth i b []))%nat) ->
  (total a <= total b)%nat.
Proof.
  revert b; induction a as [|x a IH]; intros [|y b] HL H; cbn in *; try lia.
  pose proof (H O ltac:(lia)). cbn in *.
  assert (total a <= total b)%nat; [|lia].
  apply IH; [lia|]. intros i Hi. apply (H (S i)). lia.
Qed.

Lemma pending_total s : WF s -> total (pending s) = (total (past s) + total (deques s))%nat.
Proof. intros [W1 W2 _ _]. apply total_map2. lia. Qed.

Lemma total_mv i s : WF s -> (i < N)%nat -> dq s i <> [] ->
  total (pending (mv i s)) = total (pending s) /\ (total (deques (mv i s)) < total (deques s))%nat.
Proof.
  intros HW Hi Hne. pose proof (mv_WF i s HW) as HW'. rewrite !pending_total by auto.
  destruct HW as [W1 W2 W3 W4]. unfold mv. cbn.
  pose proof (total_upd (deques s) i (tl (dq s i)) ltac:(lia)) as H1.
  pose proof (total_upd (past s) i (pa s i ++ firstn 1 (dq s i)) ltac:(lia)) as H2.
  unfold dq, pa in *. destruct (nth i (deques s) []); [congruence|].
  rewrite app_length in H2. cbn in *. lia.
Qed.

Lemma choose_total hs st et ei s : WF s ->
  (total (pending (choose hs st et ei s)) <= total (pending s))%nat.
Proof.
  intros HW. pose proof (choose_WF hs st et ei s HW) as HW'.
  rewrite !pending_total by auto. rewrite choose_dq.
  unfold choose. destruct (pivot s); [destruct (better_heads _ _ _)|]; cbn; rewrite ?total_nil; lia.
Qed.

Lemma step_measure s hs ei et si st s' o t0 :
  WF s -> PInv s -> (0 < N)%nat -> num s = N -> heads s hs -> extremes hs ei et si st ->
  step_kind s hs ei et si st s' o -> (total (pending s) <= t0)%nat ->
  (total (pending s') <= total (pending s))%nat /\ (msr s' t0 < msr s t0)%nat.
Proof.
  intros HW HP Hn Hnum HH HX HS Ht. pose proof HW as [W1 W2 W3 W4].
  assert (si < N)%nat as Hsi by (destruct HX, HH; lia).
  assert (forall i, (i < length (deques s))%nat -> nth i (deques s) [] <> []) as HNE.
  { apply count_full. congruence. }
  assert (dq s si <> []) as Hsne by (apply HNE; lia).
  assert (forall s1, WF s1 -> (total (pending s1) < total (pending s))%nat ->
     (total (pending s1) <= total (pending s))%nat /\ (msr s1 t0 < msr s t0)%nat) as Hdrop.
  { intros s1 HW1 Hlt. split; [lia|]. unfold msr. pose proof (pending_total s1 HW1). nia. }
  set (s0 := clear_dropped ei s) in *.
  assert (WF s0) as HW0 by (now apply clear_WF).
  set (s1 := choose hs st et ei s0).
  assert (WF s1) as HW1 by (now apply choose_WF).
  assert (total (pending s1) <= total (pending s))%nat as HT1
    by (change (pending s) with (pending s0); apply choose_total; auto).
  assert (dq s1 si <> []) as Hs1 by (unfold s1, dq; rewrite choose_dq; exact Hsne).
  destruct (total_mv si s1 HW1 Hsi Hs1) as (M1 & M2).
  destruct HS as [Hpv Hc | p cand Hc s2 Hp2 Hc2 HJ | p Hc s2 Hp2 Hne Hag].
  - apply Hdrop; [now apply del_WF|].
    pose proof (del_WF si s0 HW0) as HWd. rewrite !pending_total by auto.
    unfold del. cbn. pose proof (total_upd (deques s) si (tl (dq s si)) ltac:(lia)) as H1.
    unfold dq in *. cbn. destruct (nth si (deques s) []); [congruence|]. cbn in *. lia.
  - apply Hdrop; [apply pub_WF, mv_WF; auto|].
    change (pending (pub s2)) with (map2 (@app E) (map (fun _ => []) (past s2)) (map (@tl E) (pending s2))).
    assert (WF s2) as HW2 by (now apply mv_WF).
    rewrite total_map2 by (rewrite !map_length, pending_length; auto; destruct HW2; auto).
    rewrite total_nil. cbn [Nat.add].
    fold s0 s1 in s2. fold s2 in M1.
    assert (total (map (@tl E) (pending s2)) < total (pending s2))%nat; [|lia].
    apply total_tails; [rewrite pending_length; auto|].
    rewrite pending_length by auto. intros i Hi. rewrite nth_pending by auto.
    unfold s2. rewrite mv_pend by auto. intros HE. apply app_eq_nil in HE. destruct HE as (_ & HE).
    unfold s1, dq in HE. rewrite choose_dq in HE. apply (HNE i); [lia|exact HE].
  - fold s0 s1 in s2. fold s2 in M1, M2. split; [lia|]. unfold msr.
    unfold s1 in M2. rewrite choose_dq in M2. cbn [s0 clear_dropped deques] in M2. nia.
Qed.

(** Reflexive-transitive closure of loop iterations, with the outputs. *)
Inductive steps : state -> list (list E) -> state -> Prop :=
| steps_nil s : steps s [] s
| steps_cons s hs ei et si st s1 o1 s2 o2 :
    WF s -> PInv s -> num s = N -> heads s hs -> extremes hs ei et si st ->
    step_kind s hs ei et si st s1 o1 -> steps s1 o2 s2 -> steps s (o1 ++ o2) s2.

Lemma process_steps t0 : (0 < N)%nat -> forall fuel s,
  WF s -> PInv s -> (total (pending s) <= t0)%nat -> (msr s t0 < fuel)%nat ->
  exists s' o, process stamp c fuel s = Ok (s', o) /\ steps s o s' /\
    WF s' /\ PInv s' /\ (num s' < N)%nat.
Proof.
  intros Hn. induction fuel as [|fuel IH]; intros s HW HP Ht Hm; [lia|].
  cbn [process].
  destruct (Nat.eqb_spec (num s) N) as [Hnum|Hnum].
  - destruct (iteration_cases s HW HP Hn Hnum) as (hs & ei & et & si & st & s1 & o1 & HH & HX & -> & HS).
    destruct (step_inv _ _ _ _ _ _ _ _ HW HP Hn HH HX HS) as (HW1 & HP1).
    destruct (step_measure _ _ _ _ _ _ _ _ t0 HW HP Hn Hnum HH HX HS Ht) as (HT1 & HM1).
    destruct (IH s1 HW1 HP1 ltac:(lia) ltac:(lia)) as (s' & o & E1 & HSt & R1 & R2 & R3).
    cbn [bind]. rewrite E1. cbn [bind].
    exists s', (o1 ++ o). split; auto. split; auto. econstructor; eauto.
  - exists s, []. split; auto. split; [constructor|]. split; auto. split; auto.
    pose proof (count_le (deques s)). destruct HW. lia.
Qed.

Lemma process_total s : (0 < N)%nat -> WF s -> PInv s ->
  exists s' o, process stamp c (fuel_for s) s = Ok (s', o) /\ steps s o s' /\
    WF s' /\ PInv s' /\ (num s' < N)%nat.
Proof.
  intros Hn HW HP. apply (process_steps (total (pending s))); auto.
  unfold fuel_for, msr. pose proof (pending_total s HW). nia.
Qed.

(* ------------------------------------------------------------------ *)
(** Per-input effect of the iterations *)
Definition pend (s : state) i := pa s i ++ dq s i.

Lemma choose_pend hs st et ei s i : WF s ->
  exists d, pend s i = d ++ pend (choose hs st et ei s) i.
Proof.
  intros HW. unfold pend, choose.
  destruct (pivot s); [destruct (better_heads _ _ _)|].
  - exists (pa s i). unfold pa at 2, dq at 2. cbn. rewrite nth_map_nil. reflexivity.
  - exists []. reflexivity.
  - exists (pa s i). unfold pa at 2, dq at 2. cbn. rewrite nth_map_nil. reflexivity.
Qed.

Lemma step_pend s hs ei et si st s' o i :
  WF s -> PInv s -> (0 < N)%nat -> heads s hs -> extremes hs ei et si st ->
  step_kind s hs ei et si st s' o -> (i < N)%nat ->
  (exists d, pend s i = d ++ column i o ++ pend s' i) /\ Forall (fun X => length X = N) o.
Proof.
  intros HW HP Hn HH HX HS Hi. pose proof HW as [W1 W2 W3 W4].
  assert (si < N)%nat as Hsi by (destruct HX, HH; lia).
  set (s0 := clear_dropped ei s) in *.
  assert (WF s0) as HW0 by (now apply clear_WF).
  assert (PInv s0) as HP0 by (now apply clear_PInv).
  assert (heads s0 hs) as HH0 by exact HH.
  set (s1 := choose hs st et ei s0) in *.
  assert (WF s1) as HW1 by (now apply choose_WF).
  destruct (choose_pend hs st et ei s0 i HW0) as (d & Hd). fold s1 in Hd.
  change (pend s0 i) with (pend s i) in Hd.
  assert (pend (mv si s1) i = pend s1 i) as Hm by (apply mv_pend; auto).
  destruct HS as [Hpv Hc | p cand Hc s2 Hp2 Hc2 HJ | p Hc s2 Hp2 Hne Hag].
  - split; [|constructor]. unfold PInv in HP. rewrite Hpv in HP.
    exists (if Nat.eq_dec si i then firstn 1 (dq s i) else []). cbn [column flat_map app].
    unfold pend. change (pa (del si (clear_dropped ei s)) i) with (pa s i).
    rewrite del_dq by auto. rewrite HP. cbn [app].
    change (dq (clear_dropped ei s) i) with (dq s i). destruct (Nat.eq_dec si i); cbn [app]; auto.
    symmetry; apply firstn1_tl.
  - fold s0 s1 in s2. assert (WF s2) as HW2 by (now apply mv_WF).
    destruct (choose_PInv hs ei et si st s0) as (p' & Ep & HP1); auto.
    fold s1 in Ep, HP1. unfold PInv in HP1. rewrite Ep in HP1.
    destruct HP1 as (_ & HC & _). apply (has_candidate_mv si) in HC; auto. fold s2 in HC.
    destruct HC as (cand' & Ec & HL & Hh). assert (cand' = cand) as -> by congruence.
    split.
    + exists d. rewrite Hd, <- Hm. f_equal. fold s2. unfold pend at 2.
      rewrite pub_pa, pub_dq by auto. cbn [column flat_map app].
      rewrite Hh by auto. fold (pend s2 i).
      assert (nth_error cand i <> None) as Hne by (apply nth_error_Some; lia).
      rewrite Hh in Hne by auto. unfold pend in *.
      destruct (pa s2 i ++ dq s2 i) as [|x t]; [cbn in Hne; congruence|]. reflexivity.
    + constructor; auto.
  - split; [|constructor]. exists d. cbn [column flat_map app]. rewrite Hd, <- Hm. reflexivity.
Qed.

Lemma steps_pend s o s' i :
  (0 < N)%nat -> steps s o s' -> (i < N)%nat ->
  subseq (column i o ++ pend s' i) (pend s i) /\ Forall (fun X => length X = N) o /\
  (length (pend s' i) <= length (pend s i))%nat.
Proof.
  intros Hn HS Hi. induction HS as [s|s hs ei et si st s1 o1 s2 o2 HW HP Hnum HH HX HK HS IH].
  - split; [apply subseq_refl|]. split; [constructor|]. lia.
  - destruct IH as (IH1 & IH2 & IH3).
    destruct (step_pend _ _ _ _ _ _ _ _ i HW HP Hn HH HX HK Hi) as ((d & Ed) & HF).
    split; [|split].
    + rewrite column_app, <- app_assoc, Ed. apply subseq_app_skip. apply subseq_app; auto.
      apply subseq_refl.
    + apply Forall_app; auto.
    + rewrite Ed, !app_length. lia.
Qed.

(* ------------------------------------------------------------------ *)
(** Additions *)
Definition push (i : nat) (e : E) (s : state) : state :=
  let q := upd i (dq s i ++ [e]) (deques s) in
  set_queues q (count_nonempty q) (past s) s.
Definition set_warned (w : list bool) (s : state) : state :=
  mkState (deques s) (num s) (past s) (candidate s) (cstart s) (cend s) (pivot s) (ptime s)
          (dropped s) w.
Definition drop (i : nat) (s : state) : state :=
  let q := upd i (tl (pend s i)) (pending s) in
  mkState q (count_nonempty q) (map (fun _ => []) (past s))
          (match pivot s with None => candidate s | Some _ => None end)
          (cstart s) (cend s) None (ptime s) (upd i true (dropped s)) (warned s).

Lemma push_WF i e s : WF s -> WF (push i e s).
Proof. intros [W1 W2 W3 W4]. split; cbn; rewrite ?upd_length; auto. Qed.

Lemma push_dq i e s j : WF s -> (i < N)%nat ->
  dq (push i e s) j = if Nat.eq_dec i j then dq s j ++ [e] else dq s j.
Proof.
  intros [W1 W2 W3 W4] Hi. unfold push, dq. cbn. destruct (Nat.eq_dec i j) as [<-|Hne].
  - rewrite nth_upd_eq by lia. reflexivity.
  - now rewrite nth_upd_neq.
Qed.

Lemma push_pa i e s j : pa (push i e s) j = pa s j.
Proof. reflexivity. Qed.

Lemma push_pend i e s j : WF s -> (i < N)%nat ->
  pend (push i e s) j = if Nat.eq_dec i j then pend s j ++ [e] else pend s j.
Proof.
  intros HW Hi. unfold pend. rewrite push_dq by auto. rewrite push_pa.
  destruct (Nat.eq_dec i j); auto. now rewrite app_assoc.
Qed.

Lemma hd_error_app {A} (a b : list A) x : hd_error a = Some x -> hd_error (a ++ b) = Some x.
Proof. destruct a; cbn; congruence. Qed.

Lemma push_PInv i e s : WF s -> (i < N)%nat -> PInv s -> PInv (push i e s).
Proof.
  intros HW Hi HP. unfold PInv in *. cbn [push set_queues pivot ptime].
  destruct (pivot s) as [p|]; auto.
  destruct HP as (P1 & (cand & C1 & C2 & C3) & P3 & x & P4 & P5).
  split; auto. split; [|split; auto].
  - exists cand. split; auto. split; auto. intros j Hj. fold (pend (push i e s) j).
    rewrite push_pend by auto. rewrite C3 by auto. fold (pend s j).
    assert (nth_error cand j <> None) as Hne by (apply nth_error_Some; lia).
    rewrite C3 in Hne by auto. fold (pend s j) in Hne.
    destruct (Nat.eq_dec i j); auto. destruct (pend s j); cbn in *; congruence.
  - exists x. split; auto. rewrite push_dq by auto. destruct (Nat.eq_dec i p); auto.
    now apply hd_error_app.
Qed.

Lemma add_process_cases i e s :
  (0 < N)%nat -> WF s -> PInv s -> (num s < N)%nat -> (i < N)%nat ->
  exists s1 o1, add_process stamp c s i e = Ok (s1, o1) /\ WF s1 /\ PInv s1 /\ (num s1 < N)%nat /\
    ((exists w, s1 = set_warned w (push i e s) /\ o1 = []) \/ steps (push i e s) o1 s1).
Proof.
  intros Hn HW HP Hnum Hi. pose proof HW as [W1 W2 W3 W4].
  pose proof (push_WF i e s HW) as HW1. pose proof (push_PInv i e s HW Hi HP) as HP1.
  pose proof (count_upd (deques s) i (dq s i ++ [e]) ltac:(lia)) as HC.
  unfold add_process. rewrite (nth_error_nth' _ []) by lia. fold (dq s i).
  assert (set_queues (upd i (dq s i ++ [e]) (deques s))
             (if is_nil (dq s i) then S (num s) else num s) (past s) s = push i e s) as ->.
  { unfold push. f_equal. fold (dq s i) in HC. unfold nz in HC.
    destruct (dq s i); cbn [is_nil app] in *; lia. }
  destruct (is_nil (dq s i)) eqn:En.
  - destruct (Nat.eqb_spec (num (push i e s)) N) as [Hf|Hf].
    + destruct (process_total (push i e s) Hn HW1 HP1) as (s' & o & -> & HS & R1 & R2 & R3).
      exists s', o. split; auto.
    + exists (push i e s), []. split; auto. split; auto. split; auto. split.
      * pose proof (count_le (deques (push i e s))). destruct HW1. lia.
      * right. constructor.
  - exists (check_inter_message_bound stamp c i (push i e s)), []. split; auto.
    assert (exists w, check_inter_message_bound stamp c i (push i e s) = set_warned w (push i e s)) as (w & ->).
    { unfold check_inter_message_bound. destruct (nth i (warned _) false).
      - exists (warned (push i e s)). destruct (push i e s); reflexivity.
      - destruct (bound_violated _ _ _ _ _).
        + eexists. unfold set_warned. reflexivity.
        + exists (warned (push i e s)). destruct (push i e s); reflexivity. }
    split; [destruct HW1; split; auto|]. split; [exact HP1|]. split; [|left; eauto].
    cbn. fold (dq s i) in HC. unfold nz in HC. rewrite En in HC.
    destruct (dq s i); cbn [is_nil app] in *; [discriminate|]. lia.
Qed.

Lemma drop_pend i s j : WF s -> (i < N)%nat ->
  pa (drop i s) j = [] /\ dq (drop i s) j = if Nat.eq_dec i j then tl (pend s j) else pend s j.
Proof.
  intros HW Hi. split; [unfold pa; cbn; apply nth_map_nil|].
  unfold drop, dq. cbn. pose proof (pending_length s HW). destruct (Nat.eq_dec i j) as [<-|Hne].
  - rewrite nth_upd_eq by lia. reflexivity.
  - rewrite nth_upd_neq by auto. now apply nth_pending.
Qed.

Lemma drop_WF i s : WF s -> WF (drop i s).
Proof.
  intros HW. pose proof (pending_length s HW). destruct HW as [W1 W2 W3 W4].
  split; cbn; rewrite ?upd_length, ?map_length; auto.
Qed.

Lemma drop_PInv i s : WF s -> (i < N)%nat -> PInv (drop i s).
Proof. intros HW Hi. unfold PInv. intros j. now apply drop_pend. Qed.

Lemma add_overflow_cases i s :
  (0 < N)%nat -> (0 < queue_size c)%nat -> WF s -> PInv s -> (num s < N)%nat -> (i < N)%nat ->
  exists s1 o1, add_overflow stamp c s i = Ok (s1, o1) /\ WF s1 /\ PInv s1 /\ (num s1 < N)%nat /\
    (((length (pend s i) <= queue_size c)%nat /\ s1 = s /\ o1 = []) \/
     ((queue_size c < length (pend s i))%nat /\ steps (drop i s) o1 s1)).
Proof.
  intros Hn Hq HW HP Hnum Hi. pose proof HW as [W1 W2 W3 W4].
  unfold add_overflow. fold (dq s i) (pa s i).
  assert (length (pend s i) = length (dq s i) + length (pa s i))%nat as HL
    by (unfold pend; rewrite app_length; lia).
  destruct (Nat.ltb_spec (queue_size c) (length (dq s i) + length (pa s i))) as [Hov|Hok].
  2: { exists s, []. do 4 (split; auto). left. split; [lia|]. auto. }
  cbn [recover_all set_queues deques num past candidate cstart cend pivot ptime dropped warned].
  fold (pending s). rewrite nth_pending by auto. fold (pend s i).
  destruct (pend s i) as [|x q] eqn:Epend; [cbn in HL; lia|].
  assert (count_nonempty (pending s) = count_nonempty (upd i q (pending s))) as EC.
  { pose proof (count_upd (pending s) i q ltac:(rewrite pending_length; auto)) as HC.
    rewrite nth_pending in HC by auto. fold (pend s i) in HC. rewrite Epend in HC.
    unfold nz in HC. destruct q; [cbn in *; lia|]. cbn [is_nil] in HC. lia. }
  pose proof (drop_WF i s HW) as HWd. pose proof (drop_PInv i s HW Hi) as HPd.
  cbv zeta. rewrite EC.
  destruct (pivot s) as [p|] eqn:Ep.
  - cbn [deques num past candidate cstart cend pivot ptime dropped warned].
    assert (mkState (upd i q (pending s)) (count_nonempty (upd i q (pending s)))
              (map (fun _ => []) (past s)) None (cstart s) (cend s) None (ptime s)
              (upd i true (dropped s)) (warned s) = drop i s) as ->.
    { unfold drop. rewrite Epend, Ep. reflexivity. }
    destruct (process_total (drop i s) Hn HWd HPd) as (s' & o & -> & HS & R1 & R2 & R3).
    exists s', o. split; [reflexivity|]. split; [exact R1|]. split; [exact R2|]. split; [exact R3|].
    right. split; [lia|exact HS].
  - assert (mkState (upd i q (pending s)) (count_nonempty (upd i q (pending s)))
              (map (fun _ => []) (past s)) (candidate s) (cstart s) (cend s) None (ptime s)
              (upd i true (dropped s)) (warned s) = drop i s) as ->.
    { unfold drop. rewrite Epend, Ep. reflexivity. }
    exists (drop i s), []. split; auto. split; auto. split; auto. split.
    + unfold drop. cbn [num]. rewrite Epend. cbn [tl]. rewrite <- EC.
      assert (pending s = deques s) as ->; [|lia].
      unfold PInv in HP. rewrite Ep in HP.
      apply (list_eq_nth []); [rewrite pending_length; auto|].
      intros j _. rewrite nth_pending by auto. rewrite HP. reflexivity.
    + right. split; [lia|]. constructor.
Qed.

Record Inv (s : state) : Prop := {
  inv_wf : WF s;
  inv_p : PInv s;
  inv_num : (num s < N)%nat
}.

Lemma init_Inv : (0 < N)%nat -> Inv (init c).
Proof.
  intros Hn. split.
  - split; cbn; rewrite ?repeat_length; auto. clear Hn. induction N as [|k IHk]; cbn; auto.
  - intros i. unfold pa. cbn. apply nth_repeat_nil.
  - exact Hn.
Qed.

(** The shape of an addition. *)
Lemma add_cases s i e :
  (0 < N)%nat -> (0 < queue_size c)%nat -> Inv s -> (i < N)%nat ->
  exists s1 o1 s2 o2,
    add_process stamp c s i e = Ok (s1, o1) /\ add_overflow stamp c s1 i = Ok (s2, o2) /\
    add stamp c s (i, e) = Ok (s2, o1 ++ o2) /\ Inv s1 /\ Inv s2 /\
    ((exists w, s1 = set_warned w (push i e s) /\ o1 = []) \/ steps (push i e s) o1 s1) /\
    (((length (pend s1 i) <= queue_size c)%nat /\ s2 = s1 /\ o2 = []) \/
     ((queue_size c < length (pend s1 i))%nat /\ steps (drop i s1) o2 s2)).
Proof.
  intros Hn Hq [HW HP Hnum] Hi.
  destruct (add_process_cases i e s Hn HW HP Hnum Hi) as (s1 & o1 & E1 & A1 & A2 & A3 & A4).
  destruct (add_overflow_cases i s1 Hn Hq A1 A2 A3 Hi) as (s2 & o2 & E2 & B1 & B2 & B3 & B4).
  exists s1, o1, s2, o2. split; auto. split; auto. split.
  { unfold add. cbn [fst snd]. rewrite E1. cbn [bind]. rewrite E2. reflexivity. }
  split; [split; auto|]. split; [split; auto|]. auto.
Qed.

Lemma run_snoc s h x s1 o1 :
  run stamp c s h = Ok (s1, o1) ->
  run stamp c s (h ++ [x]) = do '(s2, o2) <- add stamp c s1 x; Ok (s2, o1 ++ o2).
Proof.
  revert s s1 o1; induction h as [|y h IH]; intros s s1 o1 H; cbn [app run] in *.
  - injection H as <- <-. destruct (add stamp c s x) as [(s2 & o2)|]; cbn; auto.
    now rewrite app_nil_r.
  - destruct (add stamp c s y) as [(s2 & o2)|]; cbn [bind] in *; [|discriminate].
    destruct (run stamp c s2 h) as [(s3 & o3)|] eqn:Er; cbn [bind] in *; [|discriminate].
    injection H as <- <-. rewrite (IH _ _ _ Er).
    destruct (add stamp c s3 x) as [(s4 & o4)|]; cbn [bind]; auto. now rewrite app_assoc.
Qed.

(** Every history runs to completion. *)
Lemma run_Inv h :
  (0 < N)%nat -> (0 < queue_size c)%nat -> (forall i e, In (i, e) h -> (i < N)%nat) ->
  exists s outs, run stamp c (init c) h = Ok (s, outs) /\ Inv s.
Proof.
  intros Hn Hq. induction h as [|[i e] h IH] using rev_ind; intros HI.
  - exists (init c), []. split; auto. now apply init_Inv.
  - destruct IH as (s & outs & Er & HInv).
    { intros j x Hj. apply (HI j x). apply in_or_app; auto. }
    assert (i < N)%nat as Hi by (apply (HI i e); apply in_or_app; cbn; auto).
    destruct (add_cases s i e Hn Hq HInv Hi) as (s1 & o1 & s2 & o2 & _ & _ & Ea & _ & HI2 & _).
    exists s2, (outs ++ o1 ++ o2). split; auto.
    rewrite (run_snoc _ _ _ _ _ Er), Ea. reflexivity.
Qed.

(** Induction principle for runs. *)
Lemma run_invariant (P : list (nat * E) -> state -> list (list E) -> Prop) :
  (0 < N)%nat -> (0 < queue_size c)%nat ->
  P [] (init c) [] ->
  (forall h s outs i e s1 o1 s2 o2,
     run stamp c (init c) h = Ok (s, outs) -> Inv s -> P h s outs -> (i < N)%nat ->
     add_process stamp c s i e = Ok (s1, o1) -> add_overflow stamp c s1 i = Ok (s2, o2) ->
     Inv s1 -> Inv s2 ->
     ((exists w, s1 = set_warned w (push i e s) /\ o1 = []) \/ steps (push i e s) o1 s1) ->
     (((length (pend s1 i) <= queue_size c)%nat /\ s2 = s1 /\ o2 = []) \/
      ((queue_size c < length (pend s1 i))%nat /\ steps (drop i s1) o2 s2)) ->
     P (h ++ [(i, e)]) s2 (outs ++ o1 ++ o2)) ->
  forall h, (forall i e, In (i, e) h -> (i < N)%nat) ->
  forall s outs, run stamp c (init c) h = Ok (s, outs) -> P h s outs.
Proof.
  intros Hn Hq H0 HS. induction h as [|[i e] h IH] using rev_ind; intros HI s outs Hr.
  - injection Hr as <- <-. exact H0.
  - assert (forall j x, In (j, x) h -> (j < N)%nat) as HI'.
    { intros j x Hj. apply (HI j x). apply in_or_app; auto. }
    assert (i < N)%nat as Hi by (apply (HI i e); apply in_or_app; cbn; auto).
    destruct (run_Inv h Hn Hq HI') as (s0 & outs0 & Er & HInv).
    rewrite (run_snoc _ _ _ _ _ Er) in Hr.
    destruct (add_cases s0 i e Hn Hq HInv Hi)
      as (s1 & o1 & s2 & o2 & E1 & E2 & Ea & J1 & J2 & A & B).
    rewrite Ea in Hr. cbn [bind] in Hr. injection Hr as <- <-.
    eapply HS; eauto.
Qed.

(** Accounting: what was output and what is still held is a subsequence of what was
    received, input by input; every set is complete; the queues are bounded. *)
Lemma run_accounting h s outs :
  (0 < N)%nat -> (0 < queue_size c)%nat -> (forall i e, In (i, e) h -> (i < N)%nat) ->
  run stamp c (init c) h = Ok (s, outs) ->
  Forall (fun X => length X = N) outs /\
  forall i, (i < N)%nat ->
    subseq (column i outs ++ pend s i) (stream i h) /\ (length (pend s i) <= queue_size c)%nat.
Proof.
  intros Hn Hq HI Hr.
  revert h HI s outs Hr. apply run_invariant; auto.
  - split; [constructor|]. intros i Hi. unfold pend, pa, dq. cbn. rewrite !nth_repeat_nil.
    split; [constructor|cbn; lia].
  - intros h s outs i e s1 o1 s2 o2 Hr HInv (HF & HA) Hi E1 E2 J1 J2 A B.
    destruct HInv as [HW HP Hnum].
    assert (forall j, (j < N)%nat ->
      subseq (column j o1 ++ pend s1 j) (pend (push i e s) j) /\ Forall (fun X => length X = N) o1 /\
      (length (pend s1 j) <= length (pend (push i e s) j))%nat) as HA1.
    { intros j Hj. destruct A as [(w & -> & ->)|A].
      - split; [apply subseq_refl|]. split; [constructor|]. cbn. lia.
      - now apply steps_pend. }
    assert (forall j, (j < N)%nat ->
      subseq (column j o2 ++ pend s2 j) (pend s1 j) /\ Forall (fun X => length X = N) o2 /\
      (length (pend s2 j) <= length (pend s1 j))%nat /\
      (i = j -> (length (pend s1 j) <= S (queue_size c))%nat -> (length (pend s2 j) <= queue_size c)%nat)) as HA2.
    { intros j Hj. destruct B as [(B1 & -> & ->)|(B1 & B2)].
      - split; [apply subseq_refl|]. split; [constructor|]. split; [lia|]. intros -> _. lia.
      - destruct (steps_pend _ _ _ j Hn B2 Hj) as (C1 & C2 & C3).
        destruct (drop_pend i s1 j (inv_wf _ J1) Hi) as (D1 & D2).
        assert (pend (drop i s1) j = if Nat.eq_dec i j then tl (pend s1 j) else pend s1 j) as D3
          by (unfold pend at 1; rewrite D1, D2; reflexivity).
        rewrite D3 in *.
        split; [|split; [auto|split]].
        + eapply subseq_trans; [exact C1|]. destruct (Nat.eq_dec i j); [|apply subseq_refl].
          destruct (pend s1 j); [constructor|]. constructor. apply subseq_refl.
        + destruct (Nat.eq_dec i j); auto. destruct (pend s1 j); cbn in *; lia.
        + intros <- Hlen. destruct (Nat.eq_dec i i); [|congruence].
          destruct (pend s1 i); cbn in *; lia. }
    split.
    + apply Forall_app. split; auto. apply Forall_app.
      split; [apply (HA1 i Hi)|apply (HA2 i Hi)].
    + intros j Hj. destruct (HA j Hj) as (S0 & L0).
      destruct (HA1 j Hj) as (S1 & _ & L1). destruct (HA2 j Hj) as (S2 & _ & L2 & L3).
      rewrite push_pend in S1, L1 by auto.
      split.
      * rewrite !column_app, stream_app.
        assert (stream j [(i, e)] = if Nat.eq_dec i j then [e] else []) as Est.
        { unfold stream. cbn. destruct (Nat.eqb_spec i j), (Nat.eq_dec i j); cbn; congruence. }
        rewrite Est.
        eapply subseq_trans.
        2: { apply subseq_app; [exact S0|]. apply subseq_refl. }
        rewrite <- !app_assoc. apply subseq_app; [apply subseq_refl|].
        eapply subseq_trans.
        { apply subseq_app; [apply subseq_refl|]. exact S2. }
        eapply subseq_trans; [exact S1|].
        destruct (Nat.eq_dec i j); [apply subseq_refl|]. rewrite app_nil_r. apply subseq_refl.
      * destruct (Nat.eq_dec i j) as [->|Hne].
        -- apply L3; auto. rewrite app_length in L1. cbn in L1. lia.
        -- lia.
Qed.

(** What is held is always the most recent part of what was received. *)
Definition cut (a b o : list E) : Prop := exists d, a = d ++ b /\ subseq o d.
Lemma cut_trans a b b' o o' : cut a b o -> cut b b' o' -> cut a b' (o ++ o').
Proof.
  intros (d & -> & Hd) (d' & -> & Hd'). exists (d ++ d'). split; [now rewrite app_assoc|now apply subseq_app].
Qed.
Lemma cut_refl a : cut a a [].
Proof. exists []. split; [reflexivity|constructor]. Qed.
Lemma cut_app a b o x : cut a b o -> cut (a ++ x) (b ++ x) o.
Proof. intros (d & -> & Hd). exists d. split; [now rewrite app_assoc|auto]. Qed.
Lemma subseq_nil_l {A} (l : list A) : subseq [] l.
Proof. induction l; constructor; auto. Qed.
Lemma cut_tl a : cut a (tl a) [].
Proof. exists (firstn 1 a). split; [destruct a; reflexivity|apply subseq_nil_l]. Qed.

Lemma steps_cut s o s' i :
  (0 < N)%nat -> steps s o s' -> (i < N)%nat -> cut (pend s i) (pend s' i) (column i o).
Proof.
  intros Hn HS Hi. induction HS as [s|s hs ei et si st s1 o1 s2 o2 HW HP Hnum HH HX HK HS IH].
  - apply cut_refl.
  - destruct (step_pend _ _ _ _ _ _ _ _ i HW HP Hn HH HX HK Hi) as ((d & Ed) & HF).
    rewrite column_app. eapply cut_trans; [|exact IH].
    exists (d ++ column i o1). split; [now rewrite Ed, app_assoc|]. apply subseq_app_skip, subseq_refl.
Qed.

Lemma run_cut h s outs :
  (0 < N)%nat -> (0 < queue_size c)%nat -> (forall i e, In (i, e) h -> (i < N)%nat) ->
  run stamp c (init c) h = Ok (s, outs) ->
  forall i, (i < N)%nat -> cut (stream i h) (pend s i) (column i outs).
Proof.
  intros Hn Hq HI Hr.
  revert h HI s outs Hr. apply (run_invariant (fun h s outs => forall i, (i < N)%nat -> cut (stream i h) (pend s i) (column i outs))); auto.
  - intros i Hi. unfold pend, pa, dq. cbn. rewrite !nth_repeat_nil. apply cut_refl.
  - intros h s outs i e s1 o1 s2 o2 Hr HInv HA Hi E1 E2 J1 J2 A B j Hj. specialize (HA j Hj).
    destruct HInv as [HW HP Hnum].
    assert (cut (pend (push i e s) j) (pend s1 j) (column j o1)) as C1.
    { destruct A as [(w & -> & ->)|A]; [apply cut_refl|now apply steps_cut]. }
    assert (cut (pend s1 j) (pend s2 j) (column j o2)) as C2.
    { destruct B as [(B1 & -> & ->)|(B1 & B2)]; [apply cut_refl|].
      pose proof (steps_cut _ _ _ j Hn B2 Hj) as C.
      destruct (drop_pend i s1 j (inv_wf _ J1) Hi) as (D1 & D2).
      assert (pend (drop i s1) j = if Nat.eq_dec i j then tl (pend s1 j) else pend s1 j) as D3
          by (unfold pend at 1; rewrite D1, D2; reflexivity).
      rewrite D3 in C. destruct (Nat.eq_dec i j); auto. eapply (cut_trans _ _ _ []); [apply cut_tl|exact C]. }
    rewrite push_pend in C1 by auto. rewrite !column_app, stream_app.
    eapply cut_trans; [|eapply cut_trans; [exact C1|exact C2]].
    assert (stream j [(i, e)] = if Nat.eq_dec i j then [e] else []) as Est.
    { unfold stream. cbn. destruct (Nat.eqb_spec i j), (Nat.eq_dec i j); cbn; congruence. }
    rewrite Est. destruct (Nat.eq_dec i j); [now apply cut_app|]. rewrite !app_nil_r. exact HA.
Qed.
End P.
