(** How messages flow through a fixed wiring. *)
From Coq Require Import List Arith Lia Bool.
From Verif Require Import Base Net_Model Net_Spec.
Import ListNotations.

Section Flow.
Context {S M U : Type}.
Notation target := (target U).
Notation node := (node S M U).
Notation state := (state S M U).
Notation obs := (obs M U).

(** ** successful deliveries as a relation *)
Inductive del : state -> list nat -> target -> M -> state -> list obs -> Prop :=
| del_user s L u m : del s L (ToUser u) m s [Called u m]
| del_chain_empty s L n i m x :
    live s n = Ok x -> cls x = Chain -> filters x = [] -> del s L (ToInput n i) m s [Input n i m]
| del_chain s L n i m x f p fl s' tr :
    live s n = Ok x -> cls x = Chain -> filters x = (f, p) :: fl ->
    del s L (ToInput f 0) m s' tr -> del s L (ToInput n i) m s' (Input n i m :: tr)
| del_filter s L n i m x y os s' tr :
    live s n = Ok x -> cls x <> Chain -> behave (cls x) (st x) i m = (y, os) ->
    ems (upd n (set_st x y) s) L n os s' tr -> del s L (ToInput n i) m s' (Input n i m :: tr)
| del_output s L n m s' tr :
    em s L n m s' tr -> del s L (ToOutput n) m s' tr
with em : state -> list nat -> nat -> M -> state -> list obs -> Prop :=
| em_intro s L n m x s' tr :
    ~ In n L -> live s n = Ok x -> cal s (n :: L) (cbs x) m s' tr -> em s L n m s' (Output n m :: tr)
with ems : state -> list nat -> nat -> list M -> state -> list obs -> Prop :=
| ems_nil s L n : ems s L n [] s []
| ems_cons s L n m ms s1 tr1 s2 tr2 :
    em s L n m s1 tr1 -> ems s1 L n ms s2 tr2 -> ems s L n (m :: ms) s2 (tr1 ++ tr2)
with cal : state -> list nat -> list (nat * target) -> M -> state -> list obs -> Prop :=
| cal_nil s L m : cal s L [] m s []
| cal_cons s L k t l m s1 tr1 s2 tr2 :
    del s L t m s1 tr1 -> cal s1 L l m s2 tr2 -> cal s L ((k, t) :: l) m s2 (tr1 ++ tr2).

Scheme del_mut := Induction for del Sort Prop
  with em_mut := Induction for em Sort Prop
  with ems_mut := Induction for ems Sort Prop
  with cal_mut := Induction for cal Sort Prop.
Combined Scheme flow_mut from del_mut, em_mut, ems_mut, cal_mut.

Section Sound.
Variable D : state -> list nat -> target -> M -> res (state * list obs).
Hypothesis HD : forall s L t m s' tr, D s L t m = Ok (s', tr) -> del s L t m s' tr.
Lemma call_all_sound l : forall s L m s' tr, call_all D s L l m = Ok (s', tr) -> cal s L l m s' tr.
Proof.
  induction l as [|[k t] l IH]; intros s L m s' tr H; cbn in H.
  - injection H as <- <-. constructor.
  - destruct (D s L t m) as [[s1 tr1]|] eqn:E; [|discriminate]. cbn in H.
    destruct (call_all D s1 L l m) as [[s2 tr2]|] eqn:E2; [|discriminate]. cbn in H. injection H as <- <-.
    econstructor; eauto.
Qed.
Lemma emit_sound s L n m s' tr : emit D s L n m = Ok (s', tr) -> em s L n m s' tr.
Proof.
  unfold emit. destruct (existsb (Nat.eqb n) L) eqn:E; [discriminate|]. intros H.
  destruct (live s n) as [x|] eqn:Hl; [|discriminate]. cbn [bind] in H.
  destruct (call_all D s (n :: L) (cbs x) m) as [[s1 tr1]|] eqn:E2; [|discriminate]. cbn in H. injection H as <- <-.
  econstructor; eauto using call_all_sound. intros Hin. rewrite <- not_true_iff_false in E. apply E.
  apply existsb_exists. exists n. split; auto. apply Nat.eqb_refl.
Qed.
Lemma emit_all_sound ms : forall s L n s' tr, emit_all D s L n ms = Ok (s', tr) -> ems s L n ms s' tr.
Proof.
  induction ms as [|m ms IH]; intros s L n s' tr H; cbn [emit_all] in H.
  - injection H as <- <-. constructor.
  - destruct (emit D s L n m) as [[s1 tr1]|] eqn:E; [|discriminate]. cbn [bind] in H.
    destruct (emit_all D s1 L n ms) as [[s2 tr2]|] eqn:E2; [|discriminate]. cbn [bind] in H. injection H as <- <-.
    econstructor; eauto using emit_sound.
Qed.
End Sound.

Lemma deliver_sound fuel : forall s L t m s' tr, deliver fuel s L t m = Ok (s', tr) -> del s L t m s' tr.
Proof.
  induction fuel as [|fuel IH]; intros s L t m s' tr H; cbn [deliver] in H; [discriminate|].
  destruct t as [u|n i|n].
  - injection H as <- <-. constructor.
  - destruct (live s n) as [x|] eqn:Hl; [|discriminate]. cbn [bind] in H.
    assert (Hf : cls x <> Chain -> (let '(y, outs) := behave (cls x) (st x) i m in
       do '(s', tr) <- emit_all (deliver fuel) (upd n (set_st x y) s) L n outs; Ok (s', Input n i m :: tr)) = Ok (s', tr) ->
       del s L (ToInput n i) m s' tr).
    { intros Hc. destruct (behave (cls x) (st x) i m) as [y os] eqn:Hb. intros H'.
      destruct (emit_all (deliver fuel) (upd n (set_st x y) s) L n os) as [[s1 tr1]|] eqn:E; [|discriminate]. cbn [bind] in H'.
      injection H' as <- <-. eapply del_filter; eauto. eapply emit_all_sound; eauto. }
    destruct (cls x) eqn:Hc; try (apply Hf; [discriminate|exact H]).
    destruct (filters x) as [|[f p] fl] eqn:Hfl.
    + injection H as <- <-. eapply del_chain_empty; eauto.
    + destruct (deliver fuel s L (ToInput f 0) m) as [[s1 tr1]|] eqn:E; [|discriminate]. cbn [bind] in H. injection H as <- <-.
      eapply del_chain; eauto.
  - destruct (live s n) as [x|] eqn:Hl; [|discriminate]. cbn [bind] in H. constructor. eapply emit_sound; eauto.
Qed.

(** ** the wiring does not change *)
Definition wire (x : node) := (alive x, cls x, cbs x, next x, (ins x, filters x, last x, internal x)).
Definition same_wiring (s s' : state) : Prop := map wire s' = map wire s.

Lemma same_wiring_refl s : same_wiring s s. Proof. reflexivity. Qed.
Lemma same_wiring_trans s1 s2 s3 : same_wiring s1 s2 -> same_wiring s2 s3 -> same_wiring s1 s3.
Proof. unfold same_wiring. congruence. Qed.
Lemma same_wiring_nth s s' n x : same_wiring s s' -> nth_error s n = Some x -> exists x', nth_error s' n = Some x' /\ wire x' = wire x.
Proof.
  intros H Hn. assert (E : nth_error (map wire s') n = Some (wire x)).
  { rewrite H. now apply map_nth_error. }
  rewrite nth_error_map in E. destruct (nth_error s' n); [|discriminate]. cbn in E. injection E as E1 E2 E3 E4 E5 E6 E7 E8. exists n0. split; auto.
  unfold wire. congruence.
Qed.
Lemma same_wiring_sym s s' : same_wiring s s' -> same_wiring s' s.
Proof. unfold same_wiring. congruence. Qed.
Lemma live_nth (s : state) n x : live s n = Ok x <-> nth_error s n = Some x /\ alive x = true.
Proof.
  unfold live. destruct (nth_error s n) as [y|]; [|split; [discriminate|intros [H _]; discriminate]].
  destruct (alive y) eqn:E; split.
  - intros H; injection H as <-. auto.
  - intros [H _]. congruence.
  - discriminate.
  - intros [H H']. congruence.
Qed.
Lemma same_wiring_live s s' n x : same_wiring s s' -> live s n = Ok x -> exists x', live s' n = Ok x' /\ wire x' = wire x.
Proof.
  intros H Hl. apply live_nth in Hl as [Hn Ha]. destruct (same_wiring_nth s s' n x H Hn) as (x' & Hn' & Hw).
  exists x'. split; auto. apply live_nth. split; auto. unfold wire in Hw. congruence.
Qed.
Lemma set_st_wire s n x y : nth_error s n = Some x -> same_wiring s (upd n (set_st x y) s).
Proof.
  intros H. unfold same_wiring. rewrite map_upd. change (wire (set_st x y)) with (wire x).
  revert n H. induction s as [|z s IH]; intros [|n] H; cbn in *; try discriminate; auto.
  - now injection H as ->.
  - f_equal. auto.
Qed.

Lemma flow_wiring :
  (forall s L t m s' tr, del s L t m s' tr -> same_wiring s s') /\
  (forall s L n m s' tr, em s L n m s' tr -> same_wiring s s') /\
  (forall s L n ms s' tr, ems s L n ms s' tr -> same_wiring s s') /\
  (forall s L l m s' tr, cal s L l m s' tr -> same_wiring s s').
Proof.
  apply flow_mut; intros; try apply same_wiring_refl; auto; eauto using same_wiring_trans.
  eapply same_wiring_trans; [|eassumption]. apply set_st_wire. now apply live_nth in e.
Qed.

(** ** locked filters do not signal *)
Lemma outputs_app n (a b : list obs) : outputs n (a ++ b) = outputs n a ++ outputs n b.
Proof. apply flat_map_app. Qed.
Lemma flow_locked n :
  (forall s L t m s' tr, del s L t m s' tr -> In n L -> outputs n tr = []) /\
  (forall s L g m s' tr, em s L g m s' tr -> In n L -> outputs n tr = []) /\
  (forall s L g ms s' tr, ems s L g ms s' tr -> In n L -> outputs n tr = []) /\
  (forall s L l m s' tr, cal s L l m s' tr -> In n L -> outputs n tr = []).
Proof.
  apply flow_mut; intros; try reflexivity; auto.
  - cbn. destruct (Nat.eqb_spec n0 n) as [->|Hne]; [contradiction|]. apply H. cbn. auto.
  - rewrite outputs_app, H, H0; auto.
  - rewrite outputs_app, H, H0; auto.
Qed.

(** ** a kind of target with a single callback *)
Definition act (hit : target -> bool) (o : obs) : list M :=
  match o with
  | Called u m => if hit (ToUser u) then [m] else []
  | Input n i m => if hit (ToInput n i) then [m] else []
  | Output n m => if hit (ToOutput n) then [m] else []
  end.
Definition acts (hit : target -> bool) (tr : list obs) : list M := flat_map (act hit) tr.
Lemma acts_app hit a b : acts hit (a ++ b) = acts hit a ++ acts hit b.
Proof. apply flat_map_app. Qed.

Definition count (hit : target -> bool) (l : list (nat * target)) : nat := length (filter (fun c => hit (snd c)) l).

Record fed (hit : target -> bool) (f : nat) (s : state) : Prop := mkFed {
  fed_count : forall g x, live s g = Ok x -> count hit (cbs x) = if Nat.eqb g f then 1 else 0;
  fed_first : forall c x a p fl, live s c = Ok x -> cls x = Chain -> filters x = (a, p) :: fl -> hit (ToInput a 0) = false;
  fed_out : forall n x, live s n = Ok x -> hit (ToOutput n) = true -> cls x = Chain /\ n <> f
}.
Lemma fed_wiring hit f s s' : same_wiring s s' -> fed hit f s -> fed hit f s'.
Proof.
  intros HW [H1 H2 H3]. apply same_wiring_sym in HW. split.
  - intros g x Hl. destruct (same_wiring_live _ _ _ _ HW Hl) as (x' & Hl' & Hw). unfold wire in Hw. injection Hw as _ _ E _ _ _ _ _. rewrite <- E. auto.
  - intros c x a p fl Hl Hc Hf. destruct (same_wiring_live _ _ _ _ HW Hl) as (x' & Hl' & Hw). unfold wire in Hw.
    injection Hw as _ E1 _ _ _ E2 _ _. eapply (H2 c x'); [exact Hl'|congruence|]. rewrite E2; exact Hf.
  - intros n x Hl Hh. destruct (same_wiring_live _ _ _ _ HW Hl) as (x' & Hl' & Hw). unfold wire in Hw.
    injection Hw as _ E1 _ _ _ _ _ _. rewrite <- E1. eauto.
Qed.

Lemma flow_fed hit f :
  (forall s L t m s' tr, del s L t m s' tr -> fed hit f s -> acts hit tr = (if hit t then [m] else []) ++ outputs f tr) /\
  (forall s L g m s' tr, em s L g m s' tr -> fed hit f s -> acts hit tr = (if hit (ToOutput g) then [m] else []) ++ outputs f tr) /\
  (forall s L g ms s' tr, ems s L g ms s' tr -> fed hit f s -> hit (ToOutput g) = false -> acts hit tr = outputs f tr) /\
  (forall s L l m s' tr, cal s L l m s' tr -> fed hit f s ->
     (count hit l = 0 -> acts hit tr = outputs f tr) /\ (In f L -> acts hit tr = repeat m (count hit l))).
Proof.
  apply flow_mut; intros.
  - cbn. reflexivity.
  - cbn. rewrite !app_nil_r. reflexivity.
  - cbn [acts flat_map act]. rewrite (fed_first _ _ _ H0 n x f0 p fl e e0 e1) in H.
    change (flat_map (act hit) tr) with (acts hit tr). now rewrite H.
  - cbn [acts flat_map act]. change (flat_map (act hit) tr) with (acts hit tr).
    assert (Hn : nth_error s n = Some x) by (now apply live_nth in e).
    rewrite H; auto.
    + eapply fed_wiring; eauto using set_st_wire.
    + destruct (hit (ToOutput n)) eqn:Hh; auto. destruct (fed_out _ _ _ H0 n x e Hh). contradiction.
  - auto.
  - cbn [acts flat_map act]. change (flat_map (act hit) tr) with (acts hit tr).
    destruct (H H0) as [Hc0 Hc1]. pose proof (fed_count _ _ _ H0 n x e) as Hcnt. cbn [outputs flat_map].
    change (flat_map _ tr) with (outputs f tr). destruct (Nat.eqb_spec n f) as [->|Hne].
    + rewrite (Hc1 (or_introl eq_refl)), Hcnt. cbn.
      rewrite (proj2 (proj2 (proj2 (flow_locked f))) _ _ _ _ _ _ c) by (cbn; auto).
      now destruct (hit (ToOutput f)).
    + now rewrite (Hc0 Hcnt).
  - reflexivity.
  - rewrite acts_app, outputs_app, H, H0; auto.
    + rewrite H2. reflexivity.
    + eapply fed_wiring; [|exact H1]. eapply (proj1 (proj2 flow_wiring)); eauto.
  - split; reflexivity.
  - specialize (H H1). assert (HF : fed hit f s1) by (eapply fed_wiring; [|exact H1]; eapply (proj1 flow_wiring); eauto).
    destruct (H0 HF) as [A B]. split.
    + intros Hc. unfold count in Hc. cbn in Hc. destruct (hit t) eqn:Ht; [discriminate|].
      rewrite acts_app, outputs_app, H, A; auto.
    + intros Hin. rewrite acts_app, H, (B Hin). rewrite (proj1 (flow_locked f) _ _ _ _ _ _ d Hin), app_nil_r.
      unfold count. cbn [filter snd]. destruct (hit t); reflexivity.
Qed.

(** ** the first filter of a chain *)
Definition is_input (n i : nat) (t : target) : bool :=
  match t with ToInput n' i' => Nat.eqb n' n && Nat.eqb i' i | _ => false end.
Definition is_output (n : nat) (t : target) : bool := match t with ToOutput n' => Nat.eqb n' n | _ => false end.

Lemma acts_inputs n i tr : acts (is_input n i) tr = inputs n i tr.
Proof. unfold acts, inputs. apply flat_map_ext. intros [u m|n' i' m|n' m]; reflexivity. Qed.
Lemma acts_outputs n tr : acts (is_output n) tr = outputs n tr.
Proof. unfold acts, outputs. apply flat_map_ext. intros [u m|n' i' m|n' m]; reflexivity. Qed.
Lemma inputs_app n i (a b : list obs) : inputs n i (a ++ b) = inputs n i a ++ inputs n i b.
Proof. apply flat_map_app. Qed.
Lemma received_app n (a b : list obs) : received n (a ++ b) = received n a ++ received n b.
Proof. apply flat_map_app. Qed.

(** [f] is the first filter of chain [c] only and no callback feeds it *)
Record heads (c f : nat) (s : state) : Prop := mkHeads {
  heads_count : forall g x, live s g = Ok x -> count (is_input f 0) (cbs x) = 0;
  heads_first : forall c' x a p fl, live s c' = Ok x -> cls x = Chain -> filters x = (a, p) :: fl -> (a = f <-> c' = c);
  heads_nonempty : forall x, live s c = Ok x -> cls x = Chain /\ filters x <> []
}.
Lemma heads_wiring c f s s' : same_wiring s s' -> heads c f s -> heads c f s'.
Proof.
  intros HW [H1 H2 H3]. apply same_wiring_sym in HW. split.
  - intros g x Hl. destruct (same_wiring_live _ _ _ _ HW Hl) as (x' & Hl' & Hw). unfold wire in Hw. injection Hw as _ _ E _ _ _ _ _. rewrite <- E. eauto.
  - intros c' x a p fl Hl Hc Hf. destruct (same_wiring_live _ _ _ _ HW Hl) as (x' & Hl' & Hw). unfold wire in Hw.
    injection Hw as _ E1 _ _ _ E2 _ _. eapply (H2 c' x'); [exact Hl'|congruence|]. rewrite E2. exact Hf.
  - intros x Hl. destruct (same_wiring_live _ _ _ _ HW Hl) as (x' & Hl' & Hw). unfold wire in Hw.
    injection Hw as _ E1 _ _ _ E2 _ _. rewrite <- E1, <- E2. eauto.
Qed.

(** every message a chain receives on any input *)
Definition received_msgs (c : nat) (tr : list obs) : list M := map snd (received c tr).
Lemma received_msgs_app c a b : received_msgs c (a ++ b) = received_msgs c a ++ received_msgs c b.
Proof. unfold received_msgs. now rewrite received_app, map_app. Qed.

Lemma flow_heads c f : c <> f ->
  (forall s L t m s' tr, del s L t m s' tr -> heads c f s -> inputs f 0 tr = (if is_input f 0 t then [m] else []) ++ received_msgs c tr) /\
  (forall s L g m s' tr, em s L g m s' tr -> heads c f s -> inputs f 0 tr = received_msgs c tr) /\
  (forall s L g ms s' tr, ems s L g ms s' tr -> heads c f s -> inputs f 0 tr = received_msgs c tr) /\
  (forall s L l m s' tr, cal s L l m s' tr -> heads c f s -> count (is_input f 0) l = 0 -> inputs f 0 tr = received_msgs c tr).
Proof.
  intros Hcf. apply flow_mut; intros.
  - reflexivity.
  - cbn [inputs flat_map received_msgs received map is_input]. unfold received_msgs. cbn [received flat_map].
    destruct (Nat.eqb_spec n c) as [->|Hne].
    + destruct (heads_nonempty _ _ _ H x e) as [_ Hx]. contradiction.
    + cbn. rewrite !app_nil_r. reflexivity.
  - cbn [inputs flat_map is_input]. change (flat_map _ tr) with (inputs f 0 tr). rewrite H by auto. cbn [is_input].
    unfold received_msgs at 2. cbn [received flat_map]. change (flat_map _ tr) with (received c tr).
    pose proof (heads_first _ _ _ H0 n x f0 p fl e e0 e1) as Hh.
    rewrite (Nat.eqb_refl 0), andb_true_r. destruct (Nat.eqb_spec n c) as [->|Hne].
    + rewrite (proj2 Hh eq_refl), Nat.eqb_refl. destruct (Nat.eqb_spec c f); [contradiction|]. reflexivity.
    + destruct (Nat.eqb_spec f0 f) as [->|]; [tauto|]. reflexivity.
  - cbn [inputs flat_map is_input]. change (flat_map _ tr) with (inputs f 0 tr).
    assert (Hn : nth_error s n = Some x) by (now apply live_nth in e).
    rewrite H by (eapply heads_wiring; eauto using set_st_wire).
    unfold received_msgs at 2. cbn [received flat_map]. change (flat_map _ tr) with (received c tr).
    destruct (Nat.eqb_spec n c) as [->|Hne]; [|reflexivity]. destruct (heads_nonempty _ _ _ H0 x e). contradiction.
  - rewrite H by auto. reflexivity.
  - cbn [inputs flat_map]. change (flat_map _ tr) with (inputs f 0 tr). rewrite H; auto.
    eapply heads_count; eauto.
  - reflexivity.
  - rewrite inputs_app, received_msgs_app, H, H0; auto. eapply heads_wiring; [|exact H1]. eapply (proj1 (proj2 flow_wiring)); eauto.
  - reflexivity.
  - unfold count in H2. cbn [filter snd] in H2. destruct (is_input f 0 t) eqn:Ht; [discriminate|].
    rewrite inputs_app, received_msgs_app, H, H0; auto.
    eapply heads_wiring; [|exact H1]. eapply (proj1 flow_wiring); eauto.
Qed.

(** ** what a filter computes *)
Lemma transform_app f (x : S) (a b : list (nat * M)) :
  transform f x (a ++ b) = let '(x1, o1) := transform f x a in let '(x2, o2) := transform f x1 b in (x2, o1 ++ o2).
Proof.
  revert x; induction a as [|[i m] a IH]; intros x; cbn.
  - destruct (transform f x b); reflexivity.
  - destruct (f x i m) as [x1 o1]. rewrite IH. destruct (transform f x1 a) as [x2 o2]. destruct (transform f x2 b) as [x3 o3].
    now rewrite app_assoc.
Qed.

Definition no_outputs_but_chains (s : state) : Prop :=
  forall g x k c y, live s g = Ok x -> In (k, ToOutput c) (cbs x) -> live s c = Ok y -> cls y = Chain.
Lemma nobc_wiring s s' : same_wiring s s' -> no_outputs_but_chains s -> no_outputs_but_chains s'.
Proof.
  intros HW H g x k c y Hg Hin Hc. apply same_wiring_sym in HW.
  destruct (same_wiring_live _ _ _ _ HW Hg) as (x' & Hg' & Hw). destruct (same_wiring_live _ _ _ _ HW Hc) as (y' & Hc' & Hw').
  unfold wire in Hw, Hw'. injection Hw as _ _ E _ _ _ _ _. injection Hw' as _ E' _ _ _ _ _ _. rewrite <- E'.
  apply (H g x' k c y' Hg'); auto. rewrite E. exact Hin.
Qed.

Definition state_of (n : nat) (s : state) : option S := option_map (@st S M U) (nth_error s n).

Lemma nth_error_upd_eq {A} k (x : A) l y : nth_error l k = Some y -> nth_error (upd k x l) k = Some x.
Proof. revert k. induction l as [|z l IH]; intros [|k] H; cbn in *; try discriminate; auto. Qed.
Lemma nth_error_upd_neq {A} k k' (x : A) l : k <> k' -> nth_error (upd k x l) k' = nth_error l k'.
Proof. revert k k'. induction l as [|y l IH]; intros [|k] [|k'] H; cbn; auto; congruence. Qed.

(** [comp n c a r o b]: from state [a], the received messages [r] lead to outputs [o], state [b] *)
Definition comp (c : class S M) (a : option S) (r : list (nat * M)) (o : list M) (b : option S) : Prop :=
  match a, b with
  | Some x, Some y => transform (behave c) x r = (y, o)
  | _, _ => False
  end.
Lemma comp_nil c a : a <> None -> comp c a [] [] a.
Proof. destruct a; cbn; congruence. Qed.
Lemma comp_app c a r1 o1 b r2 o2 d : comp c a r1 o1 b -> comp c b r2 o2 d -> comp c a (r1 ++ r2) (o1 ++ o2) d.
Proof.
  destruct a, b, d; cbn; try contradiction. intros H1 H2. now rewrite transform_app, H1, H2.
Qed.

Lemma flow_comp n c :
  c <> Chain ->
  let ok s := no_outputs_but_chains s /\ exists x, nth_error s n = Some x /\ cls x = c in
  (forall s L t m s' tr, del s L t m s' tr -> ok s -> (t = ToOutput n -> False) -> comp c (state_of n s) (received n tr) (outputs n tr) (state_of n s')) /\
  (forall s L g m s' tr, em s L g m s' tr -> ok s ->
     comp c (state_of n s) (received n tr) (if Nat.eqb g n then [] else outputs n tr) (state_of n s') /\ (g = n -> outputs n tr = [m])) /\
  (forall s L g ms s' tr, ems s L g ms s' tr -> ok s ->
     comp c (state_of n s) (received n tr) (if Nat.eqb g n then [] else outputs n tr) (state_of n s') /\ (g = n -> outputs n tr = ms)) /\
  (forall s L l m s' tr, cal s L l m s' tr -> ok s -> (forall k, ~ In (k, ToOutput n) l) ->
     comp c (state_of n s) (received n tr) (outputs n tr) (state_of n s')).
Proof.
  intros Hch ok.
  assert (Hst : forall s, ok s -> state_of n s <> None).
  { intros s [_ (x & Hx & _)]. unfold state_of. rewrite Hx. discriminate. }
  assert (HW : forall s s', same_wiring s s' -> ok s -> ok s').
  { intros s s' Hw [H1 (x & Hx & Hc)]. split; [eapply nobc_wiring; eauto|].
    destruct (same_wiring_nth _ _ _ _ Hw Hx) as (x' & Hx' & Hww). exists x'. split; auto. unfold wire in Hww. congruence. }
  apply flow_mut; intros.
  - now apply comp_nil, Hst.
  - cbn [received outputs flat_map]. destruct (Nat.eqb_spec n0 n) as [->|Hne]; [|now apply comp_nil, Hst].
    exfalso. destruct H as [_ (y & Hy & Hc)]. apply live_nth in e as [e _]. congruence.
  - cbn [received outputs flat_map]. destruct (Nat.eqb_spec n0 n) as [->|Hne].
    + exfalso. destruct H0 as [_ (y & Hy & Hc)]. apply live_nth in e as [e _]. congruence.
    + apply H; auto. discriminate.
  - cbn [received outputs flat_map]. change (flat_map _ tr) with (received n tr) at 1. change (flat_map _ tr) with (outputs n tr).
    assert (Hn : nth_error s n0 = Some x) by (now apply live_nth in e).
    pose proof (HW _ _ (set_st_wire s n0 x y Hn) H0) as Hok. destruct (H Hok) as [A B].
    destruct (Nat.eqb_spec n0 n) as [->|Hne].
    + destruct H0 as [_ (x' & Hx' & Hc')]. rewrite Hn in Hx'. injection Hx' as <-. rewrite B by auto.
      assert (HX : comp c (state_of n s) [(i, m)] os (state_of n (upd n (set_st x y) s))).
      { unfold state_of. rewrite Hn, (nth_error_upd_eq _ _ _ _ Hn). cbn. rewrite <- Hc', e0. now rewrite app_nil_r. }
      pose proof (comp_app _ _ _ _ _ _ _ _ HX A) as HC. rewrite app_nil_r in HC. exact HC.
    + replace (state_of n s) with (state_of n (upd n0 (set_st x y) s)); [exact A|].
      unfold state_of. now rewrite nth_error_upd_neq.
  - destruct (H H0) as [A _]. destruct (Nat.eqb_spec n0 n) as [->|]; [exfalso; auto|exact A].
  - cbn [received outputs flat_map]. change (flat_map _ tr) with (received n tr) at 1. change (flat_map _ tr) with (outputs n tr).
    assert (Hno : forall k, ~ In (k, ToOutput n) (cbs x)).
    { intros k Hin. destruct H0 as [H1 (y & Hy & Hc)]. destruct (alive y) eqn:Ha.
      - apply Hch. rewrite <- Hc. eapply (H1 n0 x k n y); eauto. apply live_nth. auto.
      - (* a dead filter would have been used *)
        clear - c0 Hin Hy Ha. assert (Hgen : forall s L l m s' tr, cal s L l m s' tr -> In (k, ToOutput n) l -> exists z, nth_error s n = Some z /\ alive z = true).
        { intros s1 L1 l m1 s1' tr1 Hcal. induction Hcal as [|s1 L1 k1 t1 l m1 s2 tr1 s3 tr2 Hd Hcal IH]; intros Hin'; [destruct Hin'|].
          destruct Hin' as [E|Hin'].
          - injection E as -> ->. inversion Hd; subst. match goal with H : em _ _ _ _ _ _ |- _ => inversion H; subst end.
            match goal with H : live s1 n = Ok ?z |- _ => apply live_nth in H as [? ?]; exists z; auto end.
          - destruct (IH Hin') as (z & Hz & Hza). apply (proj1 flow_wiring) in Hd. apply same_wiring_sym in Hd.
            destruct (same_wiring_nth _ _ _ _ Hd Hz) as (z' & Hz' & Hw). exists z'. split; auto. unfold wire in Hw. congruence. }
        destruct (Hgen _ _ _ _ _ _ c0 Hin) as (z & Hz & Hza). congruence. }
    specialize (H H0 Hno). destruct (Nat.eqb_spec n0 n) as [->|Hne].
    + assert (Ho : outputs n tr = []) by (apply (proj2 (proj2 (proj2 (flow_locked n))) _ _ _ _ _ _ c0); cbn; auto).
      rewrite Ho in *. split; auto.
    + split; [exact H|congruence].
  - split; [|auto]. destruct (Nat.eqb n0 n); now apply comp_nil, Hst.
  - destruct (H H1) as [A B]. assert (Hok1 : ok s1) by (eapply HW; [|exact H1]; eapply (proj1 (proj2 flow_wiring)); eauto).
    destruct (H0 Hok1) as [A' B']. rewrite received_app, outputs_app. split.
    + destruct (Nat.eqb_spec n0 n) as [->|Hne].
      * change (@nil M) with (@nil M ++ []). eapply comp_app; eauto.
      * eapply comp_app; eauto.
    + intros ->. rewrite (B eq_refl), (B' eq_refl). reflexivity.
  - now apply comp_nil, Hst.
  - assert (Hok1 : ok s1) by (eapply HW; [|exact H1]; eapply (proj1 flow_wiring); eauto).
    rewrite received_app, outputs_app. eapply comp_app; [apply H; auto|apply H0; auto].
    + intros ->. apply (H2 k). cbn. auto.
    + intros k' Hin. apply (H2 k'). cbn. auto.
Qed.
End Flow.
