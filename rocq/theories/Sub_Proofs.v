(** Invariant of Subscriber. *)
From Coq Require Import String List Arith Lia Bool.
From Verif Require Import Base Sub_Model Sub_Spec.
Import ListNotations.

Section Proofs.
Context {Q R O M : Type}.
Variable from_rmw : R -> Q.
Variable opts0 : O.
Variable qos0 : Q.
Variable accepts : string -> Q -> O -> bool.
Notation request := (request Q O).
Notation form := (form Q R O).
Notation event := (event Q O M).
Notation op := (op Q R O M).
Notation state := (state Q O).
Notation step := (step (M := M) from_rmw opts0 accepts).
Notation run := (run (M := M) from_rmw opts0 accepts).
Notation init := (init opts0 qos0).
Notation wanted := (wanted (M := M) from_rmw opts0).
Notation current := (current (M := M) from_rmw opts0 accepts).
Notation on := (on (Q := Q) (R := R) (O := O) (M := M)).
Notation asked_qos := (asked_qos (O := O) from_rmw).
Notation asked_options := (asked_options (Q := Q) (R := R) opts0).

(** ** Histories *)
Lemma run_snoc h o : forall (s s2 : state) rs, run s (h ++ [o]) = Ok (s2, rs) ->
  exists s1 rs1 r ev, run s h = Ok (s1, rs1) /\ step s1 o = Ok (s2, r, ev) /\ rs = rs1 ++ [(r, ev)].
Proof.
  induction h as [|a h IH]; intros s s2 rs H; cbn [app Sub_Model.run] in *.
  - destruct (step s o) as [[[sx r] ev]|] eqn:E; [|discriminate]. cbn in H. injection H as <- <-. exists s, [], r, ev. auto.
  - destruct (step s a) as [[[sx r] ev]|] eqn:E; [|discriminate]. cbn [bind] in *. destruct (run sx (h ++ [o])) as [[s3 rs3]|] eqn:E3; [|discriminate].
    cbn in H. injection H as <- <-. destruct (IH _ _ _ E3) as (s1 & rs1 & r' & ev' & E1 & E2 & ->). exists s1, ((r, ev) :: rs1), r', ev'. rewrite E1. cbn. auto.
Qed.
Lemma run_app h1 h2 : forall (s s2 : state) rs, run s (h1 ++ h2) = Ok (s2, rs) ->
  exists s1 rs1 rs2, run s h1 = Ok (s1, rs1) /\ run s1 h2 = Ok (s2, rs2) /\ rs = rs1 ++ rs2.
Proof.
  induction h1 as [|a h IH]; intros s s2 rs H; cbn [app Sub_Model.run] in *; [exists s, [], rs; auto|].
  destruct (step s a) as [[[sx r] ev]|] eqn:E; [|discriminate]. cbn [bind] in *. destruct (run sx (h ++ h2)) as [[s3 rs3]|] eqn:E3; [|discriminate].
  cbn in H. injection H as <- <-. destruct (IH _ _ _ E3) as (s1 & rs1 & rs2 & E1 & E2 & ->). exists s1, ((r, ev) :: rs1), rs2. rewrite E1. cbn. auto.
Qed.
Lemma last_of_snoc {A B} (f : A -> option B) h o : last_of f (h ++ [o]) = match f o with Some x => Some x | None => last_of f h end.
Proof. unfold last_of. rewrite fold_left_app. reflexivity. Qed.
Lemma events_snoc (rs : list (result * list event)) r ev : events (rs ++ [(r, ev)]) = events rs ++ ev.
Proof. unfold events. rewrite map_app, concat_app. cbn. now rewrite app_nil_r. Qed.
Lemma never_snoc (p : op -> bool) h o : never p (h ++ [o]) -> never p h /\ p o = false.
Proof. intros H. split; [intros x Hx; apply H; apply in_or_app; auto|apply H; apply in_or_app; right; left; auto]. Qed.

Lemma NoDup_app_iff_local {A} (l : list A) x : NoDup l -> ~ In x l -> NoDup (l ++ [x]).
Proof. intros H N. apply NoDup_rev in H. rewrite <- (rev_involutive (l ++ [x])), rev_app_distr. apply NoDup_rev. cbn. constructor; [now rewrite <- in_rev|auto]. Qed.
Lemma nth_error_Some_lt {A} (l : list A) k x : nth_error l k = Some x -> k < length l.
Proof. intros H. apply nth_error_Some. congruence. Qed.
(** ** The invariant *)
Definition node_used (s : state) : option nat := match node_raw s with Some n => Some n | None => node_shared s end.
Record inv (h : list op) (rs : list (result * list event)) (s : state) : Prop := mkInv {
  i_gone : gone s = existsb destroys h;
  i_cur : match sub_ s with
          | Some k => exists r r0, nth_error (made s) k = Some r /\ current h = Some r0 /\ same r r0
          | None => current h = None
          end;
  i_sub : gone s = true -> sub_ s = None;
  i_want : match wanted h with
           | Some r => topic_ s = rtopic r /\ qos_ s = rqos r /\ options_ s = ropts r /\ topic_ s <> ""%string /\
                       (accepts (rtopic r) (rqos r) (ropts r) = true -> gone s = false -> node_used s <> None)
           | None => topic_ s = ""%string
           end;
  i_open : forall k r, In (k, r) (open (events rs)) <-> exists_sub s k = true /\ nth_error (made s) k = Some r;
  i_nodup : NoDup (map fst (open (events rs)));
  i_made : forall k, exists_sub s k = true -> k < length (made s);
  i_held : forall k, count_occ Nat.eq_dec (held s) k + given_up k h = obtained k rs
}.

Lemma inv_init : inv [] [] init.
Proof.
  split; cbn; auto; try discriminate; try constructor.
  - intros [].
  - intros [H _]. discriminate.
Qed.

Lemma mem_In k l : mem k l = true <-> In k l.
Proof. unfold mem. rewrite existsb_exists. split; [intros (x & Hx & E); apply Nat.eqb_eq in E; now subst|intros H; exists k; split; auto; apply Nat.eqb_refl]. Qed.
Lemma drop1_count k l j : In k l -> count_occ Nat.eq_dec (drop1 k l) j + (if Nat.eqb k j then 1 else 0) = count_occ Nat.eq_dec l j.
Proof.
  induction l as [|x l IH]; [intros []|]. intros H. cbn [drop1]. destruct (Nat.eqb_spec x k) as [->|N].
  - cbn. destruct (Nat.eq_dec k j) as [->|N']; [rewrite Nat.eqb_refl; lia|]. destruct (Nat.eqb_spec k j); [contradiction|lia].
  - destruct H as [->|H]; [contradiction|]. specialize (IH H). cbn. destruct (Nat.eq_dec x j); lia.
Qed.
Lemma open_snoc evs (e : event) : open (evs ++ [e]) = observe (open evs) e.
Proof. unfold open. now rewrite fold_left_app. Qed.
Lemma open_app (evs l : list event) : open (evs ++ l) = fold_left observe l (open evs) :> list (nat * request).
Proof. unfold open. now rewrite fold_left_app. Qed.
Lemma nodup_filter (l : list (nat * request)) p : NoDup (map fst l) -> NoDup (map fst (filter p l)).
Proof.
  induction l as [|x l IH]; cbn; auto. intros H. inversion H as [|? ? H1 H2]; subst. destruct (p x); auto. cbn. constructor; auto.
  intros Hi. apply H1. apply in_map_iff in Hi as (y & E & Hy). apply filter_In in Hy as [Hy _]. rewrite <- E. now apply in_map.
Qed.

(** the part about the subscriptions that exist *)
Definition opens (evs : list event) (s : state) : Prop :=
  (forall k r, In (k, r) (open evs) <-> exists_sub s k = true /\ nth_error (made s) k = Some r) /\
  NoDup (map fst (open evs)) /\ (forall k, exists_sub s k = true -> k < length (made s)).

Lemma exists_sub_mem (s : state) k : exists_sub s k = true <-> sub_ s = Some k \/ In k (held s).
Proof.
  unfold exists_sub. rewrite orb_true_iff, mem_In. destruct (sub_ s) as [j|]; cbn; [rewrite Nat.eqb_eq|]; split; intros [H|H]; auto; try discriminate; left; try discriminate; congruence.
Qed.

Lemma opens_unsubscribe evs (s s1 : state) (ev : list event) : opens evs s -> unsubscribe s = (s1, ev) ->
  opens (evs ++ ev) s1 /\ sub_ s1 = None /\ made s1 = made s /\ held s1 = held s /\ released s1 = released s /\ gone s1 = gone s /\
  node_shared s1 = node_shared s /\ node_raw s1 = node_raw s /\ topic_ s1 = topic_ s /\ qos_ s1 = qos_ s /\ options_ s1 = options_ s.
Proof.
  intros (H1 & H2 & H3) E. unfold unsubscribe in E. destruct (sub_ s) as [k|] eqn:Hs; injection E as <- <-.
  - cbn. split; [|repeat split; auto]. destruct (mem k (held s)) eqn:Hm.
    + rewrite app_nil_r. split; [|split; auto].
      * intros j r. rewrite H1, !exists_sub_mem. cbn. rewrite Hs. apply mem_In in Hm. split; intros [[H|H] H']; split; auto; [injection H as <-; auto|discriminate].
      * intros j Hj. apply H3. rewrite exists_sub_mem in *. cbn in Hj. destruct Hj; [discriminate|auto].
    + unfold opens. rewrite open_snoc. cbn [observe]. assert (Hk : ~ In k (held s)) by (rewrite <- mem_In, Hm; discriminate). split; [|split].
      * intros j r. rewrite filter_In, H1, !exists_sub_mem. cbn [fst sub_ held made set_sub]. rewrite Hs, negb_true_iff, Nat.eqb_neq. split.
        -- intros ([[E|E] E'] & N); [injection E as ->; contradiction|auto].
        -- intros ([E|E] & E'); [discriminate|]. repeat split; auto. intros ->. contradiction.
      * now apply nodup_filter.
      * intros j Hj. apply H3. rewrite exists_sub_mem in *. cbn in Hj. destruct Hj; [discriminate|auto].
  - rewrite app_nil_r. split; [split; auto|repeat split; auto].
Qed.

Definition set3 (s : state) t q o := topic_ s = t /\ qos_ s = q /\ options_ s = o.
Definition kept (s s' : state) := held s' = held s /\ released s' = released s /\ gone s' = gone s.
Definition nodes (s : state) sh rw := node_shared s = sh /\ node_raw s = rw.

Lemma raw_spec evs (s s' : state) n t q o r (ev : list event) : opens evs s -> subscribe_raw accepts s n t q o = Ok (s', r, ev) ->
  opens (evs ++ ev) s' /\ kept s s' /\
  ((t = ""%string /\ sub_ s' = None /\ set3 s' (topic_ s) (qos_ s) (options_ s) /\ nodes s' (node_shared s) (node_raw s) /\ r = Done) \/
   (t <> ""%string /\ set3 s' t q o /\
    (accepts t q o = true /\ (exists k, sub_ s' = Some k /\ nth_error (made s') k = Some (mkRequest n t q o)) /\ nodes s' (node_shared s) (Some n) /\ r = Done \/
     accepts t q o = false /\ sub_ s' = None /\ nodes s' (node_shared s) (node_raw s) /\ r = Threw))).
Proof.
  intros H E. unfold subscribe_raw in E. destruct (unsubscribe s) as [s1 ev1] eqn:Hu.
  destruct (opens_unsubscribe _ _ _ _ H Hu) as (HO & U1 & U2 & U3 & U4 & U5 & U6 & U7 & U8 & U9 & U10).
  destruct (String.eqb_spec t "") as [->|Nt].
  { injection E as <- <- <-. split; auto. split; [repeat split; auto|]. left. repeat split; auto. }
  cbn zeta in E. destruct (exists_node (set_request s1 t q o) n) eqn:Hn; [|discriminate]. destruct (accepts t q o) eqn:Ha.
  - injection E as <- <- <-. cbn [made set_request] in *. destruct HO as (O1 & O2 & O3).
    assert (Hfresh : forall j, In j (held s1) -> j < length (made s1)) by (intros j Hj; apply O3; apply exists_sub_mem; auto).
    split; [|split].
    + unfold opens. rewrite app_assoc, open_snoc. cbn [observe]. split; [|split].
      * intros j x. rewrite in_app_iff, O1, !exists_sub_mem. cbn. rewrite U1. split.
        -- intros [[[E|E] E']|[E|[]]]; [discriminate| |injection E as <- <-; split; auto; now rewrite nth_error_app2, Nat.sub_diag by lia].
           split; [auto|]. rewrite nth_error_app1; auto.
        -- intros [[E|E] E'].
           ++ injection E as <-. rewrite nth_error_app2, Nat.sub_diag in E' by lia. cbn in E'. injection E' as <-. auto.
           ++ left. rewrite nth_error_app1 in E' by auto. auto.
      * rewrite map_app. cbn. apply NoDup_app_iff_local; auto.
        intros Hi. apply in_map_iff in Hi as ((j & x) & Ej & Hj). cbn in Ej. subst j. apply O1 in Hj as [_ Hj]. apply nth_error_Some_lt in Hj. lia.
      * intros j. rewrite exists_sub_mem. cbn. rewrite app_length. cbn. intros [E|E]; [injection E as <-; lia|apply Hfresh in E; lia].
    + repeat split; auto.
    + right. split; [auto|]. split; [repeat split; auto|]. left. split; [auto|]. split; [|repeat split; auto].
      eexists. split; [reflexivity|]. cbn. now rewrite nth_error_app2, Nat.sub_diag by lia.
  - injection E as <- <- <-. split; [|split; [repeat split; auto|right; split; [auto|]; split; [repeat split; auto|right; repeat split; auto]]].
    destruct HO as (O1 & O2 & O3). split; [|split; auto]. exact O1.
Qed.
Lemma shared_spec evs (s s' : state) n t q o r (ev : list event) : opens evs s -> subscribe_shared accepts s n t q o = Ok (s', r, ev) ->
  opens (evs ++ ev) s' /\ kept s s' /\
  ((t = ""%string /\ sub_ s' = None /\ set3 s' (topic_ s) (qos_ s) (options_ s) /\ nodes s' (Some n) None /\ r = Done) \/
   (t <> ""%string /\ set3 s' t q o /\
    (accepts t q o = true /\ (exists k, sub_ s' = Some k /\ nth_error (made s') k = Some (mkRequest n t q o)) /\ nodes s' (Some n) None /\ r = Done \/
     accepts t q o = false /\ sub_ s' = None /\ nodes s' (node_shared s) (node_raw s) /\ r = Threw))).
Proof.
  intros H E. unfold subscribe_shared in E. destruct (subscribe_raw accepts s n t q o) as [[[s1 r1] ev1]|] eqn:Er; [|discriminate]. cbn [bind] in E.
  destruct (raw_spec _ _ _ _ _ _ _ _ _ H Er) as (HO & HK & Hc).
  destruct Hc as [(-> & A & (B1 & B2 & B3) & _ & ->)|(Nt & (B1 & B2 & B3) & [(Ha & (k & K1 & K2) & _ & ->)|(Ha & K & N & ->)])]; injection E as <- <- <-.
  - split; [exact HO|]. split; [exact HK|]. left. repeat split; auto.
  - split; [exact HO|]. split; [exact HK|]. right. split; [auto|]. split; [repeat split; auto|]. left. split; [auto|]. split; [exists k; auto|]. repeat split; auto.
  - split; [exact HO|]. split; [exact HK|]. right. split; [auto|]. split; [repeat split; auto|]. right. repeat split; auto; apply N.
Qed.

(** ** Preservation *)
Lemma wanted_snoc h o : wanted (h ++ [o]) = match requests from_rmw opts0 o with Some x => Some x | None => wanted h end.
Proof. apply last_of_snoc. Qed.
Lemma on_snoc h o : on (h ++ [o]) = match switches o with Some b => b | None => on h end.
Proof. unfold Sub_Spec.on. rewrite last_of_snoc. destruct (switches o); reflexivity. Qed.
Definition ok_request (x : option request) : option request :=
  match x with Some r => if accepts (rtopic r) (rqos r) (ropts r) then Some r else None | None => None end.
Lemma current_eq h : current h = if on h then ok_request (wanted h) else None.
Proof. reflexivity. Qed.
Lemma obtained_snoc k (rs : list (result * list event)) r ev :
  obtained k (rs ++ [(r, ev)]) = obtained k rs + match r with Handle (Some j) => if Nat.eqb j k then 1 else 0 | _ => 0 end.
Proof.
  unfold obtained. rewrite filter_app, app_length. cbn [filter fst]. destruct r as [| | |[j|]]; cbn; try lia. destruct (Nat.eqb j k); cbn; lia.
Qed.
Lemma given_up_snoc k (h : list op) o : given_up k (h ++ [o]) = given_up k h + match o with DropSub j => if Nat.eqb j k then 1 else 0 | _ => 0 end.
Proof. unfold given_up. rewrite filter_app, app_length. cbn [filter]. destruct o; cbn; try lia. destruct (Nat.eqb k0 k); cbn; lia. Qed.

Definition want (h : list op) (s : state) : Prop :=
  match wanted h with
  | Some r => topic_ s = rtopic r /\ qos_ s = rqos r /\ options_ s = ropts r /\ topic_ s <> ""%string /\
              (accepts (rtopic r) (rqos r) (ropts r) = true -> gone s = false -> node_used s <> None)
  | None => topic_ s = ""%string
  end.
Definition cur (c : option request) (s : state) : Prop :=
  match sub_ s with
  | Some k => exists r r0, nth_error (made s) k = Some r /\ c = Some r0 /\ same r r0
  | None => c = None
  end.
Lemma inv_intro h rs s : gone s = existsb destroys h -> cur (current h) s -> (gone s = true -> sub_ s = None) -> want h s ->
  opens (events rs) s -> (forall k, count_occ Nat.eq_dec (held s) k + given_up k h = obtained k rs) -> inv h rs s.
Proof. intros A B C D (E & F & G) H. split; auto. Qed.
Lemma inv_elim h rs s : inv h rs s -> gone s = existsb destroys h /\ cur (current h) s /\ (gone s = true -> sub_ s = None) /\ want h s /\
  opens (events rs) s /\ (forall k, count_occ Nat.eq_dec (held s) k + given_up k h = obtained k rs).
Proof. intros [A B C D E F G H]. split; [exact A|]. split; [exact B|]. split; [exact C|]. split; [exact D|]. split; [split; auto|exact H]. Qed.

Lemma subscribe_form s n t f : subscribe from_rmw opts0 accepts s n t f =
  (if match f with Shared4 _ _ | RmwShared4 _ _ => true | _ => false end
   then subscribe_shared (M := M) accepts s n t (asked_qos f) (asked_options f)
   else subscribe_raw (M := M) accepts s n t (asked_qos f) (asked_options f)).
Proof. destruct f; reflexivity. Qed.

(** a subscribe call with a topic *)
Definition opened_as n t q o (s s' : state) (r : result) : Prop :=
  accepts t q o = true /\ (exists k, sub_ s' = Some k /\ nth_error (made s') k = Some (mkRequest n t q o)) /\ node_used s' = Some n /\ r = Done \/
  accepts t q o = false /\ sub_ s' = None /\ r = Threw.
Lemma form_spec evs (s s' : state) n t f r (ev : list event) : opens evs s -> subscribe from_rmw opts0 accepts s n t f = Ok (s', r, ev) ->
  opens (evs ++ ev) s' /\ kept s s' /\ (r = Done \/ r = Threw) /\
  ((t = ""%string /\ sub_ s' = None /\ set3 s' (topic_ s) (qos_ s) (options_ s) /\ (node_used s <> None -> node_used s' <> None)) \/
   (t <> ""%string /\ set3 s' t (asked_qos f) (asked_options f) /\ opened_as n t (asked_qos f) (asked_options f) s s' r)).
Proof.
  intros H E. rewrite subscribe_form in E. destruct (match f with Shared4 _ _ | RmwShared4 _ _ => true | _ => false end).
  - destruct (shared_spec _ _ _ _ _ _ _ _ _ H E) as (A & B & [(-> & C & D & (E1 & E2) & ->)|(Nt & C & [(D & F & (G1 & G2) & ->)|(D & F & G & ->)])]);
      (split; [exact A|]; split; [exact B|]; split; [auto|]).
    + left. repeat split; auto; try apply D. intros _. unfold node_used. rewrite E2, E1. discriminate.
    + right. split; [auto|]. split; [auto|]. left. repeat split; auto. unfold node_used. now rewrite G2, G1.
    + right. split; [auto|]. split; [auto|]. right. auto.
  - destruct (raw_spec _ _ _ _ _ _ _ _ _ H E) as (A & B & [(-> & C & D & (E1 & E2) & ->)|(Nt & C & [(D & F & (G1 & G2) & ->)|(D & F & G & ->)])]);
      (split; [exact A|]; split; [exact B|]; split; [auto|]).
    + left. repeat split; auto; try apply D. unfold node_used. now rewrite E2, E1.
    + right. split; [auto|]. split; [auto|]. left. repeat split; auto. unfold node_used. now rewrite G2.
    + right. split; [auto|]. split; [auto|]. right. auto.
Qed.

Lemma resubscribe_spec evs (s s' : state) r (ev : list event) : opens evs s -> resubscribe accepts s = Ok (s', r, ev) ->
  opens (evs ++ ev) s' /\ kept s s' /\ (r = Done \/ r = Threw) /\
  (s' = s /\ (topic_ s = ""%string \/ node_used s = None) \/
   exists n, node_used s = Some n /\ topic_ s <> ""%string /\ set3 s' (topic_ s) (qos_ s) (options_ s) /\ opened_as n (topic_ s) (qos_ s) (options_ s) s s' r /\ node_used s' = Some n).
Proof.
  intros H E. unfold resubscribe in E. destruct (String.eqb_spec (topic_ s) "") as [Et|Nt].
  { injection E as <- <- <-. rewrite app_nil_r. split; [exact H|]. split; [repeat split|]. auto. }
  destruct (node_raw s) as [n|] eqn:Hr.
  - destruct (raw_spec _ _ _ _ _ _ _ _ _ H E) as (A & B & [(Et & _)|(_ & C & [(D & F & (G1 & G2) & ->)|(D & F & (G1 & G2) & ->)])]); [contradiction| |];
      (split; [exact A|]; split; [exact B|]; split; [auto|]; right; exists n; unfold node_used at 1; rewrite Hr; repeat split; auto; try apply C).
    + left. repeat split; auto. unfold node_used. now rewrite G2.
    + unfold node_used. now rewrite G2.
    + right. auto.
    + unfold node_used. now rewrite G2, Hr.
  - destruct (node_shared s) as [n|] eqn:Hs.
    + destruct (shared_spec _ _ _ _ _ _ _ _ _ H E) as (A & B & [(Et & _)|(_ & C & [(D & F & (G1 & G2) & ->)|(D & F & (G1 & G2) & ->)])]); [contradiction| |];
      (split; [exact A|]; split; [exact B|]; split; [auto|]; right; exists n; unfold node_used at 1; rewrite Hr, Hs; repeat split; auto; try apply C).
      * left. repeat split; auto. unfold node_used. now rewrite G2, G1.
      * unfold node_used. now rewrite G2, G1.
      * right. auto.
      * unfold node_used. now rewrite G2, G1, Hr, Hs.
    + injection E as <- <- <-. rewrite app_nil_r. split; [exact H|]. split; [repeat split|]. split; [auto|]. left. split; auto. right. unfold node_used. now rewrite Hr.
Qed.

Lemma inv_step h rs s o s' r (ev : list event) : inv h rs s -> step s o = Ok (s', r, ev) -> inv (h ++ [o]) (rs ++ [(r, ev)]) s'.
Proof.
  intros HI E. destruct (inv_elim _ _ _ HI) as (I1 & I2 & I3 & I4 & I5 & I6).
  assert (Hgone : existsb destroys (h ++ [o]) = gone s || destroys o) by (rewrite existsb_app; cbn; rewrite I1, orb_false_r; reflexivity).
  assert (Hheld : forall c, (forall k, count_occ Nat.eq_dec (held s') k + c k = count_occ Nat.eq_dec (held s) k + match r with Handle (Some j) => if Nat.eqb j k then 1 else 0 | _ => 0 end) ->
    (forall k, c k = match o with DropSub j => if Nat.eqb j k then 1 else 0 | _ => 0 end) ->
    forall k, count_occ Nat.eq_dec (held s') k + given_up k (h ++ [o]) = obtained k (rs ++ [(r, ev)])).
  { intros c Hc Hc' k. rewrite given_up_snoc, obtained_snoc. specialize (Hc k). specialize (Hc' k). specialize (I6 k). lia. }
  destruct o as [n t f| | | | |k|n|k m|]; cbn [Sub_Model.step] in E.
  - destruct (gone s || mem n (released s)) eqn:Hg; [discriminate|]. apply orb_false_iff in Hg as [Hg _].
    destruct (form_spec _ _ _ _ _ _ _ _ I5 E) as (A & (K1 & K2 & K3) & B & C).
    apply inv_intro; rewrite ?events_snoc, ?Hgone, ?K3; cbn [destroys]; rewrite ?orb_false_r; auto; try congruence.
    + rewrite current_eq, on_snoc, wanted_snoc. cbn [switches requests]. unfold cur.
      destruct C as [(-> & C & _)|(Nt & _ & [(D1 & (k & D2 & D3) & _)|(D1 & D2 & _)])]; [rewrite C; reflexivity| |].
      * destruct (String.eqb_spec t ""); [contradiction|]. cbn [negb ok_request rtopic rqos ropts]. rewrite D1, D2. eexists _, _. split; [exact D3|]. split; [reflexivity|]. repeat split.
      * destruct (String.eqb_spec t ""); [contradiction|]. cbn [negb ok_request rtopic rqos ropts]. rewrite D1, D2. reflexivity.
    + unfold want in *. rewrite wanted_snoc. cbn [requests]. destruct C as [(-> & C & (D1 & D2 & D3) & N)|(Nt & (D1 & D2 & D3) & F)].
      * cbn. rewrite D1, D2, D3, K3. destruct (wanted h) as [w|]; [|auto]. destruct I4 as (W1 & W2 & W3 & W4 & W5). repeat split; auto.
      * destruct (String.eqb_spec t ""); [contradiction|]. cbn. repeat split; auto; [congruence|]. intros Ha _. destruct F as [(_ & _ & F & _)|(F & _)]; congruence.
    + apply (Hheld (fun _ => 0)); [|reflexivity]. intros k. rewrite K1. destruct B as [-> | ->]; lia.
  - destruct (gone s) eqn:Hg; [discriminate|]. destruct (resubscribe_spec _ _ _ _ _ I5 E) as (A & (K1 & K2 & K3) & B & C).
    assert (HK : gone s' = false) by congruence.
    apply inv_intro; rewrite ?events_snoc, ?Hgone, ?HK; cbn [destroys]; auto; try discriminate.
    + rewrite current_eq, on_snoc, wanted_snoc. cbn [switches requests]. unfold cur, want in *. destruct C as [(-> & C)|(n & N & Nt & (D1 & D2 & D3) & F & _)].
      * destruct (wanted h) as [w|] eqn:Hw.
        -- destruct I4 as (W1 & W2 & W3 & W4 & W5). destruct C as [C|C]; [contradiction|]. cbn [ok_request].
           destruct (accepts (rtopic w) (rqos w) (ropts w)) eqn:Ha; [exfalso; apply (W5 eq_refl); auto|]. rewrite current_eq, Hw in I2. cbn [ok_request] in I2. rewrite Ha in I2.
           destruct (sub_ s); [destruct I2 as (? & ? & _ & I2 & _); revert I2; destruct (on h); discriminate|reflexivity].
        -- rewrite current_eq, Hw in I2. cbn [ok_request] in *. destruct (sub_ s); [destruct I2 as (? & ? & _ & I2 & _); revert I2; destruct (on h); discriminate|reflexivity].
      * destruct (wanted h) as [w|] eqn:Hw; [|contradiction]. destruct I4 as (W1 & W2 & W3 & W4 & W5). rewrite W1, W2, W3 in *. cbn [ok_request].
        destruct F as [(F1 & (k & F2 & F3) & _)|(F1 & F2 & _)]; rewrite F1, F2; [|reflexivity]. eexists _, _. split; [exact F3|]. split; [reflexivity|]. repeat split.
    + unfold want in *. rewrite wanted_snoc. cbn [requests]. destruct C as [(-> & C)|(n & N & Nt & (D1 & D2 & D3) & F & N')]; [now rewrite Hg in *|].
      destruct (wanted h) as [w|]; [|congruence]. destruct I4 as (W1 & W2 & W3 & W4 & W5). repeat split; try congruence.
    + apply (Hheld (fun _ => 0)); [|reflexivity]. intros k. rewrite K1. destruct B as [-> | ->]; lia.
  - destruct (gone s) eqn:Hg; [discriminate|]. destruct (unsubscribe s) as [s1 ev1] eqn:Hu. injection E as <- <- <-.
    destruct (opens_unsubscribe _ _ _ _ I5 Hu) as (HO & U1 & U2 & U3 & U4 & U5 & U6 & U7 & U8 & U9 & U10).
    apply inv_intro; rewrite ?events_snoc, ?Hgone, ?U5, ?Hg; cbn [destroys]; auto; try discriminate.
    + rewrite current_eq, on_snoc. cbn [switches]. unfold cur. now rewrite U1.
    + unfold want, node_used in *. rewrite wanted_snoc. cbn [requests]. rewrite U5, U6, U7, U8, U9, U10, Hg. rewrite Hg in I4. exact I4.
    + apply (Hheld (fun _ => 0)); [|reflexivity]. intros k. rewrite U3. lia.
  - destruct (gone s) eqn:Hg; [discriminate|]. injection E as <- <- <-.
    apply inv_intro; rewrite ?events_snoc, ?Hgone, ?app_nil_r; cbn [destroys]; rewrite ?orb_false_r; auto; try congruence.
    + rewrite current_eq, on_snoc, wanted_snoc. exact I2.
    + unfold want in *. rewrite wanted_snoc. cbn [requests]. exact I4.
    + apply (Hheld (fun _ => 0)); [|reflexivity]. intros k. lia.
  - destruct (gone s) eqn:Hg; [discriminate|]. injection E as <- <- <-. destruct (sub_ s) as [j|] eqn:Hs.
    + apply inv_intro; rewrite ?events_snoc, ?Hgone, ?app_nil_r; cbn [destroys]; rewrite ?orb_false_r; auto; try (cbn; congruence).
      * rewrite current_eq, on_snoc, wanted_snoc. exact I2.
      * unfold want in *. rewrite wanted_snoc. cbn [requests]. exact I4.
      * destruct I5 as (O1 & O2 & O3). assert (He : forall k, exists_sub (set_held s (j :: held s)) k = true <-> exists_sub s k = true).
        { intros k. rewrite !exists_sub_mem. cbn. rewrite Hs. split; intros [H|H]; auto. destruct H as [->|H]; auto. }
        split; [|split; auto].
        -- intros k x. rewrite O1, He. reflexivity.
        -- intros k Hk. apply O3. now apply He.
      * apply (Hheld (fun _ => 0)); [|reflexivity]. intros k. cbn. destruct (Nat.eq_dec j k) as [->|N]; [rewrite Nat.eqb_refl; lia|]. destruct (Nat.eqb_spec j k); [contradiction|lia].
    + apply inv_intro; rewrite ?events_snoc, ?Hgone, ?app_nil_r; cbn [destroys]; rewrite ?orb_false_r; auto; try congruence.
      * rewrite current_eq, on_snoc, wanted_snoc. exact I2.
      * unfold want in *. rewrite wanted_snoc. cbn [requests]. exact I4.
      * apply (Hheld (fun _ => 0)); [|reflexivity]. intros k. lia.
  - destruct (mem k (held s)) eqn:Hm; [|discriminate]. apply mem_In in Hm. cbn zeta in E. injection E as <- <- <-.
    assert (Hin : forall j, In j (drop1 k (held s)) -> In j (held s)).
    { intros j. rewrite !(count_occ_In Nat.eq_dec). pose proof (drop1_count k (held s) j Hm). lia. }
    assert (Hin' : forall j, In j (held s) -> j <> k -> In j (drop1 k (held s))).
    { intros j. rewrite !(count_occ_In Nat.eq_dec). pose proof (drop1_count k (held s) j Hm) as Hd. destruct (Nat.eqb_spec k j); [congruence|lia]. }
    destruct I5 as (O1 & O2 & O3).
    apply inv_intro; rewrite ?events_snoc, ?Hgone; cbn [destroys]; rewrite ?orb_false_r; auto.
    + rewrite current_eq, on_snoc, wanted_snoc. exact I2.
    + unfold want in *. rewrite wanted_snoc. cbn [requests]. exact I4.
    + destruct (exists_sub (set_held s (drop1 k (held s))) k) eqn:Hk.
      * rewrite app_nil_r. assert (He : forall j, exists_sub (set_held s (drop1 k (held s))) j = true <-> exists_sub s j = true).
        { intros j. rewrite !exists_sub_mem in *. cbn in *. split; intros [H|H]; auto. destruct (Nat.eq_dec j k) as [->|N]; auto. }
        split; [|split; auto].
        -- intros j x. rewrite O1, He. reflexivity.
        -- intros j Hj. apply O3. now apply He.
      * assert (Hk' : ~ (sub_ s = Some k \/ In k (drop1 k (held s)))) by (intros H; pose proof (proj2 (exists_sub_mem (set_held s (drop1 k (held s))) k) H); congruence).
        unfold opens. rewrite open_snoc. cbn [observe]. split; [|split].
        -- intros j x. rewrite filter_In, O1, !exists_sub_mem. cbn [fst sub_ held made set_held]. rewrite negb_true_iff, Nat.eqb_neq. split.
           ++ intros (([H|H] & H') & N); split; auto.
           ++ intros ([H|H] & H'); repeat split; auto; intros ->; apply Hk'; auto.
        -- now apply nodup_filter.
        -- intros j. rewrite exists_sub_mem. cbn. intros H. apply O3. apply exists_sub_mem. destruct H; auto.
    + apply (Hheld (fun j => if Nat.eqb k j then 1 else 0)); [|reflexivity]. intros j. cbn [held set_held]. pose proof (drop1_count k (held s) j Hm). lia.
  - destruct (mem n (released s)); [discriminate|]. injection E as <- <- <-.
    apply inv_intro; rewrite ?events_snoc, ?Hgone, ?app_nil_r; cbn [destroys]; rewrite ?orb_false_r; auto.
    + rewrite current_eq, on_snoc, wanted_snoc. exact I2.
    + unfold want in *. rewrite wanted_snoc. cbn [requests]. exact I4.
    + apply (Hheld (fun _ => 0)); [|reflexivity]. intros k. cbn. lia.
  - assert (Hs' : s' = s /\ r = Done /\ forall l, fold_left observe ev l = l :> list (nat * request)).
    { destruct (exists_sub s k); [destruct (gone s); [discriminate|]|]; injection E as <- <- <-; auto. }
    destruct Hs' as (-> & -> & Hl).
    apply inv_intro; rewrite ?events_snoc, ?Hgone, ?app_nil_r; cbn [destroys]; rewrite ?orb_false_r; auto.
    + rewrite current_eq, on_snoc, wanted_snoc. exact I2.
    + unfold want in *. rewrite wanted_snoc. cbn [requests]. exact I4.
    + unfold opens. rewrite open_app, Hl. exact I5.
    + apply (Hheld (fun _ => 0)); [|reflexivity]. intros j. lia.
  - destruct (gone s) eqn:Hg; [discriminate|]. destruct (unsubscribe s) as [s1 ev1] eqn:Hu. injection E as <- <- <-.
    destruct (opens_unsubscribe _ _ _ _ I5 Hu) as (HO & U1 & U2 & U3 & U4 & U5 & U6 & U7 & U8 & U9 & U10).
    apply inv_intro; rewrite ?events_snoc, ?Hgone; cbn [destroys]; rewrite ?orb_true_r; auto.
    + rewrite current_eq, on_snoc. cbn [switches]. unfold cur. cbn. now rewrite U1.
    + unfold want in *. rewrite wanted_snoc. cbn [requests topic_ qos_ options_ gone set_gone set_nodes]. rewrite U8, U9, U10. destruct (wanted h); [|auto].
      destruct I4 as (W1 & W2 & W3 & W4 & W5). repeat split; auto. discriminate.
    + apply (Hheld (fun _ => 0)); [|reflexivity]. intros k. cbn. rewrite U3. lia.
Qed.

Lemma run_inv h : forall s rs, run init h = Ok (s, rs) -> inv h rs s.
Proof.
  induction h as [|o h IH] using rev_ind; intros s rs H; [injection H as <- <-; apply inv_init|].
  apply run_snoc in H as (s1 & rs1 & r & ev & H1 & H2 & ->). eapply inv_step; eauto.
Qed.
End Proofs.
