(** Exceptions thrown by callbacks reach the caller, and end the call. *)
From Coq Require Import List Arith ZArith Bool Lia.
From Verif Require Import Base RclTime Throw_Model Throw_Spec.
From Verif Require Cache_Model Latest_Model Seq_Model Aligner_Model Exact_Model Eps_Model Approx_Model.
Import ListNotations.
Local Open Scope Z_scope.

Lemma reaches_nil {O} th : reaches th (@nil O) false.
Proof. split; [intros k Hk; cbn in Hk; lia|discriminate]. Qed.
Lemma reaches_one {O} (th : oracle) (x : O) : reaches th [x] (th 0%nat).
Proof.
  split; [|discriminate]. intros k Hk. cbn in *. assert (k = 0%nat) as -> by lia. tauto.
Qed.
Lemma reaches_one_true {O} (th : oracle) (x : O) : th 0%nat = true -> reaches th [x] true.
Proof. intros <-. apply reaches_one. Qed.
Lemma reaches_one_false {O} (th : oracle) (x : O) : th 0%nat = false -> reaches th [x] false.
Proof. intros <-. apply reaches_one. Qed.
Lemma reaches_app {O} (th : oracle) (o1 o2 : list O) b :
  reaches th o1 false -> reaches (later (length o1) th) o2 b -> reaches th (o1 ++ o2) b.
Proof.
  intros [H1 _] [H2 H3]. split.
  - intros k Hk. rewrite app_length in *. destruct (Nat.lt_ge_cases k (length o1)) as [Hl|Hl].
    + split.
      * intros H. apply H1 in H as [H _]; [discriminate|auto].
      * intros [-> H]. specialize (H3 eq_refl). destruct o2; [congruence|cbn in H; lia].
    + specialize (H2 (k - length o1)%nat). unfold later in H2. replace (length o1 + (k - length o1))%nat with k in H2 by lia.
      rewrite H2 by lia. split; intros [A B]; (split; [exact A|lia]).
  - intros -> H. apply app_eq_nil in H as [_ H]. now apply H3.
Qed.
Lemma reaches_cons {O} (th : oracle) (x : O) o b :
  th 0%nat = false -> reaches (later 1 th) o b -> reaches th (x :: o) b.
Proof. intros H1 H2. apply (reaches_app th [x] o b); [now apply reaches_one_false|exact H2]. Qed.

Lemma signal_all_reaches {O} (l : list O) : forall th, reaches th (fst (signal_all th l)) (snd (signal_all th l)).
Proof.
  induction l as [|x l IH]; intros th; cbn [signal_all]; [apply reaches_nil|].
  destruct (th 0%nat) eqn:H0; [now apply reaches_one_true|].
  specialize (IH (later 1 th)). destruct (signal_all (later 1 th) l) as [o b]. cbn in *. now apply reaches_cons.
Qed.

(** over a whole history *)
Lemma run_reaches {S I O} (step : oracle -> S -> I -> res (S * list O * bool)) :
  (forall th s x s' o b, step th s x = Ok (s', o, b) -> reaches th o b) ->
  forall h s s' tr, run_t step s h = Ok (s', tr) -> Forall2 (fun (c : I * oracle) (r : list O * bool) => reaches (snd c) (fst r) (snd r)) h tr.
Proof.
  intros Hs. induction h as [|[x th] h IH]; intros s s' tr H; cbn [run_t] in H.
  - injection H as _ <-. constructor.
  - destruct (step th s x) as [[[s1 o] b]|] eqn:E; [|discriminate]. cbn [bind] in H.
    destruct (run_t step s1 h) as [[s2 tr2]|] eqn:E2; [|discriminate]. cbn in H. injection H as _ <-. constructor; [cbn; eauto|eauto].
Qed.

Lemma seq_reaches {E} (stamp : E -> time) q d th s x s' o b :
  seq_step_t stamp q d th s x = Ok (s', o, b) -> reaches th o b.
Proof.
  unfold seq_step_t. destruct (Seq_Model.step stamp q d s x) as [[s1 l]|]; [|discriminate]. cbn [bind].
  pose proof (signal_all_reaches l th) as H. destruct (signal_all th l) as [o1 b1]. intros [= <- <- <-]. exact H.
Qed.

Section Aligner.
Context {E : Type} (stamp : E -> Z) (timeout : Z).
Lemma aligner_first_reaches th s s' o again b :
  aligner_first_t stamp timeout th s = Ok (s', o, again, b) -> reaches (O := nat * E) th o b.
Proof.
  unfold aligner_first_t. cbv zeta. destruct (nth_error _ _) as [q|]; [|discriminate]. destruct (Aligner_Model.evs q).
  - destruct (timeout <=? _); intros [= <- <- <- <-]; apply reaches_nil.
  - destruct (th 0%nat) eqn:H0; intros [= <- <- <- <-]; [now apply reaches_one_true|now apply reaches_one_false].
Qed.
Lemma aligner_loop_reaches fuel : forall th s s' o b,
  aligner_loop_t stamp timeout fuel th s = Ok (s', o, b) -> reaches (O := nat * E) th o b.
Proof.
  induction fuel as [|fuel IH]; intros th s s' o b H; cbn [aligner_loop_t] in H; [discriminate|].
  destruct (aligner_first_t stamp timeout th s) as [[[[s1 o1] again] b1]|] eqn:E1; [|discriminate]. cbn [bind] in H.
  apply aligner_first_reaches in E1. destruct b1; [injection H as <- <- <-; exact E1|]. destruct again; [|injection H as <- <- <-; exact E1].
  destruct (aligner_loop_t stamp timeout fuel (later (length o1) th) s1) as [[[s2 o2] b2]|] eqn:E2; [|discriminate]. cbn [bind] in H. injection H as <- <- <-.
  apply reaches_app; eauto.
Qed.
Lemma aligner_reaches th s x s' o b :
  aligner_step_t stamp timeout th s x = Ok (s', o, b) -> reaches (O := nat * E) th o b.
Proof.
  destruct x; cbn [aligner_step_t].
  1,2: match goal with |- context [bind ?e _] => destruct e; [cbn [bind]|discriminate] end; intros [= <- <- <-]; apply reaches_nil.
  destruct (Aligner_Model.inputs_available s); [apply aligner_loop_reaches|intros [= <- <- <-]; apply reaches_nil].
Qed.
End Aligner.

Section Exact.
Context {E : Type} (stamp : E -> Z) (n q : nat).
Lemma drop_range_reaches th r keep m o b :
  drop_range_t (E := E) th r keep = (m, o, b) -> reaches th o b.
Proof.
  unfold drop_range_t. pose proof (signal_all_reaches (Exact_Model.drops r) th) as H. destruct (signal_all th _) as [o1 b1].
  intros [= _ <- <-]. exact H.
Qed.
Lemma trim_reaches th s s' o b : trim_t (E := E) q th s = (s', o, b) -> reaches th o b.
Proof.
  unfold trim_t. cbv zeta. destruct (_ && _); [|intros [= _ <- <-]; apply reaches_nil].
  destruct (drop_range_t th _ _) as [[m o1] b1] eqn:H. apply drop_range_reaches in H. intros [= _ <- <-]. exact H.
Qed.
Lemma exact_reaches th s x s' o b : exact_add_t stamp n q th s x = Ok (s', o, b) -> reaches th o b.
Proof.
  unfold exact_add_t. destruct x as [i e]. destruct (Exact_Model.put n (stamp e) i e (Exact_Model.tuples s)) as [m t].
  intros [= H]. unfold checkTuple_t in H. destruct (Exact_Model.full t) as [[|e0 rest]|]; try (now apply trim_reaches in H).
  destruct (th 0%nat) eqn:H0; [injection H as _ <- <-; now apply reaches_one_true|]. cbv zeta in H.
  destruct (Exact_Model.split_upper_bound _ _) as [old keep]. destruct (drop_range_t (later 1 th) old keep) as [[m' o1] b1] eqn:H1.
  apply drop_range_reaches in H1. destruct b1; [injection H as _ <- <-; now apply reaches_cons|].
  destruct (trim_t q _ _) as [[s2 o2] b2] eqn:H2. apply trim_reaches in H2. injection H as _ <- <-.
  apply reaches_cons; [exact H0|]. apply reaches_app; [exact H1|exact H2].
Qed.
End Exact.

Section Eps.
Context {E : Type} (stamp : E -> Z) (n q : nat) (eps : Z).
Lemma eps_process_reaches fuel : forall th s s' o b,
  eps_process_t stamp n eps fuel th s = Ok (s', o, b) -> reaches (O := list E) th o b.
Proof.
  induction fuel as [|fuel IH]; intros th s s' o b H; cbn [eps_process_t] in H.
  - destruct (_ =? _)%nat; [discriminate|]. injection H as <- <- <-. apply reaches_nil.
  - destruct (_ =? _)%nat; [|injection H as <- <- <-; apply reaches_nil]. cbv zeta in H.
    destruct (Eps_Model.all_within_from _ _ _ _ _).
    + destruct (Eps_Model.fronts _) as [set|]; [|discriminate]. destruct (th 0%nat) eqn:H0; [injection H as <- <- <-; now apply reaches_one_true|].
      destruct (eps_process_t _ _ _ fuel _ _) as [[[s1 o1] b1]|] eqn:E1; [|discriminate]. cbn [bind] in H. injection H as <- <- <-.
      apply reaches_cons; [exact H0|]. eauto.
    + eauto.
Qed.
Lemma eps_reaches th s x s' o b : eps_add_t stamp n q eps th s x = Ok (s', o, b) -> reaches th o b.
Proof.
  unfold eps_add_t. destruct x as [i e]. destruct (nth_error _ _) as [v|]; [|discriminate]. cbv zeta.
  destruct (_ =? _)%nat; [apply eps_process_reaches|]. destruct (_ <? _)%nat.
  - destruct (Eps_Model.erase_beginning _). intros [= <- <- <-]. apply reaches_nil.
  - intros [= <- <- <-]. apply reaches_nil.
Qed.
End Eps.

Section Approx.
Import Approx_Model.
Context {E : Type} (stamp : E -> Z) (c : cfg).
Lemma publish_one s s' o : publish (E := E) s = Ok (s', o) -> length o = 1%nat.
Proof.
  unfold publish. destruct (candidate s); [|discriminate]. repeat (match goal with |- context [match ?e with _ => _ end] => destruct e; try discriminate end).
  all: try (intros [= <- <-]; reflexivity).
Qed.
Lemma publish_reaches th s s' o b : publish_t (E := E) th s = Ok (s', o, b) -> reaches th o b.
Proof.
  unfold publish_t. destruct (candidate s); [|discriminate]. destruct (th 0%nat) eqn:H0; [intros [= <- <- <-]; now apply reaches_one_true|].
  destruct (publish s) as [[s1 o1]|] eqn:E1; [|discriminate]. cbn [bind]. intros [= <- <- <-].
  apply publish_one in E1. destruct o1 as [|x [|]]; try discriminate. now apply reaches_one_false.
Qed.
Lemma virtual_reaches fuel : forall th before mv s s' o b,
  virtual_search_t stamp c fuel th before mv s = Ok (s', o, b) -> reaches (O := list E) th o b.
Proof.
  induction fuel as [|fuel IH]; intros th before mv s s' o b H; cbn [virtual_search_t] in H; [discriminate|].
  destruct (virtual_times stamp c s) as [ts|]; [|discriminate]. cbn [bind] in H.
  destruct (boundary true ts) as [ei et]. destruct (boundary false ts) as [si st].
  destruct (_ <=? _); [now apply publish_reaches in H|].
  destruct (_ <? _).
  - destruct (recover_some mv s) as [s1|]; [|discriminate]. cbn [bind] in H. destruct (_ =? _)%nat; [|discriminate].
    injection H as <- <- <-. apply reaches_nil.
  - destruct (match pivot s with Some p => Nat.eqb si p | None => false end); [discriminate|]. destruct (negb _); [discriminate|].
    destruct (move_front si s); [|discriminate]. cbn [bind] in H. eauto.
Qed.
Lemma conclude_reaches th si et s s' o b : conclude_t stamp c th si et s = Ok (s', o, b) -> reaches (O := list E) th o b.
Proof.
  unfold conclude_t. destruct (pivot s) as [p|]; [|discriminate]. destruct (_ =? _)%nat; [apply publish_reaches|].
  destruct (_ <=? _); [apply publish_reaches|]. destruct (_ <? _)%nat; [apply virtual_reaches|]. intros [= <- <- <-]. apply reaches_nil.
Qed.
Lemma iteration_reaches th s s' o b : iteration_t stamp c th s = Ok (s', o, b) -> reaches (O := list E) th o b.
Proof.
  unfold iteration_t. destruct (fronts (deques s)) as [hs|]; [|discriminate].
  destruct (boundary true _) as [ei et]. destruct (boundary false _) as [si st]. cbv zeta.
  destruct (pivot (clear_dropped ei s)).
  - destruct (_ <=? _); repeat match goal with |- context [bind ?e _] => destruct e; [cbn [bind]|discriminate] end; apply conclude_reaches.
  - destruct (_ <? _); [|destruct (nth _ _ _)];
      repeat match goal with |- context [bind ?e _] => destruct e; [cbn [bind]|discriminate] end; try apply conclude_reaches;
      intros [= <- <- <-]; apply reaches_nil.
Qed.
Lemma approx_process_reaches fuel : forall th s s' o b,
  approx_process_t stamp c fuel th s = Ok (s', o, b) -> reaches (O := list E) th o b.
Proof.
  induction fuel as [|fuel IH]; intros th s s' o b H; cbn [approx_process_t] in H.
  - destruct (_ =? _)%nat; [discriminate|]. injection H as <- <- <-. apply reaches_nil.
  - destruct (_ =? _)%nat; [|injection H as <- <- <-; apply reaches_nil].
    destruct (iteration_t stamp c th s) as [[[s1 o1] b1]|] eqn:E1; [|discriminate]. cbn [bind] in H. apply iteration_reaches in E1.
    destruct b1; [injection H as <- <- <-; exact E1|].
    destruct (approx_process_t stamp c fuel _ s1) as [[[s2 o2] b2]|] eqn:E2; [|discriminate]. cbn [bind] in H. injection H as <- <- <-.
    apply reaches_app; eauto.
Qed.
Lemma approx_reaches th s x s' o b : approx_add_t stamp c th s x = Ok (s', o, b) -> reaches (O := list E) th o b.
Proof.
  unfold approx_add_t. destruct (approx_add_process_t stamp c th s (fst x) (snd x)) as [[[s1 o1] b1]|] eqn:E1; [|discriminate]. cbn [bind].
  assert (R1 : reaches th o1 b1).
  { revert E1. unfold approx_add_process_t. destruct (nth_error _ _) as [qq|]; [|discriminate]. cbv zeta. destruct (is_nil qq).
    - destruct (_ =? _)%nat; [apply approx_process_reaches|intros [= <- <- <-]; apply reaches_nil].
    - intros [= <- <- <-]; apply reaches_nil. }
  destruct b1; [intros [= <- <- <-]; exact R1|].
  destruct (approx_add_overflow_t stamp c (later (length o1) th) s1 (fst x)) as [[[s2 o2] b2]|] eqn:E2; [|discriminate]. cbn [bind]. intros [= <- <- <-].
  apply reaches_app; [exact R1|]. revert E2. unfold approx_add_overflow_t. destruct (_ <? _)%nat; [|intros [= <- <- <-]; apply reaches_nil].
  cbv zeta. destruct (nth _ _ _); [discriminate|]. cbn [pivot]. destruct (pivot (recover_all s1)); [apply approx_process_reaches|intros [= <- <- <-]; apply reaches_nil].
Qed.
End Approx.
