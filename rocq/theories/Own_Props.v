(** C113: a Chain destroyed together with its filters. *)
From Coq Require Import List Arith Lia Bool.
From Verif Require Import Base Net_Model Net_Spec Net_Flow Net_Wiring Net_Proofs Net_Chain Net_Streams Net_Links Net_Life Net_Rank Own_Model Own_Spec Own_Proofs.
Import ListNotations.

Section Props.
Context {S M U : Type}.
Notation state := (state S M U).
Notation op := (op S M U).
Variable own : nat -> bool.

Lemma nth_added c h (s : state) j f : Ch h s -> nth_error (added c h) j = Some f -> exists p, nth_error (filtersof s c) j = Some (f, p).
Proof.
  intros HC H. rewrite <- (ch_hist _ _ HC), nth_error_map in H. destruct (nth_error (filtersof s c) j) as [[f' p]|]; [|discriminate]. cbn in H. injection H as ->. eauto.
Qed.
Lemma added_nth c h (s : state) j f p : Ch h s -> nth_error (filtersof s c) j = Some (f, p) -> nth_error (added c h) j = Some f.
Proof. intros HC H. now rewrite <- (ch_hist _ _ HC), nth_error_map, H. Qed.

Lemma user_iff (s : state) n : (exists x, user s n = Ok x) <-> aliveof s n = true /\ internalof s n = false.
Proof. split; [|intros []; now apply user_of]. intros (x & H). destruct (user_view _ _ _ H) as (_ & _ & _ & A & B & _). auto. Qed.
Lemma left_over fuel c h (s s' : state) rs l : run fuel [] h = Ok (s, rs) -> assembled c h rs -> ended s s' (flat_map (ends own s) l ++ [c]) ->
  (forall e, In e l <-> In e (filtersof s c)) -> only_owned_gone own c h s s'.
Proof.
  intros R A He Hl n. destruct (created_view _ _ _ _ _ _ R (as_chain _ _ _ A)) as (V1 & V2 & V3). rewrite !user_iff, (en_int _ _ _ He).
  destruct (internalof s n) eqn:Hi; [split; [intros [_ X]|intros [[_ X] _]]; discriminate|].
  rewrite (survivors own fuel c h s rs R V1 V2 (as_alive _ _ _ A) s' l n He Hl Hi).
  rewrite andb_true_iff, negb_true_iff, orb_false_iff, Nat.eqb_neq, andb_false_iff. split.
  - intros [[A1 [A2 A3]] _]. repeat split; auto. intros [B1 B2]. destruct A3 as [A3|A3]; [congruence|]. assert (existsb (Nat.eqb n) (added c h) = true); [|congruence].
    apply existsb_exists. exists n. split; auto. apply Nat.eqb_refl.
  - intros [[A1 _] [A2 A3]]. repeat split; auto. destruct (own n); auto. right. apply existsb_false. intros x Hx. apply Nat.eqb_neq. intros <-. auto.
Qed.

(** If elements of a vector are destroyed from the last to the first, destroying the chain is fine. *)
Theorem C113_last_to_first_partial fuel c h (s : state) rs : run fuel [] h = Ok (s, rs) -> assembled c h rs ->
  exists s', destroy_chain own LastToFirst s c = Ok s' /\ only_owned_gone own c h s s'.
Proof.
  intros R A. destruct (created_view _ _ _ _ _ _ R (as_chain _ _ _ A)) as (V1 & V2 & V3). destruct (backward_ok own fuel c h s rs) as (s' & E & He); try apply A; auto.
  exists s'. split; auto. eapply left_over; eauto. intros e. symmetry. apply in_rev.
Qed.

(** Otherwise exactly if it owns no filter, apart from the first, whose destructor disconnects *)
Theorem C113_first_to_last_partial fuel c h (s : state) rs : run fuel [] h = Ok (s, rs) -> assembled c h rs -> ~ owns_detaching own c h rs ->
  exists s', destroy_chain own FirstToLast s c = Ok s' /\ only_owned_gone own c h s s'.
Proof.
  intros R A Hno. pose proof A as [A1 A2 A3 A4 A5]. destruct (created_view _ _ _ _ _ _ R A1) as (V1 & V2 & V3). pose proof (run_chains _ _ _ _ R) as HC.
  destruct (forward_ok own fuel c h s rs) as (s' & E & He); auto; [|exists s'; split; auto; eapply left_over; eauto; reflexivity]. intros j f p Hj. pose proof (added_nth _ _ _ _ _ _ HC Hj) as Ha. destruct (A5 _ _ Ha) as (cl & Hc & Hs).
  destruct (created_view _ _ _ _ _ _ R Hc) as (W & _). split; [|congruence].
  intros (Ho & cl' & W' & Hd & _). assert (cl' = cl) as -> by congruence. apply Hno. exists j, f, cl. repeat split; auto. destruct cl; auto; discriminate.
Qed.
Theorem C113_first_to_last_refuted fuel c h (s : state) rs : run fuel [] h = Ok (s, rs) -> assembled c h rs -> owns_detaching own c h rs ->
  destroy_chain own FirstToLast s c = Err UB.
Proof.
  intros R [A1 A2 A3 A4 A5] (j & f & cl & Hj & Ho & Hc & Hd). destruct (created_view _ _ _ _ _ _ R A1) as (V1 & V2 & V3). pose proof (run_chains _ _ _ _ R) as HC.
  destruct (nth_added _ _ _ _ _ HC Hj) as (p & Hp). destruct (created_view _ _ _ _ _ _ R Hc) as (W & _).
  eapply forward_ub; eauto.
  - split; auto. exists cl. repeat split; auto; destruct cl; auto; easy.
  - intros j' f' p' Hj'. destruct (A5 _ _ (added_nth _ _ _ _ _ _ HC Hj')) as (cl' & Hc' & Hs'). destruct (created_view _ _ _ _ _ _ R Hc') as (W' & _). congruence.
Qed.
End Props.

(** A chain of two caches, as in `chain.addFilter(std::make_shared<Cache<M>>(...))` twice; of a cache and a
    PassThrough; and two caches the user keeps *)
Definition cache_chain (second : class nat nat) : list (op nat nat nat) :=
  [New Chain 0; New Cache 0; New second 0; AddFilter 0 1 0; AddFilter 0 2 0; Register 0 7; Add 0 0 5].
Definition outcome (own : nat -> bool) (o : order) (h : list (op nat nat nat)) : option (res (list bool)) :=
  match run 9 [] h with Ok (s, _) => Some (do s' <- destroy_chain own o s 0; Ok (map (@alive nat nat nat) s')) | Err _ => None end.
Example C113_two_caches : outcome (fun _ => true) FirstToLast (cache_chain Cache) = Some (Err UB) /\
  outcome (fun _ => true) LastToFirst (cache_chain Cache) = Some (Ok [false; false; false; false; false]) /\
  outcome (fun _ => true) FirstToLast (cache_chain PassThrough) = Some (Ok [false; false; false; false; false]) /\
  outcome (fun _ => false) FirstToLast (cache_chain Cache) = Some (Ok [false; true; true; false; false]).
Proof. vm_compute. auto. Qed.
Example C113_assembled : exists s rs, run 9 [] (cache_chain Cache) = Ok (s, rs) /\ assembled 0 (cache_chain Cache) rs /\ owns_detaching (fun _ => true) 0 (cache_chain Cache) rs.
Proof.
  eexists _, _. split; [vm_compute; reflexivity|]. split.
  - split.
    + exists 0, 0, []. split; reflexivity.
    + intros f H. destruct f as [|[|[|f]]]; vm_compute in H |- *; try lia.
    + cbn. lia.
    + intros f _ o [<-|[<-|[<-|[<-|[<-|[<-|[<-|[]]]]]]]]; reflexivity.
    + intros [|j] f H; [|destruct j; discriminate]. injection H as <-. exists Cache. split; [|discriminate]. exists 0, 2, []. split; reflexivity.
  - exists 0, 2, Cache. repeat split. exists 0, 2, []. split; reflexivity.
Qed.

Print Assumptions C113_last_to_first_partial.
Print Assumptions C113_first_to_last_partial.
Print Assumptions C113_first_to_last_refuted.
