(** Vocabulary: programs that connect a Python synchronizer several times. *)
From Coq Require Import List ZArith Bool.
From Verif Require Import Base Py_Model PyRe_Model PySync_Spec.
Import ListNotations.
Open Scope Z_scope.

Section Spec.
Context {M : Type}.
(** [On g i m hd now]: filter number [i] of the [g]-th call of connectInput (the constructor's is
    number 0) signals [m]; [Connect k]: connectInput with [k] filters *)
Inductive rop := On (g i : nat) (m : M) (hd : header) (now : Z) | Connect (k : nat).

Section Run.
Variable add : pysync M -> op M -> res (pysync M * list (list M) * bool).
Variable stale : resync M -> nat -> nat -> M -> header -> Z -> res (resync M * list (list M) * bool).
Definition rstep (s : resync M) (o : rop) : res (resync M * list (list M) * bool) :=
  match o with
  | Connect k => Ok (connect s k, [], false)
  | On g i m hd now =>
      if Nat.eqb g (length (old s)) then
        do '(c, out, ex) <- add (cur s) (Add i m hd now); Ok (with_cur s c, out, ex)
      else stale s g i m hd now
  end.
Fixpoint rrun (s : resync M) (h : list rop) : res (resync M * list (list (list M) * bool)) :=
  match h with
  | [] => Ok (s, [])
  | o :: r => do '(s1, out, ex) <- rstep s o; do '(s2, rs) <- rrun s1 r; Ok (s2, (out, ex) :: rs)
  end.
End Run.
Definition rexact raises := rrun (add_exact raises) (fun s g i m hd _ => exact_stale raises s g i m hd).
Definition rapprox raises slop hl := rrun (add_approx raises slop hl) (approx_stale raises slop hl).

(** number of calls of connectInput *)
Definition connects (h : list rop) : nat := length (filter (fun o => match o with Connect _ => true | _ => false end) h).
Definition no_connect (h : list rop) : Prop := forall k, ~ In (Connect k) h.
(** the messages of the filters of the [g]-th call *)
Definition from_call (g : nat) (h : list rop) : list (op M) :=
  flat_map (fun o => match o with On g' i m hd now => if Nat.eqb g' g then [Add i m hd now] else [] | Connect _ => [] end) h.
(** the results of those messages *)
Fixpoint results (g : nat) (h : list rop) (rs : list (list (list M) * bool)) : list (list (list M) * bool) :=
  match h, rs with
  | On g' _ _ _ _ :: h', r :: rs' => if Nat.eqb g' g then r :: results g h' rs' else results g h' rs'
  | _ :: h', _ :: rs' => results g h' rs'
  | _, _ => []
  end.
(** how many filters each call of connectInput was given; the constructor was given [k] *)
Definition calls (k : nat) (h : list rop) : list nat :=
  k :: flat_map (fun o => match o with Connect k' => [k'] | On _ _ _ _ _ => [] end) h.
(** the messages come from filters the synchronizer was connected to, and the headers of messages
    of others than the filters of call [g] satisfy [P] *)
Definition proper (P : header -> Prop) (ks : list nat) (g : nat) (h : list rop) : Prop :=
  forall g' i m hd now, In (On g' i m hd now) h ->
    exists k, nth_error ks g' = Some k /\ (i < k)%nat /\ (g' <> g -> P hd).
Definition has_stamp (hd : header) : Prop := exists t, hd = Stamp t.
Definition any_header (hd : header) : Prop := True.

(** a Python Cache connected several times: every filter it was connected to calls add *)
Fixpoint cache_run (c : pycache M) (h : list rop) : pycache M :=
  match h with
  | [] => c
  | On _ _ m hd now :: r => cache_run (fst (fst (pycache_add c m hd now))) r
  | Connect _ :: r => cache_run (pycache_connect c) r
  end.
End Spec.
Arguments rop : clear implicits.
