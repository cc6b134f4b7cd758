(** Vocabulary for "no time arithmetic overflows". *)
From Coq Require Import List Arith ZArith.
From Verif Require Import Base RclTime.
From Verif Require Aligner_Model.
Import ListNotations.
Local Open Scope Z_scope.

(** The stamp of every message is one that can be read from a header. *)
Definition header_stamps {E} (stamp : E -> Z) : Prop :=
  forall e, exists m t, msg_time_ok m /\ time_of_header m = Ok t /\ stamp e = ns t.

(** The same for stamps with a clock source *)
Definition header_times {E} (stamp : E -> time) : Prop :=
  forall e, exists m, msg_time_ok m /\ time_of_header m = Ok (stamp e).

(** All stamps lie in a window of [w] nanoseconds. *)
Definition in_window {E} (stamp : E -> Z) (w : Z) : Prop :=
  exists lo, forall e, lo <= stamp e <= lo + w.

(** At most 2^61 ns, about 73 years, in either direction *)
Definition moderate (d : Z) : Prop := - 2 ^ 61 <= d <= 2 ^ 61.

(** All periods set in a history of InputAligner are moderate. *)
Definition moderate_periods {E} (h : list (Aligner_Model.op E)) : Prop :=
  forall i p, In (Aligner_Model.SetPeriod i p) h -> moderate p.
