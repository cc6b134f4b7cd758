(** Independent vocabulary for messages without a valid time.  [stamp e = None] says that reading
    the stamp of [e] throws; a trace has one entry per call: what the call passed on, and whether
    an exception left it. *)
From Coq Require Import List Arith ZArith Bool.
From Verif Require Import Base RclTime.
From Verif Require Aligner_Model Seq_Model.
Import ListNotations.

(** The stamp of a message with the header stamp [m]: nanoseconds, unless the seconds are
    negative. *)
Definition header_stamp (m : msg_time) : option Z :=
  match time_of_header m with Ok t => Some (ns t) | Err _ => None end.
Definition header_time (m : msg_time) : option time :=
  match time_of_header m with Ok t => Some t | Err _ => None end.

(** All that was passed on, in order. *)
Definition emitted {O} (tr : list (list O * bool)) : list O := flat_map fst tr.

Section Spec.
Context {E T : Type} (stamp : E -> option T).

Definition invalid (e : E) : Prop := stamp e = None.
Definition valid (e : E) : Prop := stamp e <> None.

(** [f] is the stamp of the messages that have one. *)
Definition agrees (f : E -> T) : Prop := forall e t, stamp e = Some t -> f e = t.

Context {I : Type} (message : I -> option E).  (* the message a call adds, if any *)

(** The call adds a message without a valid time. *)
Definition adds_invalid (x : I) : bool :=
  match message x with
  | Some e => match stamp e with None => true | Some _ => false end
  | None => false
  end.

(** The history without these calls. *)
Definition without_invalid (h : list I) : list I := filter (fun x => negb (adds_invalid x)) h.

(** The calls that add a message without a valid time throw and pass nothing on; no other call
    throws. *)
Definition only_invalid_throw {O} (h : list I) (tr : list (list O * bool)) : Prop :=
  Forall2 (fun x c => if adds_invalid x then c = ([], true) else snd c = false) h tr.
End Spec.

(** Additions to one of several inputs. *)
Definition added {E} (ie : nat * E) : option E := Some (snd ie).

(** The message a call on an aligner or a sequencer adds. *)
Definition al_message {E} (o : Aligner_Model.op E) : option E := match o with Aligner_Model.Add _ e => Some e | _ => None end.
Definition seq_message {E} (o : Seq_Model.op E) : option E := match o with Seq_Model.Add e => Some e | Seq_Model.Tick _ => None end.
