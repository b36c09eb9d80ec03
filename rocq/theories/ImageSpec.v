(** * Vocabulary for ImageProvider: functions on traces (newest event first). *)
From stdpp Require Import list option.
From Verif Require Import ImageModel.

(** The response of request [i] has been returned to the engine. *)
Fixpoint returned (i : nat) (tr : list iev) : bool := match tr with [] => false | IEReturn j :: tr => bool_decide (j = i) || returned i tr | _ :: tr => returned i tr end.
Fixpoint created (i : nat) (tr : list iev) : bool := match tr with [] => false | IECreate j :: tr => bool_decide (j = i) || created i tr | _ :: tr => created i tr end.
(** How the coroutine of request [i] ended: with an image, or with an exception. *)
Fixpoint result (i : nat) (tr : list iev) : option (option nat) :=
  match tr with
  | [] => None
  | IEEnd j v :: tr => if decide (j = i) then Some (Some v) else result i tr
  | IEThrow j :: tr => if decide (j = i) then Some None else result i tr
  | _ :: tr => result i tr end.
(** How often finished() of its response has been emitted. *)
Fixpoint finishes (i : nat) (tr : list iev) : nat :=
  match tr with [] => 0 | IEFinished j :: tr => (if decide (j = i) then 1 else 0) + finishes i tr | _ :: tr => finishes i tr end.
Fixpoint deleted (i : nat) (tr : list iev) : bool := match tr with [] => false | IEDelete j :: tr => bool_decide (j = i) || deleted i tr | _ :: tr => deleted i tr end.
(** A deleted response has been used. *)
Fixpoint ibroken (tr : list iev) : bool := match tr with [] => false | IEBad _ :: _ => true | _ :: tr => ibroken tr end.
