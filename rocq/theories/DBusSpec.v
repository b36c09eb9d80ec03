(** * Vocabulary for D-Bus calls: functions on traces (newest event first). *)
From stdpp Require Import list option.
From Verif Require Import DBusModel.

(** The reply of the call ([null]: there is no call). *)
Fixpoint replied (null : bool) (tr : list dev) : option nat :=
  match tr with [] => if null then Some nullreply else None | DEFinish m :: _ => Some m | _ :: tr => replied null tr end.
Fixpoint dasked (i : nat) (tr : list dev) : option dkind :=
  match tr with [] => None | DEAwait j k :: tr => if decide (j = i) then Some k else dasked i tr | _ :: tr => dasked i tr end.
(** [i] has continued, or was destroyed. *)
Definition danswer (i : nat) (e : dev) : bool := match e with DEReturn j _ | DEDestroy j => bool_decide (j = i) | _ => false end.
Fixpoint danswered (i : nat) (tr : list dev) : bool := match tr with [] => false | e :: tr => danswer i e || danswered i tr end.
Definition dwaits (i : nat) (k : dkind) (tr : list dev) : Prop := dasked i tr = Some k ∧ danswered i tr = false.
(** Somebody waits, or has waited, with a watcher. *)
Fixpoint watched (tr : list dev) : bool := match tr with [] => false | DESuspend _ :: _ => true | _ :: tr => watched tr end.
(** Those who were waiting when the reply was received, or who were the first ones to wait, were notified. *)
Fixpoint notified (tr : list dev) : bool :=
  match tr with [] => false | e :: tr => match e with DEEmit => true | DEFinish _ => watched tr | _ => notified tr end end.
(** [i] was suspended when: there was no call, or the others had been notified ([Some true]), or before. *)
Fixpoint late (null : bool) (i : nat) (tr : list dev) : option bool :=
  match tr with
  | [] => None
  | DESuspend j :: tr => if decide (j = i) then Some (null || notified tr) else late null i tr
  | _ :: tr => late null i tr
  end.
(** [i] was destroyed during co_await, and not resumed since. *)
Fixpoint dlost (null : bool) (i : nat) (tr : list dev) : bool :=
  match tr with
  | [] => false
  | DEDestroy j :: tr => if decide (j = i) then match dasked i tr, late null i tr with Some DOp, Some false => true | _, _ => false end else dlost null i tr
  | DEStale j :: tr => bool_decide (j ≠ i) && dlost null i tr
  | _ :: tr => dlost null i tr
  end.
