(** * Vocabulary for QFuture: functions on traces (newest event first). *)
From stdpp Require Import list option.
From Verif Require Import FutureModel.

Fixpoint finished (tr : list fev) : bool := match tr with [] => false | FEFinish :: _ => true | _ :: tr => finished tr end.
Fixpoint canceled (tr : list fev) : bool := match tr with [] => false | FECancel :: _ => true | _ :: tr => canceled tr end.
(** The result, the exception reported by the computation. *)
Fixpoint reported (tr : list fev) : option nat := match tr with [] => None | FEReport v :: _ => Some v | _ :: tr => reported tr end.
Fixpoint raised (tr : list fev) : option nat := match tr with [] => None | FEExc e :: _ => Some e | _ :: tr => raised tr end.
(** Awaiter [i] has executed co_await; it continued, or ceased to exist. *)
Fixpoint asked (i : nat) (tr : list fev) : option fkind :=
  match tr with [] => None | FEAwait j k :: tr => if decide (j = i) then Some k else asked i tr | _ :: tr => asked i tr end.
Definition answer (i : nat) (e : fev) : bool :=
  match e with FEReturn j _ | FEThrow j _ | FEUndef j | FEDestroy j | FEStale j => bool_decide (j = i) | _ => false end.
Fixpoint answered (i : nat) (tr : list fev) : bool := match tr with [] => false | e :: tr => answer i e || answered i tr end.
(** An awaiter has taken the result. *)
Fixpoint taken (tr : list fev) : bool :=
  match tr with
  | [] => false
  | FEReturn i _ :: tr => match asked i tr with Some KTake => true | _ => taken tr end
  | _ :: tr => taken tr
  end.
(** Awaiter [i] blocks its thread. *)
Fixpoint blocked (i : nat) (tr : list fev) : bool :=
  match tr with [] => false | e :: tr => match e with FEBlock j => bool_decide (j = i) || blocked i tr | _ => blocked i tr end end.

(** [i] waits. *)
Definition waits (i : nat) (k : fkind) (tr : list fev) : Prop := asked i tr = Some k ∧ answered i tr = false.
(** What awaiting a finished future that was not canceled yields. *)
Definition yields (k : fkind) (i : nat) (tr : list fev) (e : fev) : Prop :=
  match raised tr with
  | Some x => e = FEThrow i x
  | None => match k with KVoid => e = FEReturn i None | _ => ∃ v, reported tr = Some v ∧ e = FEReturn i (Some v) end
  end.
(** [i] was destroyed while it was waiting (and has not been resumed nevertheless). *)
Fixpoint lost (i : nat) (tr : list fev) : bool :=
  match tr with
  | [] => false
  | FEDestroy j :: tr => bool_decide (j = i) || lost i tr
  | FEStale j :: tr => bool_decide (j ≠ i) && lost i tr
  | _ :: tr => lost i tr
  end.
