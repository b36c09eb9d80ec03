(** * Vocabulary for the listener's properties: functions on traces (newest event first), nothing of the machine's state. *)
From stdpp Require Import list option.
From Verif Require Import ListenModel.

Section spec.
Context {V : Type}.
Implicit Types tr : list (lev V).

(** Values emitted, delivered by the event loop, and obtained by the consumer's co_await ++it, oldest first. *)
Definition emitted tr : list V := reverse (omap (λ e, match e with TEmit v => Some v | _ => None end) tr).
Definition delivered tr : list V := reverse (omap (λ e, match e with TDeliver v => Some v | _ => None end) tr).
Definition got tr : list V := reverse (omap (λ e, match e with TGot v => Some v | _ => None end) tr).

(** Is the consumer suspended in co_await begin() or ++it? In another co_await? *)
Fixpoint parked tr : bool :=
  match tr with
  | [] => false
  | e :: tr => match e with
      | TPark => true
      | TAsk | TGot _ | TEnd | TLeave | TBack | TEarly | TStale | TFin => false
      | _ => parked tr end
  end.
Fixpoint away tr : bool :=
  match tr with
  | [] => false
  | e :: tr => match e with
      | TLeave => true
      | TPark | TAsk | TGot _ | TEnd | TBack | TEarly | TStale | TFin => false
      | _ => away tr end
  end.

(** How often co_await begin() or ++it suspended the consumer. Time that passed. *)
Definition parks tr : nat := length (omap (λ e, match e with TPark => Some tt | _ => None end) tr).
Definition ticks tr : nat := length (omap (λ e, match e with TTick => Some tt | _ => None end) tr).

(** Every event in the trace satisfies [P] with respect to what happened before. *)
Definition always (P : lev V -> list (lev V) -> Prop) tr : Prop := ∀ t2 e t1, tr = t2 ++ e :: t1 -> P e t1.

(** Once the consumer was suspended on the listener, nothing is delivered to the listener but while the consumer is
    suspended there. *)
Definition calm tr : Prop := always (λ e t, match e with TDeliver _ => parked t = true ∨ parks t = 0 | _ => True end) tr.

(** The consumer awaits nothing but the listener, and the generator is its local variable (or a temporary, as in
    QCORO_FOREACH): it is destroyed by the consumer, at the end at the latest. *)
Definition plain tr : Prop :=
  always (λ e t, match e with
    | TLeave => False
    | TFin => TDropped ∈ t
    | TDropped => parked t = false
    | _ => True end) tr.

(** Nothing the listener does must happen in a segment where the consumer just waits. *)
Definition silent tr : Prop := ∀ e, e ∈ tr -> match e with TEmit _ | TTick | TObjGone => True | _ => False end.
End spec.
