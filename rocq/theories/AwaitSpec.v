(** * Vocabulary of the claims about coroutines awaiting signals of one object (C123-C125)

    Everything is about the trace of observable events, newest first. *)
From stdpp Require Import list option.
From Verif Require Import AwaitModel.

Section spec.
Context {S P : Type}.

(** The event is about coroutine [i]. *)
Definition about (i : nat) (e : aev S P) : bool :=
  match e with EAwait j _ _ | EResume j _ | EDestroyed j | EUse j => bool_decide (j = i) | _ => false end.

(** Coroutine [i] suspended in a co_await of kind [k] for the signals [sg], and has been suspended in it ever since; [w]: what happened since. *)
Definition suspended_in (i : nat) (k : kind) (sg : S -> bool) (w tr : list (aev S P)) : Prop :=
  ∃ u, tr = w ++ EAwait i k sg :: u ∧ Forall (λ e, about i e = false) w.

(** Arguments of the emissions of the signals [sg], oldest first. *)
Fixpoint hits (sg : S -> bool) (w : list (aev S P)) : list P :=
  match w with
  | [] => []
  | EEmit x p :: w => hits sg w ++ (if sg x then [p] else [])
  | _ :: w => hits sg w
  end.

(** Emissions in progress; no emission was started within another one. *)
Fixpoint depth (tr : list (aev S P)) : nat :=
  match tr with [] => 0 | EEmit _ _ :: t => Datatypes.S (depth t) | EEmitted :: t => pred (depth t) | _ :: t => depth t end.
Fixpoint flat (tr : list (aev S P)) : Prop :=
  match tr with [] => True | EEmit _ _ :: t => depth t = 0 ∧ flat t | _ :: t => flat t end.

(** Time that passed. *)
Fixpoint ticks (w : list (aev S P)) : nat :=
  match w with [] => 0 | ETick :: w => Datatypes.S (ticks w) | _ :: w => ticks w end.

(** Coroutine [i] was destroyed while suspended in such a co_await. *)
Definition destroyed_in (i : nat) (k : kind) (sg : S -> bool) (tr : list (aev S P)) : Prop :=
  ∃ w1 w t, tr = w1 ++ EDestroyed i :: t ∧ Forall (λ e, about i e = false) w1 ∧ suspended_in i k sg w t.
End spec.
