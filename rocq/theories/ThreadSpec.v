(** * Vocabulary for moveToThread(): functions on traces (newest event first). *)
From stdpp Require Import list option.
From Verif Require Import ThreadModel.

(** The state of thread [t], and the thread the coroutine is on, or was on when it was suspended. *)
Fixpoint state_of (thr : nat -> tstate) (t : nat) (tr : list tev) : tstate :=
  match tr with
  | [] => thr t
  | e :: tr => match e with
      | EStart t' => if decide (t' = t) then TStarting else state_of thr t tr
      | EStarted t' => if decide (t' = t) then TRunning else state_of thr t tr
      | EFinish t' => if decide (t' = t) then TDone else state_of thr t tr
      | _ => state_of thr t tr end
  end.
Fixpoint place (a : nat) (tr : list tev) : nat :=
  match tr with [] => a | EResumed t :: _ => t | _ :: tr => place a tr end.

(** The co_await moveToThread(t) that has not returned yet. *)
Fixpoint moving (tr : list tev) : option nat :=
  match tr with
  | [] => None
  | e :: tr => match e with EMove _ t => Some t | EResumed _ | EDestroyed => None | _ => moving tr end
  end.

(** How often await_suspend() and its continuation went on. *)
Definition msteps_in (tr : list tev) : nat := length (omap (λ e, match e with EStep => Some tt | _ => None end) tr).

(** A segment during a co_await moveToThread(t). *)
Definition during (w : list tev) : Prop := ∀ e, e ∈ w -> match e with EMove _ _ | EResumed _ | EDestroyed | EUseAfterFree => False | _ => True end.
