(** * QCoro::sleepFor() and QCoro::sleepUntil().

    Models /repo/qcoro/core/qcorotimer.h:56-71, with co_await on the QTimer (qcorotimer.cpp:19-34; see C43 for arbitrary timers). No proofs.

    Time is counted in units of which there are [u] in a millisecond, for any [u]: every std::chrono duration with an integral
    representation is a whole number of units if [u] is chosen suitably. Durations with a floating point representation and
    overflow of the representation are not modelled.

    Qt (trusted): a single shot QTimer times out once, not earlier than its interval after start(), and as soon as the event loop runs
    after that; QTimer::start(std::chrono::milliseconds) converts to int (Qt 5 and Qt 6 before 6.8; a count outside of its range wraps); a
    timer does not start with a negative interval. The 5% tolerance of Qt::CoarseTimer, the default, is ignored. *)
From stdpp Require Import list option.
From Coq Require Import ZArith Lia.
Open Scope Z_scope.

Section sleep.
Context (u : Z).

(** std::chrono::duration_cast<std::chrono::milliseconds>: truncates towards zero. qcorotimer.h:61. *)
Definition to_ms (d : Z) : Z := Z.quot d u.

(** int(count) *)
Definition to_int (n : Z) : Z := (n + 2 ^ 31) mod 2 ^ 32 - 2 ^ 31.

(** The reading of a clock: std::chrono::steady_clock's time since its epoch is [now]; another clock is [off] ahead. *)
Definition reading (off now : Z) : Z := now + off.

(** Where the coroutine is. The local QTimer of sleepFor() exists while it sleeps. *)
Inductive spos := SRun | SSleep (deadline : Z).

Inductive sev :=
  | VFor (d now : Z)          (* co_await sleepFor(d) *)
  | VUntil (off w now : Z)    (* co_await sleepUntil(w), w on a clock that is [off] ahead *)
  | VAwake (now : Z).         (* which returns *)

Record sst := Sst { s_now : Z; s_pos : spos; s_tr : list sev }.

(** sleepFor(d), qcorotimer.h:57-63: WaitForTimeoutOperation does not suspend if the timer is not active, qcorotimer.cpp:19-21. *)
Definition sleep_for (d : Z) (s : sst) : sst :=
  let ms := to_int (to_ms d) in
  if ms <? 0 then Sst (s_now s) SRun (VAwake (s_now s) :: s_tr s)
  else Sst (s_now s) (SSleep (s_now s + ms * u)) (s_tr s).

(** sleepUntil(w), qcorotimer.h:66-71. *)
Definition sleep_until (w : Z) (s : sst) : sst := sleep_for (w - s_now s) s.

Inductive sact := SFor (d : Z) | SUntil (off w : Z) | SPass (n : positive) | STimeout.

Definition sperform (a : sact) (s : sst) : option sst :=
  match a with
  | SFor d => match s_pos s with SRun => Some (sleep_for d (Sst (s_now s) SRun (VFor d (s_now s) :: s_tr s))) | _ => None end
  | SUntil off w => match s_pos s with SRun => Some (sleep_until w (Sst (s_now s) SRun (VUntil off w (s_now s) :: s_tr s))) | _ => None end
  | SPass n => Some (Sst (s_now s + Zpos n) (s_pos s) (s_tr s))
  | STimeout =>
      match s_pos s with
      | SSleep dl => if dl <=? s_now s then Some (Sst (s_now s) SRun (VAwake (s_now s) :: s_tr s)) else None
      | SRun => None
      end
  end.

Inductive sreach (t0 : Z) : sst -> Prop :=
  | sreach_0 : sreach t0 (Sst t0 SRun [])
  | sreach_S s s' a : sreach t0 s -> sperform a s = Some s' -> sreach t0 s'.

Fixpoint splay (l : list sact) (s : sst) : sst :=
  match l with [] => s | a :: l => match sperform a s with Some s' => splay l s' | None => s end end.
End sleep.
