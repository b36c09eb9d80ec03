(** * Any number of coroutines that write to one device.

    Models QCoroIODevice::write() (/repo/qcoro/core/qcoroiodevice.cpp:84-98), waitForBytesWritten() (:120-130), waitForBytesWrittenImpl() (:137-140) with
    WaitSignalHelper (qcoroiodevice_p.h:12-35, qcoroiodevice_p.cpp:7-19), for plain QIODevices. QtIO.v has the same code for one coroutine, with all wrapper classes,
    devices that lie, the destruction of device and wrapper and re-entrance; here the coroutines are arbitrary and a history is any sequence of the actions
    below. No proofs in this file.

    Qt (trusted): bytesWritten(n) and aboutToClose call the slots of all awaiters; each is disconnected and posts its event. bytesWritten(n) is emitted for n bytes
    taken from the write buffer. QIODevice::close() emits aboutToClose, then drops the buffer.
    Simplifications: an emission is one step (the slots only post); events are delivered in any order (Qt: as posted); device and wrapper live (see C117). *)
From stdpp Require Import list option.

(** A coroutine: elsewhere; in write() of which [total] bytes were accepted and [conf] are confirmed so far: waiting for a signal, or its event with the value [n] is
    posted; destroyed. *)
Inductive wcst := CElse | CWait (total conf : nat) | CPosted (total conf n : nat) | CDead.

Inductive wev :=
  | WWrite (i a q : nat)   (* coroutine i calls write(); a bytes are accepted, q of them are put into the write buffer *)
  | WSuspended (i : nat)
  | WGot (i n : nat)       (* write() returns n *)
  | WSpin (i : nat)        (* coroutine i loops for ever, and the thread with it *)
  | WDestroyed (i : nat)
  | WReport (n : nat)      (* n bytes leave the write buffer, bytesWritten(n) is emitted *)
  | WClosing               (* aboutToClose is emitted *)
  | WClosed (d : nat).     (* the device is closed and drops d bytes *)

Record wst := Wst { v_open : bool; v_out : nat; v_co : nat -> wcst; v_hang : bool; v_tr : list wev }.
Definition writers0 : wst := Wst true 0 (λ _, CElse) false [].

Inductive wact := WAWrite (i a q : nat) | WAWake (i : nat) | WADestroy (i : nat) | WAReport (n : nat) | WAClosing | WAClose.

Definition set_co (i : nat) (c : wcst) (f : nat -> wcst) : nat -> wcst := λ j, if decide (j = i) then c else f j.
(** The loop, :87-97 and :121-126, until it suspends or returns. *)
Definition loop (i total conf : nat) (s : wst) : wst :=
  if decide (conf < total) then
    if v_open s then
      if decide (v_out s = 0) then Wst (v_open s) (v_out s) (v_co s) true (WSpin i :: v_tr s)
      else Wst (v_open s) (v_out s) (set_co i (CWait total conf) (v_co s)) false (WSuspended i :: v_tr s)
    else Wst (v_open s) (v_out s) (set_co i CElse (v_co s)) false (WGot i conf :: v_tr s)
  else Wst (v_open s) (v_out s) (set_co i CElse (v_co s)) false (WGot i conf :: v_tr s).
(** WaitSignalHelper::emitReady(n) of all awaiters. *)
Definition ready (n : nat) (f : nat -> wcst) : nat -> wcst := λ i, match f i with CWait t c => CPosted t c n | c => c end.

Definition wperform (a : wact) (s : wst) : option wst :=
  if v_hang s then None else
  match a with
  (* :85; a closed device accepts nothing *)
  | WAWrite i a q =>
      match v_co s i with
      | CElse => if decide (q ≤ a ∧ (v_open s = false -> a = 0)) then Some (loop i a 0 (Wst (v_open s) (v_out s + q) (v_co s) false (WWrite i a q :: v_tr s))) else None
      | _ => None
      end
  (* :88-95 *)
  | WAWake i => match v_co s i with CPosted t c n => Some (loop i t (c + n) s) | _ => None end
  | WADestroy i => match v_co s i with CDead => None | _ => Some (Wst (v_open s) (v_out s) (set_co i CDead (v_co s)) false (WDestroyed i :: v_tr s)) end
  | WAReport n => if decide (v_open s = true ∧ 0 < n ≤ v_out s) then Some (Wst true (v_out s - n) (ready n (v_co s)) false (WReport n :: v_tr s)) else None
  | WAClosing => if v_open s then Some (Wst true (v_out s) (ready 0 (v_co s)) false (WClosing :: v_tr s)) else None
  | WAClose => if v_open s then Some (Wst false 0 (v_co s) false (WClosed (v_out s) :: v_tr s)) else None
  end.

Inductive wreach : wst -> Prop :=
  | wreach_0 : wreach writers0
  | wreach_S s s' a : wreach s -> wperform a s = Some s' -> wreach s'.
Fixpoint wplay (l : list wact) (s : wst) : wst :=
  match l with [] => s | a :: l => match wperform a s with Some s' => wplay l s' | None => s end end.
