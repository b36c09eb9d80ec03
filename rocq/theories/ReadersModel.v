(** * Any number of coroutines that read from one device.

    Models QCoroIODevice::readAll(), read(), readLine() (/repo/qcoro/core/qcoroiodevice.cpp:57-82), waitForReadyRead() (:104-114), waitForReadyReadImpl()
    (:132-135) with WaitSignalHelper (qcoroiodevice_p.h:12-35, qcoroiodevice_p.cpp:7-19), and co_await device (ReadAllOperation, qcoroiodevice.cpp:15-51), for
    plain QIODevices. QtIO.v has the same code for one coroutine, with all wrapper classes, the destruction of device and wrapper and re-entrance; here the
    coroutines are arbitrary and a history is any sequence of the actions below. No proofs in this file.

    Qt (trusted): readyRead and aboutToClose call the slots of all awaiters; each is disconnected and posts its event (or single-shot timer). QIODevice::close() emits
    aboutToClose, then drops the buffer. Timers of signal awaits may be late, and may fire while the event is posted.
    Simplifications: an emission is one step (the slots only post; what other slots do comes before or after); events are delivered in any order (Qt: as posted); the
    device lives (see C117); coroutines suspended in co_await device are not destroyed (see C125). *)
From stdpp Require Import list option.
From Verif Require Import QtModel QtSpec QtObj QtIO.

(** readAll/read/readLine(timeout), co_await device. *)
Inductive rop := OMember (r : rkind) | ODevice.
Definition kind_of (o : rop) : rkind := match o with OMember r => r | ODevice => RAll end.
(** A coroutine: elsewhere; waiting for a signal, with the deadline; its event is posted; destroyed. *)
Inductive rcst := CElse | CWait (o : rop) (dl : option nat) | CPosted (o : rop) (dl : option nat) | CDead.

Inductive dev :=
  | DStart (i : nat) (o : rop) (to : option nat)  (* coroutine i calls a read function *)
  | DSuspended (i : nat)                          (* and is suspended *)
  | DGot (i : nat) (b : list byte) (late : bool)  (* it returns; [late]: because of the timeout *)
  | DDestroyed (i : nat)
  | DArrive (b : list byte)                       (* bytes become available *)
  | DReady | DClosing                             (* readyRead, aboutToClose is emitted *)
  | DClosed (b : list byte)                       (* the device is closed and drops b *)
  | DTaken (b : list byte)                        (* someone else reads b from the device *)
  | DTick.

Record dst := Dst { d_open : bool; d_buf : list byte; d_co : nat -> rcst; d_now : nat; d_tr : list dev }.
Definition readers0 : dst := Dst true [] (λ _, CElse) 0 [].

Inductive dact :=
  | DAStart (i : nat) (o : rop) (to : option nat) | DAWake (i : nat) | DAExpire (i : nat) | DADestroy (i : nat)
  | DAArrive (b : list byte) | DAReady | DAClosing | DAClose | DATake (n : nat) | DATick.

Definition set_co (i : nat) (c : rcst) (f : nat -> rcst) : nat -> rcst := λ j, if decide (j = i) then c else f j.
(** device->readAll(), read(n), readLine(n), and return of the result: qcoroiodevice.cpp:63, 72, 81, 45-47. *)
Definition take_bytes (i : nat) (r : rkind) (s : dst) : dst :=
  Dst (d_open s) (drop (rlen r (d_buf s)) (d_buf s)) (set_co i CElse (d_co s)) (d_now s) (DGot i (take (rlen r (d_buf s)) (d_buf s)) false :: d_tr s).
(** The slots of all awaiters: WaitSignalHelper::emitReady(), OperationBase::finish(). *)
Definition wake_all (f : nat -> rcst) : nat -> rcst := λ i, match f i with CWait o dl => CPosted o dl | c => c end.

Definition dperform (a : dact) (s : dst) : option dst :=
  match a with
  | DAStart i o to =>
      match d_co s i with
      | CElse =>
          let s1 := Dst (d_open s) (d_buf s) (d_co s) (d_now s) (DStart i o to :: d_tr s) in
          let wait dl := Dst (d_open s) (d_buf s) (set_co i (CWait o dl) (d_co s)) (d_now s) (DSuspended i :: d_tr s1) in
          Some match o with
          (* :105-113, 59-63 *)
          | OMember r =>
              if negb (d_open s) then Dst (d_open s) (d_buf s) (set_co i CElse (d_co s)) (d_now s) (DGot i [] false :: d_tr s1)
              else match d_buf s with _ :: _ => take_bytes i r s1 | [] => wait ((λ n, d_now s + n) <$> to) end
          (* :29-32, 34-43 *)
          | ODevice => if negb (d_open s) then take_bytes i RAll s1 else match d_buf s with _ :: _ => take_bytes i RAll s1 | [] => wait None end
          end
      | _ => None
      end
  | DAWake i => match d_co s i with CPosted o _ => Some (take_bytes i (kind_of o) s) | _ => None end
  (* :59-61, 68-70, 77-79 *)
  | DAExpire i =>
      match d_co s i with
      | CWait _ (Some d) | CPosted _ (Some d) =>
          if decide (d ≤ d_now s) then Some (Dst (d_open s) (d_buf s) (set_co i CElse (d_co s)) (d_now s) (DGot i [] true :: d_tr s)) else None
      | _ => None
      end
  | DADestroy i =>
      match d_co s i with
      | CWait (OMember _) _ | CPosted (OMember _) _ | CElse => Some (Dst (d_open s) (d_buf s) (set_co i CDead (d_co s)) (d_now s) (DDestroyed i :: d_tr s))
      | _ => None
      end
  | DAArrive b => if d_open s then Some (Dst true (d_buf s ++ b) (d_co s) (d_now s) (DArrive b :: d_tr s)) else None
  | DAReady => if d_open s then Some (Dst true (d_buf s) (wake_all (d_co s)) (d_now s) (DReady :: d_tr s)) else None
  | DAClosing => if d_open s then Some (Dst true (d_buf s) (wake_all (d_co s)) (d_now s) (DClosing :: d_tr s)) else None
  | DAClose => if d_open s then Some (Dst false [] (d_co s) (d_now s) (DClosed (d_buf s) :: d_tr s)) else None
  | DATake n => Some (Dst (d_open s) (drop n (d_buf s)) (d_co s) (d_now s) (DTaken (take n (d_buf s)) :: d_tr s))
  | DATick => Some (Dst (d_open s) (d_buf s) (d_co s) (S (d_now s)) (DTick :: d_tr s))
  end.

Inductive dreach : dst -> Prop :=
  | dreach_0 : dreach readers0
  | dreach_S s s' a : dreach s -> dperform a s = Some s' -> dreach s'.
Fixpoint dplay (l : list dact) (s : dst) : dst :=
  match l with [] => s | a :: l => match dperform a s with Some s' => dplay l s' | None => s end end.
