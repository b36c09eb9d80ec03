(** * co_await on QDBusPendingCall and QDBusPendingReply, and their waitForFinished().

    Models /repo/qcoro/dbus/qcorodbuspendingcall.cpp:12-42 (WaitForFinishedOperation, waitForFinished()) and
    /repo/qcoro/dbus/qcorodbuspendingreply.h:30-55 (WaitForFinishedOperation), 105-112 (waitForFinished()). No proofs in this file.

    One call and any number of awaiters (numbers), on any threads; the thread that receives the reply interleaves with them freely, also between the check and the
    construction of the watcher. A history is a sequence of the actions below.

    Qt (trusted; qdbuspendingcall.cpp): the first QDBusPendingCallWatcher of a call creates a helper object, and if the reply has been received it queues the emission of the
    helper's finished(); a reply that is received makes an existing helper emit finished(); the helper emits it once. A watcher is connected to the helper
    by a queued connection, so that it gets an event for an emission after its construction, and emits its own finished() when that event is delivered. A default
    constructed call counts as finished (its reply is an error), and a watcher of it never emits finished(). Simplifications: Task, and
    awaiting the watcher's signal, are transparent (see the models of Task and of signals). *)
From stdpp Require Import list option.

(** The awaitable: co_await on a call or a reply; qCoro(call).waitForFinished(); qCoro(reply).waitForFinished(). *)
Inductive dkind := DOp | DCall | DReply.

Inductive dawst :=
  | DIdle
  | DChecked (k : dkind)      (* isFinished() was false, or is not checked *)
  | DWait (k : dkind)         (* the watcher is connected *)
  | DPosted (k : dkind)       (* the watcher has got the event *)
  | DLost (k : dkind)         (* the watcher will get no event *)
  | DGone (posted : bool)     (* the frame of a co_await (DOp) was destroyed; the watcher exists *)
  | DDone.

Inductive dev :=
  | DEAwait (i : nat) (k : dkind)
  | DESuspend (i : nat)
  | DEReturn (i : nat) (m : nat)       (* continues with the reply m *)
  | DEDestroy (i : nat)
  | DEStale (i : nat)                  (* a destroyed frame is resumed *)
  | DEFinish (m : nat)                 (* the reply is received *)
  | DEEmit.                            (* the queued emission of the helper *)

(** The helper of the watchers. *)
Inductive helper :=
  | HNull                              (* there is no call *)
  | HNone | HIdle | HQueued | HEmitted.

Record dst := Dst { d_reply : option nat; d_help : helper; d_aw : nat -> dawst; d_tr : list dev }.
Definition nullreply : nat := 0.
Definition dbus0 (null : bool) : dst := if null then Dst (Some nullreply) HNull (λ _, DIdle) [] else Dst None HNone (λ _, DIdle) [].

Definition dsay (e : dev) (s : dst) : dst := Dst (d_reply s) (d_help s) (d_aw s) (e :: d_tr s).
Definition dput (i : nat) (x : dawst) (s : dst) : dst := Dst (d_reply s) (d_help s) (λ j, if decide (j = i) then x else d_aw s j) (d_tr s).
Definition dhelp (h : helper) (s : dst) : dst := Dst (d_reply s) h (d_aw s) (d_tr s).
Definition emit (x : dawst) : dawst := match x with DWait k => DPosted k | DGone _ => DGone true | x => x end.
Definition demit (s : dst) : dst := Dst (d_reply s) HEmitted (λ j, emit (d_aw s j)) (d_tr s).

(** isFinished() is checked: pendingcall.cpp:16-18, pendingreply.h:36-38, :106 - not in QCoroDBusPendingCall::waitForFinished(), pendingcall.cpp:38-42. *)
Definition checks (k : dkind) : bool := match k with DCall => false | DOp | DReply => true end.

Inductive dact :=
  | DAwait (i : nat) (k : dkind)
  | DWatch (i : nat)             (* the watcher is constructed: pendingcall.cpp:21, 39; pendingreply.h:41, :107 *)
  | DDeliver (i : nat)           (* the watcher emits finished() *)
  | DDestroy (i : nat)
  | DFinish (m : nat)
  | DEmit.

Definition dperform (x : dact) (s : dst) : option dst :=
  match x with
  | DAwait i k =>
      match d_aw s i with
      | DIdle =>
          let s := dsay (DEAwait i k) s in
          Some (match d_reply s with
                | Some m => if checks k then dsay (DEReturn i m) (dput i DDone s) else dput i (DChecked k) s
                | None => dput i (DChecked k) s
                end)
      | _ => None end
  | DWatch i =>
      match d_aw s i with
      | DChecked k =>
          let s := dsay (DESuspend i) s in
          Some (match d_help s with
                | HNull | HEmitted => dput i (DLost k) s
                | HNone => dhelp (match d_reply s with Some _ => HQueued | None => HIdle end) (dput i (DWait k) s)
                | HIdle | HQueued => dput i (DWait k) s
                end)
      | _ => None end
  | DDeliver i =>
      match d_aw s i with
      | DPosted _ => match d_reply s with Some m => Some (dsay (DEReturn i m) (dput i DDone s)) | None => None end
      | DGone true => Some (dsay (DEStale i) (dput i DDone s))
      | _ => None end
  | DDestroy i => (* the watcher of waitForFinished() is a local variable of the destroyed frame; the one of co_await is not: pendingcall.cpp:21, pendingreply.h:41 *)
      match d_aw s i with
      | DWait DOp => Some (dsay (DEDestroy i) (dput i (DGone false) s))
      | DPosted DOp => Some (dsay (DEDestroy i) (dput i (DGone true) s))
      | DWait _ | DPosted _ | DLost _ => Some (dsay (DEDestroy i) (dput i DDone s))
      | _ => None end
  | DFinish m =>
      match d_reply s with
      | Some _ => None
      | None =>
          let s := dsay (DEFinish m) (Dst (Some m) (d_help s) (d_aw s) (d_tr s)) in
          Some (match d_help s with HIdle => demit s | _ => s end)
      end
  | DEmit => match d_help s with HQueued => Some (dsay DEEmit (demit s)) | _ => None end
  end.

Inductive dreach (null : bool) : dst -> Prop :=
  | dreach_0 : dreach null (dbus0 null)
  | dreach_S s s' x : dreach null s -> dperform x s = Some s' -> dreach null s'.
Inductive dsteps : dst -> dst -> Prop :=
  | dsteps_0 s : dsteps s s
  | dsteps_S s s' s'' x : dsteps s s' -> dperform x s' = Some s'' -> dsteps s s''.

Fixpoint dplay (l : list dact) (s : dst) : dst :=
  match l with [] => s | a :: l => match dperform a s with Some s' => dplay l s' | None => s end end.
