(** * co_await on a QFuture, qCoro(future).result(), waitForFinished() and takeResult().

    Models /repo/qcoro/core/qcorofuture.h:23-84 (WaitForFinishedOperationBase, ...ImplT, ...ImplVoid, TakeResultOperation) and :103-128
    (the Task functions, which only await one of these). No proofs in this file.

    One future and any number of awaiters (numbers), on any threads; the thread that computes the future interleaves with them
    freely, also between await_ready() and await_suspend(). A history is a sequence of the actions below.

    Qt (trusted): a future gets at most one result or exception, before it finishes, and a reported exception also cancels it; results and exceptions
    reported after a cancellation are ignored; isFinished() is true once the future has finished; a QFutureWatcher emits finished() in its own event loop
    exactly once, after the future has finished, also if it had finished before setFuture(); result() first rethrows the exception, then blocks until there is
    a result or the future has finished, and reading a result that does not exist (or was taken) is undefined; waitForFinished() blocks until the future
    has finished and then rethrows the exception; takeResult() does both. Simplifications: futures with more than one result, suspended and
    chained futures are not modelled; Task is transparent (see the models of Task). *)
From stdpp Require Import list option.

(** The awaitable: result() / co_await for QFuture<T>, for QFuture<void>, takeResult(); qcorofuture.h:48-55, 57-69, 75-83. *)
Inductive fkind := KResult | KVoid | KTake.

Inductive awst :=
  | AIdle
  | AChecked (k : fkind)      (* await_ready() has returned false, :33-35 *)
  | AWatch (k : fkind)        (* await_suspend() has returned, the future has not finished, :37-43 *)
  | APosted (k : fkind)       (* the watcher will emit finished() *)
  | ABlocked (k : fkind)      (* the thread is blocked in await_resume() *)
  | AGone (posted : bool)     (* the frame was destroyed, the watcher exists *)
  | ADone.

Inductive fev :=
  | FEAwait (i : nat) (k : fkind)
  | FESuspend (i : nat)
  | FEReturn (i : nat) (r : option nat)      (* the awaiter continues with the result (none for void) *)
  | FEThrow (i : nat) (e : nat)
  | FEBlock (i : nat)                        (* the awaiter blocks its thread *)
  | FEUndef (i : nat)                        (* undefined behaviour: there is no result *)
  | FEDestroy (i : nat)
  | FEStale (i : nat)                        (* a destroyed frame is resumed *)
  | FEReport (v : nat) | FEExc (e : nat) | FECancel | FEFinish.

Record fstate := Fst {
  f_fin : bool; f_can : bool; f_res : option nat; f_exc : option nat; f_taken : bool;
  f_aw : nat -> awst; f_tr : list fev }.
Definition fut0 : fstate := Fst false false None None false (λ _, AIdle) [].

Definition say (e : fev) (s : fstate) : fstate := Fst (f_fin s) (f_can s) (f_res s) (f_exc s) (f_taken s) (f_aw s) (e :: f_tr s).
Definition put (i : nat) (x : awst) (s : fstate) : fstate :=
  Fst (f_fin s) (f_can s) (f_res s) (f_exc s) (f_taken s) (λ j, if decide (j = i) then x else f_aw s j) (f_tr s).
Definition take (s : fstate) : fstate := Fst (f_fin s) (f_can s) (f_res s) (f_exc s) true (f_aw s) (f_tr s).

(** await_resume(): result() :52-54, waitForFinished() :62-68, takeResult() :80-82. [None]: it would block on. *)
Definition obtain (k : fkind) (s : fstate) : option (bool * (nat -> fev)) := (* the result was taken; what is observed *)
  match f_exc s with
  | Some e => Some (false, λ i, FEThrow i e)
  | None =>
      match k with
      | KResult =>
          match f_res s with
          | Some v => Some (false, λ i, if f_taken s then FEUndef i else FEReturn i (Some v))
          | None => if f_fin s then Some (false, FEUndef) else None
          end
      | KVoid => if f_fin s then Some (false, λ i, FEReturn i None) else None
      | KTake =>
          if f_fin s then
            match f_res s with
            | Some v => if f_taken s then Some (false, FEUndef) else Some (true, λ i, FEReturn i (Some v))
            | None => Some (false, FEUndef)
            end
          else None
      end
  end.
Definition resume (i : nat) (k : fkind) (s : fstate) : fstate :=
  match obtain k s with
  | Some (t, e) => let s := say (e i) (put i ADone s) in if t then take s else s
  | None => say (FEBlock i) (put i (ABlocked k) s)
  end.

(** The future finishes: watchers of it will emit finished(). *)
Definition notify (x : awst) : awst := match x with AWatch k => APosted k | AGone _ => AGone true | x => x end.

Inductive fact :=
  | FAwait (i : nat) (k : fkind)     (* co_await: await_ready(), :33-35 *)
  | FWatch (i : nat)                 (* await_suspend(), :37-43 *)
  | FDeliver (i : nat)               (* the event loop: the watcher emits finished(), :39-42 *)
  | FUnblock (i : nat)
  | FDestroy (i : nat)               (* the suspended frame is destroyed (e.g. of an AsyncGenerator) *)
  | FReport (v : nat) | FThrow (e : nat) | FCancel | FFinish.

Definition fperform (x : fact) (s : fstate) : option fstate :=
  match x with
  | FAwait i k =>
      match f_aw s i with
      | AIdle => let s := say (FEAwait i k) s in Some (if f_fin s || f_can s then resume i k s else put i (AChecked k) s)
      | _ => None end
  | FWatch i =>
      match f_aw s i with
      | AChecked k => Some (say (FESuspend i) (put i (if f_fin s then APosted k else AWatch k) s))
      | _ => None end
  | FDeliver i =>
      match f_aw s i with
      | APosted k => Some (resume i k s)
      | AGone true => Some (say (FEStale i) (put i ADone s))
      | _ => None end
  | FUnblock i =>
      match f_aw s i with
      | ABlocked k => match obtain k s with Some _ => Some (resume i k s) | None => None end
      | _ => None end
  | FDestroy i =>
      match f_aw s i with
      | AWatch _ => Some (say (FEDestroy i) (put i (AGone false) s))
      | APosted _ => Some (say (FEDestroy i) (put i (AGone true) s))
      | _ => None end
  | FReport v =>
      if f_fin s || f_can s then None else
      match f_res s with
      | None => Some (say (FEReport v) (Fst (f_fin s) (f_can s) (Some v) (f_exc s) (f_taken s) (f_aw s) (f_tr s)))
      | Some _ => None end
  | FThrow e =>
      if f_fin s || f_can s then None else
      match f_res s with
      | None => Some (say (FEExc e) (Fst (f_fin s) true (f_res s) (Some e) (f_taken s) (f_aw s) (f_tr s)))
      | Some _ => None end
  | FCancel => Some (say FECancel (Fst (f_fin s) true (f_res s) (f_exc s) (f_taken s) (f_aw s) (f_tr s)))
  | FFinish =>
      if f_fin s then None else
      Some (say FEFinish (Fst true (f_can s) (f_res s) (f_exc s) (f_taken s) (λ j, notify (f_aw s j)) (f_tr s)))
  end.

Inductive freach : fstate -> Prop :=
  | freach_0 : freach fut0
  | freach_S s s' x : freach s -> fperform x s = Some s' -> freach s'.

Fixpoint fplay (l : list fact) (s : fstate) : fstate :=
  match l with [] => s | a :: l => match fperform a s with Some s' => fplay l s' | None => s end end.
