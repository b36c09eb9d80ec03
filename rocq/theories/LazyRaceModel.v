(** * co_await of a LazyTask whose coroutine ends on another thread (as after co_await QCoro::moveToThread()).

    Models, step by step, for free interleaving of any number of threads, what RaceModel.v models for Task:
    - LazyTask::operator co_await, await_suspend (registers the awaiting coroutine, then the lazy coroutine is resumed), /repo/qcoro/impl/lazytask.h:40-65, with
      TaskAwaiterBase::await_ready, await_suspend, /repo/qcoro/impl/taskawaiterbase.h:17-30 and std::vector::push_back, taskpromisebase.h:45-47;
    - LazyTaskPromise::initial_suspend, lazytask.h:23-26: the body has not begun;
    - TaskPromiseBase::final_suspend, TaskFinalSuspend::await_suspend, the reference count: as in RaceModel.v (taskpromisebase.h:26-28, 53-67, taskfinalsuspend.h:16-34,
      taskbase.h:19-47).
    TaskModel.v is about everything that happens on one thread. No proofs in this file.

    One lazy coroutine, the callee, with its LazyTask object; any number of coroutines (numbers) that co_await it, on any threads. C++ (trusted) and simplifications as in
    RaceModel.v; resuming a coroutine that is not suspended at its beginning through the LazyTask is counted as undefined: it runs on another thread, or waits for something
    else, which would resume it a second time. *)
From stdpp Require Import list option.

(** The callee. *)
Inductive lphase :=
  | LNot                 (* suspended at its beginning *)
  | LRun                 (* its body runs, or is suspended in a co_await of its own *)
  | LCopying             (* in final_suspend() *)
  | LCopied (l : list nat)
  | LLoop (l : list nat) (* done(); the awaiters [l] are still to be resumed *)
  | LOver.               (* has given up its reference *)
(** An awaiting coroutine. *)
Inductive laphase :=
  | BNone                (* not in a co_await of the LazyTask *)
  | BChecked             (* await_ready() was false *)
  | BPushing             (* in push_back() *)
  | BPushed              (* suspended; its thread is about to resume the callee *)
  | BWait.               (* suspended *)

Inductive lrev :=
  | LEAwait (i : nat)             (* co_await: done() is false *)
  | LESuspended (i : nat)         (* await_suspend() is over *)
  | LEStarted (i : nat)           (* the thread of coroutine i resumes the callee, which begins *)
  | LEGot (i : nat) (here : bool) (* the co_await returns, [here], on the thread that executed it, or on the callee's last thread *)
  | LEReturned                    (* the callee has executed co_return *)
  | LEOver                        (* TaskFinalSuspend::await_suspend() is over *)
  | LEDropped                     (* the LazyTask is destroyed *)
  | LEFreed                       (* the frame is destroyed *)
  | LERace | LEUseAfterFree | LEResumed (i : nat) (* coroutine i resumes a callee that is not suspended at its beginning *).

Record lzst := Lzst {
  z_fin : lphase; z_list : list nat; z_aw : nat -> laphase; z_mid : list nat; z_push : option nat; z_ref : nat; z_frame : bool; z_task : bool; z_bad : bool; z_tr : list lrev }.
(** After the call of the coroutine returned: one reference of the coroutine, one of the LazyTask. *)
Definition lazyrace0 : lzst := Lzst LNot [] (λ _, BNone) [] None 2 true true false [].

Inductive lzact :=
  | LAAwait (i : nat) | LAPush (i : nat) | LAPushed (i : nat) | LAStart (i : nat)
  | LAReturn | LACopied | LADone | LAResume | LADeref
  | LADrop.

Definition set_law (i : nat) (p : laphase) (f : nat -> laphase) : nat -> laphase := λ j, if decide (j = i) then p else f j.
Definition lbad (e : lrev) (s : lzst) : lzst := Lzst (z_fin s) (z_list s) (z_aw s) (z_mid s) (z_push s) (z_ref s) (z_frame s) (z_task s) true (e :: z_tr s).
(** Access to the frame. *)
Definition ltouch (s f : lzst) : lzst := if z_frame s then f else lbad LEUseAfterFree s.
(** derefCoroutine(). *)
Definition lderef (s : lzst) : lzst :=
  let n := pred (z_ref s) in
  Lzst (z_fin s) (z_list s) (z_aw s) (z_mid s) (z_push s) n (if decide (n = 0) then false else z_frame s) (z_task s) (z_bad s) (if decide (n = 0) then LEFreed :: z_tr s else z_tr s).
Definition ldone (s : lzst) : bool := match z_fin s with LLoop _ | LOver => true | _ => false end.

Definition lzperform (a : lzact) (s : lzst) : option lzst :=
  if z_bad s then None else
  match a with
  | LAAwait i =>
      match z_task s, z_aw s i with
      | true, BNone =>
          Some (ltouch s (if ldone s
            then Lzst (z_fin s) (z_list s) (z_aw s) (z_mid s) (z_push s) (z_ref s) (z_frame s) (z_task s) false (LEGot i true :: z_tr s)
            else Lzst (z_fin s) (z_list s) (set_law i BChecked (z_aw s)) (i :: z_mid s) (z_push s) (z_ref s) (z_frame s) (z_task s) false (LEAwait i :: z_tr s)))
      | _, _ => None
      end
  | LAPush i =>
      match z_aw s i with
      | BChecked => Some (ltouch s (match z_push s, z_fin s with
          | None, LNot | None, LRun | None, LCopied _ | None, LLoop _ | None, LOver =>
              Lzst (z_fin s) (z_list s) (set_law i BPushing (z_aw s)) (z_mid s) (Some i) (z_ref s) (z_frame s) (z_task s) false (z_tr s)
          | _, _ => lbad LERace s
          end))
      | _ => None
      end
  | LAPushed i =>
      match z_aw s i with
      | BPushing => Some (ltouch s (Lzst (z_fin s) (z_list s ++ [i]) (set_law i BPushed (z_aw s)) (z_mid s) None (z_ref s) (z_frame s) (z_task s) false (LESuspended i :: z_tr s)))
      | _ => None
      end
  (* lazytask.h:47-51 *)
  | LAStart i =>
      match z_aw s i with
      | BPushed => Some (ltouch s (match z_fin s with
          | LNot => Lzst LRun (z_list s) (set_law i BWait (z_aw s)) (filter (λ j, j ≠ i) (z_mid s)) (z_push s) (z_ref s) (z_frame s) (z_task s) false (LEStarted i :: z_tr s)
          | _ => lbad (LEResumed i) s
          end))
      | _ => None
      end
  | LAReturn =>
      match z_fin s with
      | LRun => Some (ltouch s (match z_push s with
          | None => Lzst LCopying (z_list s) (z_aw s) (z_mid s) (z_push s) (z_ref s) (z_frame s) (z_task s) false (LEReturned :: z_tr s)
          | Some _ => lbad LERace s
          end))
      | _ => None
      end
  | LACopied =>
      match z_fin s with
      | LCopying => Some (ltouch s (Lzst (LCopied (z_list s)) (z_list s) (z_aw s) (z_mid s) (z_push s) (z_ref s) (z_frame s) (z_task s) false (z_tr s)))
      | _ => None
      end
  | LADone =>
      match z_fin s with
      | LCopied l => Some (ltouch s (Lzst (LLoop l) (z_list s) (z_aw s) (z_mid s) (z_push s) (z_ref s) (z_frame s) (z_task s) false (z_tr s)))
      | _ => None
      end
  | LAResume =>
      match z_fin s with
      | LLoop (i :: l) => Some (ltouch s (Lzst (LLoop l) (z_list s) (set_law i BNone (z_aw s)) (z_mid s) (z_push s) (z_ref s) (z_frame s) (z_task s) false (LEGot i false :: z_tr s)))
      | _ => None
      end
  | LADeref =>
      match z_fin s with
      | LLoop [] => Some (ltouch s (lderef (Lzst LOver (z_list s) (z_aw s) (z_mid s) (z_push s) (z_ref s) (z_frame s) (z_task s) false (LEOver :: z_tr s))))
      | _ => None
      end
  (* ~TaskBase(), lazytask.h:31-37, taskbase.h:43-47; not while a thread evaluates co_await *)
  | LADrop =>
      match z_task s, z_mid s with
      | true, [] => Some (ltouch s (lderef (Lzst (z_fin s) (z_list s) (z_aw s) (z_mid s) (z_push s) (z_ref s) (z_frame s) false false (LEDropped :: z_tr s))))
      | _, _ => None
      end
  end.

Inductive lzreach : lzst -> Prop :=
  | lzreach_0 : lzreach lazyrace0
  | lzreach_S s s' a : lzreach s -> lzperform a s = Some s' -> lzreach s'.
Fixpoint lzplay (l : list lzact) (s : lzst) : lzst :=
  match l with [] => s | a :: l => match lzperform a s with Some s' => lzplay l s' | None => s end end.
