(** * co_await of a Task whose coroutine ends on another thread (as after co_await QCoro::moveToThread()).

    Models, step by step, for free interleaving of any number of threads:
    - TaskAwaiterBase::await_ready, await_suspend, /repo/qcoro/impl/taskawaiterbase.h:17-30;
    - TaskPromiseBase::addAwaitingCoroutine (std::vector::push_back), /repo/qcoro/impl/taskpromisebase.h:45-47;
    - TaskPromiseBase::final_suspend (copies the vector), taskpromisebase.h:26-28, taskfinalsuspend.h:16-17;
    - TaskFinalSuspend::await_suspend (resumes the copies), /repo/qcoro/impl/taskfinalsuspend.h:24-34;
    - the reference count, an atomic, taskpromisebase.h:53-67, and its uses by Task, /repo/qcoro/impl/taskbase.h:18-47.
    TaskModel.v is about everything that happens on one thread. No proofs in this file.

    One coroutine, the callee, with its Task object; any number of coroutines (numbers) that co_await the Task, on their own threads. The callee
    ends on some other thread; a coroutine resumed by it continues there.

    C++ (trusted): the frame's resume point changes (done() becomes true) after final_suspend() returned and before the await_suspend() of its
    awaiter is called; steps are sequentially consistent. A data race is a step of one thread that begins to access the vector while
    another thread accesses it. That done() itself is not synchronised, which makes every unordered call a data race in the sense of the
    standard, is not counted. A Task is not destroyed while a thread evaluates co_await on it, but may be while coroutines are
    suspended in it.

    Simplification: a check of done() that is true and the following await_resume() are one step. *)
From stdpp Require Import list option.

(** The end of the callee. *)
Inductive fphase :=
  | FRun                 (* not ended yet *)
  | FCopying             (* in final_suspend() *)
  | FCopied (l : list nat)
  | FLoop (l : list nat) (* done(); the awaiters [l] are still to be resumed *)
  | FOver.               (* has given up its reference *)

(** An awaiting coroutine. *)
Inductive aphase :=
  | ANone                (* not in a co_await of the Task *)
  | AChecked             (* await_ready() was false *)
  | APushing             (* in push_back() *)
  | AWait.               (* suspended *)

Inductive rev :=
  | EAwait (i : nat)               (* co_await: done() is false *)
  | ESuspended (i : nat)           (* await_suspend() is over *)
  | EGot (i : nat) (here : bool)   (* the co_await returns, [here], on the thread that executed it, or on the callee's last thread *)
  | EReturned                      (* the callee has executed co_return *)
  | ECopied                        (* final_suspend() is over *)
  | EOver                          (* TaskFinalSuspend::await_suspend() is over *)
  | EDropped                       (* the Task is destroyed *)
  | EFreed                         (* the frame is destroyed *)
  | ERace | EUseAfterFree.

Record rst := Rst {
  r_fin : fphase; r_list : list nat; r_aw : nat -> aphase; r_mid : list nat; r_push : option nat; r_ref : nat; r_frame : bool; r_task : bool; r_bad : bool; r_tr : list rev }.

(** After the call of the coroutine returned: one reference of the coroutine, one of the Task. *)
Definition race0 : rst := Rst FRun [] (λ _, ANone) [] None 2 true true false [].

Inductive ract :=
  | RAwait (i : nat) | RPush (i : nat) | RPushed (i : nat)
  | RReturn | RCopied | RDone | RResume | RDeref
  | RDrop.

Definition set_aw (i : nat) (p : aphase) (f : nat -> aphase) : nat -> aphase := λ j, if decide (j = i) then p else f j.
Definition bad (e : rev) (s : rst) : rst := Rst (r_fin s) (r_list s) (r_aw s) (r_mid s) (r_push s) (r_ref s) (r_frame s) (r_task s) true (e :: r_tr s).
(** Access to the frame. *)
Definition touch (s f : rst) : rst := if r_frame s then f else bad EUseAfterFree s.
(** derefCoroutine(). *)
Definition deref (s : rst) : rst :=
  let n := pred (r_ref s) in
  Rst (r_fin s) (r_list s) (r_aw s) (r_mid s) (r_push s) n (if decide (n = 0) then false else r_frame s) (r_task s) (r_bad s) (if decide (n = 0) then EFreed :: r_tr s else r_tr s).
Definition is_done (s : rst) : bool := match r_fin s with FLoop _ | FOver => true | _ => false end.

Definition rperform (a : ract) (s : rst) : option rst :=
  if r_bad s then None else
  match a with
  | RAwait i =>
      match r_task s, r_aw s i with
      | true, ANone =>
          Some (touch s (if is_done s
            then Rst (r_fin s) (r_list s) (r_aw s) (r_mid s) (r_push s) (r_ref s) (r_frame s) (r_task s) false (EGot i true :: r_tr s)
            else Rst (r_fin s) (r_list s) (set_aw i AChecked (r_aw s)) (i :: r_mid s) (r_push s) (r_ref s) (r_frame s) (r_task s) false (EAwait i :: r_tr s)))
      | _, _ => None
      end
  | RPush i =>
      match r_aw s i with
      | AChecked => Some (touch s (match r_push s, r_fin s with
          | None, FRun | None, FCopied _ | None, FLoop _ | None, FOver =>
              Rst (r_fin s) (r_list s) (set_aw i APushing (r_aw s)) (r_mid s) (Some i) (r_ref s) (r_frame s) (r_task s) false (r_tr s)
          | _, _ => bad ERace s
          end))
      | _ => None
      end
  | RPushed i =>
      match r_aw s i with
      | APushing => Some (touch s (Rst (r_fin s) (r_list s ++ [i]) (set_aw i AWait (r_aw s)) (filter (λ j, j ≠ i) (r_mid s)) None (r_ref s) (r_frame s) (r_task s) false (ESuspended i :: r_tr s)))
      | _ => None
      end
  | RReturn =>
      match r_fin s with
      | FRun => Some (touch s (match r_push s with
          | None => Rst FCopying (r_list s) (r_aw s) (r_mid s) (r_push s) (r_ref s) (r_frame s) (r_task s) false (EReturned :: r_tr s)
          | Some _ => bad ERace s
          end))
      | _ => None
      end
  | RCopied =>
      match r_fin s with
      | FCopying => Some (touch s (Rst (FCopied (r_list s)) (r_list s) (r_aw s) (r_mid s) (r_push s) (r_ref s) (r_frame s) (r_task s) false (ECopied :: r_tr s)))
      | _ => None
      end
  | RDone =>
      match r_fin s with
      | FCopied l => Some (touch s (Rst (FLoop l) (r_list s) (r_aw s) (r_mid s) (r_push s) (r_ref s) (r_frame s) (r_task s) false (r_tr s)))
      | _ => None
      end
  | RResume =>
      match r_fin s with
      | FLoop (i :: l) => Some (touch s (Rst (FLoop l) (r_list s) (set_aw i ANone (r_aw s)) (r_mid s) (r_push s) (r_ref s) (r_frame s) (r_task s) false (EGot i false :: r_tr s)))
      | _ => None
      end
  | RDeref =>
      match r_fin s with
      | FLoop [] => Some (touch s (deref (Rst FOver (r_list s) (r_aw s) (r_mid s) (r_push s) (r_ref s) (r_frame s) (r_task s) false (EOver :: r_tr s))))
      | _ => None
      end
  | RDrop =>
      match r_task s, r_mid s with
      | true, [] => Some (touch s (deref (Rst (r_fin s) (r_list s) (r_aw s) (r_mid s) (r_push s) (r_ref s) (r_frame s) false false (EDropped :: r_tr s))))
      | _, _ => None
      end
  end.

Inductive rreach : rst -> Prop :=
  | rreach_0 : rreach race0
  | rreach_S s s' a : rreach s -> rperform a s = Some s' -> rreach s'.
Inductive rgoes : rst -> rst -> Prop :=
  | rgoes_0 s : rgoes s s
  | rgoes_S s s' s'' a : rgoes s s' -> rperform a s' = Some s'' -> rgoes s s''.
Fixpoint rplay (l : list ract) (s : rst) : rst :=
  match l with [] => s | a :: l => match rperform a s with Some s' => rplay l s' | None => s end end.
