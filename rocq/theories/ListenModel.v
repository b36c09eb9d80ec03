(** * The signal listener: QCoroSignalQueue, qCoroSignalListener() and a consumer of the generator.

    Models /repo/qcoro/core/qcorosignal.h:39-164 (timer part of QCoroSignalBase), 245-331 (QCoroSignalQueue), 377-400
    (qCoroSignalListener and its inner generator), with the parts of /repo/qcoro/qcoroasyncgenerator.h this generator and its
    consumer go through (PropsAGen.v is about those in general). No proofs in this file.

    The machine has one listener. The object that emits, the event loop and the coroutine that consumes the generator are
    arbitrary: a history is any sequence of the actions below, in any order in which they are possible. The consumer is an
    arbitrary coroutine: while it runs it may do any of the consumer's actions.

    Qt (trusted): emission posts one event per queued connection; posted events are delivered in order by the event loop, also
    when the connection was cut meanwhile, and are discarded with their receiver; connections vanish with sender and context
    object; a single shot QTimer fires once, not before its interval is over, and start() restarts it.

    Simplifications: one thread; timers are exact (time does not pass beyond a due timer); times are natural numbers; the
    consumer does not run nested event loops; one consumer coroutine at a time. *)
From stdpp Require Import list option.

Section listen.
(** [V]: result_type::value_type, the arguments of the signal (shape: C40). *)
Context {V : Type}.

(** Where the inner generator is. qcorosignal.h:387-397. *)
Inductive gpos :=
  | GInit              (* initial_suspend, qcoroasyncgenerator.h:37 *)
  | GWait              (* suspended in co_await *signalQueue, qcorosignal.h:390 *)
  | GYield (v : V)     (* suspended in co_yield, qcorosignal.h:395 *)
  | GEnd.              (* final_suspend *)

(** Where the consumer is: running, suspended in co_await begin() or ++it, suspended in some other co_await, finished. *)
Inductive cpos := CRun | CAsked | CAway | CFin.

(** Undefined behaviour. *)
Inductive lub :=
  | UPastEnd           (* the consumer advances an end iterator, or a destroyed or finished generator *)
  | UDone              (* resume() on the finished generator *)
  | UDeadConsumer.     (* the generator resumes a consumer that has finished *)

(** What can be observed, newest first in the trace. *)
Inductive lev :=
  | TEmit (v : V)      (* the signal is emitted *)
  | TDeliver (v : V)   (* the event loop delivers the emission to the listener *)
  | TTick              (* one unit of time passes *)
  | TFire              (* the timeout timer fires *)
  | TObjGone           (* the object is destroyed *)
  | TDropped           (* the generator is destroyed *)
  | TAsk               (* the consumer does co_await begin() or co_await ++it *)
  | TPark              (* ... which really suspends it *)
  | TGot (v : V)       (* ... which returns, with a value *)
  | TEnd               (* ... which returns the end iterator *)
  | TLeave             (* the consumer is suspended in some other co_await *)
  | TBack              (* that co_await is done *)
  | TEarly             (* that co_await returns although it is not done *)
  | TStale             (* co_await ++it returns although the generator yielded nothing *)
  | TFin               (* the consumer finishes *)
  | TUB (u : lub).

Record lst := Lst {
  l_to : option nat;     (* timeout; None for -1. qcorosignal.h:124-129 *)
  l_now : nat;
  l_obj : bool;          (* mObj: the object exists *)
  l_conn : bool;         (* mConn *)
  l_mail : list V;       (* events posted to mDummyReceiver, oldest first *)
  l_queue : list V;      (* mQueue, front first. qcorosignal.h:329 *)
  l_aw : bool;           (* mAwaitingCoroutine is set (to the inner generator) *)
  l_timer : option nat;  (* mTimeoutTimer running: when it is due *)
  l_tconns : nat;        (* connections of mTimeoutTimer's timeout signal *)
  l_gen : gpos;
  l_alive : bool;        (* the generator's frame, and with it the queue, the timer and the dummy receiver, exist *)
  l_con : cpos;
  l_out : nat;           (* other co_awaits of the consumer that are not done *)
  l_fire : nat;          (* slots QTimer::timeout still has to call in the emission that is on the C++ stack *)
  l_ub : bool;
  l_tr : list lev }.

Definition log (e : lev) (s : lst) : lst :=
  Lst (l_to s) (l_now s) (l_obj s) (l_conn s) (l_mail s) (l_queue s) (l_aw s) (l_timer s) (l_tconns s) (l_gen s) (l_alive s)
    (l_con s) (l_out s) (l_fire s) (l_ub s) (e :: l_tr s).
Definition set_now (x : nat) (s : lst) : lst :=
  Lst (l_to s) x (l_obj s) (l_conn s) (l_mail s) (l_queue s) (l_aw s) (l_timer s) (l_tconns s) (l_gen s) (l_alive s)
    (l_con s) (l_out s) (l_fire s) (l_ub s) (l_tr s).
Definition set_conn (x : bool) (s : lst) : lst :=
  Lst (l_to s) (l_now s) (l_obj s) x (l_mail s) (l_queue s) (l_aw s) (l_timer s) (l_tconns s) (l_gen s) (l_alive s)
    (l_con s) (l_out s) (l_fire s) (l_ub s) (l_tr s).
Definition set_mail (x : list V) (s : lst) : lst :=
  Lst (l_to s) (l_now s) (l_obj s) (l_conn s) x (l_queue s) (l_aw s) (l_timer s) (l_tconns s) (l_gen s) (l_alive s)
    (l_con s) (l_out s) (l_fire s) (l_ub s) (l_tr s).
Definition set_queue (x : list V) (s : lst) : lst :=
  Lst (l_to s) (l_now s) (l_obj s) (l_conn s) (l_mail s) x (l_aw s) (l_timer s) (l_tconns s) (l_gen s) (l_alive s)
    (l_con s) (l_out s) (l_fire s) (l_ub s) (l_tr s).
Definition set_timer (x : option nat) (s : lst) : lst :=
  Lst (l_to s) (l_now s) (l_obj s) (l_conn s) (l_mail s) (l_queue s) (l_aw s) x (l_tconns s) (l_gen s) (l_alive s)
    (l_con s) (l_out s) (l_fire s) (l_ub s) (l_tr s).
Definition set_tconns (x : nat) (s : lst) : lst :=
  Lst (l_to s) (l_now s) (l_obj s) (l_conn s) (l_mail s) (l_queue s) (l_aw s) (l_timer s) x (l_gen s) (l_alive s)
    (l_con s) (l_out s) (l_fire s) (l_ub s) (l_tr s).
Definition set_gen (x : gpos) (s : lst) : lst :=
  Lst (l_to s) (l_now s) (l_obj s) (l_conn s) (l_mail s) (l_queue s) (l_aw s) (l_timer s) (l_tconns s) x (l_alive s)
    (l_con s) (l_out s) (l_fire s) (l_ub s) (l_tr s).
Definition set_con (x : cpos) (s : lst) : lst :=
  Lst (l_to s) (l_now s) (l_obj s) (l_conn s) (l_mail s) (l_queue s) (l_aw s) (l_timer s) (l_tconns s) (l_gen s) (l_alive s)
    x (l_out s) (l_fire s) (l_ub s) (l_tr s).
Definition set_out (x : nat) (s : lst) : lst :=
  Lst (l_to s) (l_now s) (l_obj s) (l_conn s) (l_mail s) (l_queue s) (l_aw s) (l_timer s) (l_tconns s) (l_gen s) (l_alive s)
    (l_con s) x (l_fire s) (l_ub s) (l_tr s).
Definition set_fire (x : nat) (s : lst) : lst :=
  Lst (l_to s) (l_now s) (l_obj s) (l_conn s) (l_mail s) (l_queue s) (l_aw s) (l_timer s) (l_tconns s) (l_gen s) (l_alive s)
    (l_con s) (l_out s) x (l_ub s) (l_tr s).
(** QCoroSignalQueue::setAwaiter, qcorosignal.h:301-303. Nothing ever resets it. *)
Definition set_awaiter (s : lst) : lst :=
  Lst (l_to s) (l_now s) (l_obj s) (l_conn s) (l_mail s) (l_queue s) true (l_timer s) (l_tconns s) (l_gen s) (l_alive s)
    (l_con s) (l_out s) (l_fire s) (l_ub s) (l_tr s).
Definition bad (u : lub) (s : lst) : lst :=
  Lst (l_to s) (l_now s) (l_obj s) (l_conn s) (l_mail s) (l_queue s) (l_aw s) (l_timer s) (l_tconns s) (l_gen s) (l_alive s)
    (l_con s) (l_out s) (l_fire s) true (TUB u :: l_tr s).

(** qCoroSignalListener(obj, signal, timeout) was called by a consumer that is running: the queue is constructed at once and
    connects (qcorosignal.h:249-252, 306-326, 399), the generator waits for its first resumption. [obj]: the object is not
    null (connecting a null object fails). *)
Definition listener (to : option nat) (obj : bool) : lst :=
  Lst to 0 obj obj [] [] false None 0 GInit true CRun 0 0 false [].

(** QCoroSignalBase::handleTimeout, qcorosignal.h:111-120: one more connection, with the object as context (none if it is
    gone), and the timer is (re)started. *)
Definition handle_timeout (s : lst) : lst :=
  match l_to s with
  | Some d => set_timer (Some (l_now s + d)) (set_tconns (if l_obj s then S (l_tconns s) else l_tconns s) s)
  | None => s
  end.

(** Awaiter::await_ready, qcorosignal.h:266-268 (isValid: 283-285, empty: 287-289). *)
Definition queue_ready (s : lst) : bool :=
  negb (l_obj s) || negb (match l_queue s with [] => true | _ => false end).

(** QCoroSignalQueue::dequeue, qcorosignal.h:291-299. *)
Definition dequeue (s : lst) : option V * lst :=
  match l_queue s with [] => (None, s) | v :: q => (Some v, set_queue q s) end.

(** The generator passes control to its consumer: co_yield or final_suspend, qcoroasyncgenerator.h:75-101. [o]: the value
    yielded, None at the end. A consumer in co_await ++it or begin() gets it (await_resume, qcoroasyncgenerator.h:184-190, 339-349); in
    any other co_await it is resumed there. *)
Definition to_consumer (o : option V) (s : lst) : lst :=
  match l_con s with
  | CAsked => log (match o with Some v => TGot v | None => TEnd end) (set_con CRun s)
  | CAway => log TEarly (set_con CRun s)
  | CRun | CFin => bad UDeadConsumer s
  end.

(** The inner generator after co_await *signalQueue: await_resume() and the rest of the loop's body, qcorosignal.h:390-395. *)
Definition gen_result (s : lst) : lst :=
  match dequeue s with
  | (None, s1) => to_consumer None (set_gen GEnd s1)
  | (Some v, s1) => to_consumer (Some v) (set_gen (GYield v) s1)
  end.

(** The inner generator at the top of its loop, qcorosignal.h:389-390, with await_suspend: 269-272. *)
Definition gen_loop (s : lst) : lst :=
  if queue_ready s then gen_result s
  else log TPark (set_gen GWait (set_awaiter (handle_timeout s))).

(** coroutine_handle::resume() of the inner generator. *)
Definition gen_resume (s : lst) : lst :=
  match l_gen s with
  | GInit | GYield _ => gen_loop s
  | GWait => gen_result s
  | GEnd => bad UDone s
  end.

(** The slot of the queue's connection, qcorosignal.h:312-323. *)
Definition queue_slot (v : V) (s : lst) : lst :=
  let s := match l_to s with Some _ => set_timer None s | None => s end in
  let s := set_queue (l_queue s ++ [v]) s in
  if l_aw s then gen_resume s else s.

(** The slot of the timer's connection, qcorosignal.h:114-117. *)
Definition timeout_slot (s : lst) : lst := gen_resume (set_conn false s).

(** QTimer::timeout calls the next of its slots. *)
Definition next_slot (s : lst) : lst :=
  match l_fire s with 0 => s | S n => timeout_slot (set_fire n s) end.

Inductive act :=
  (* any time somebody runs: the consumer, or code called from the event loop *)
  | AEmit (v : V) | AKill | ADrop
  (* the event loop *)
  | ADeliver | ATick | AFire | ANext | AWake
  (* the consumer *)
  | AAsk | ALeave | AFinish.

(** Does the event loop (and not the consumer, nor QTimer::timeout) have control? *)
Definition idle (s : lst) : bool := match l_con s with CRun => false | _ => match l_fire s with 0 => true | _ => false end end.
Definition runs (s : lst) : bool := match l_con s with CRun => true | _ => false end.

(** One action; None: not possible now. *)
Definition perform (a : act) (s : lst) : option lst :=
  if l_ub s then None else
  match a with
  | AEmit v => (* emission: posts an event if still connected *)
      if (runs s || idle s) && l_obj s
      then Some (log (TEmit v) (if l_conn s then set_mail (l_mail s ++ [v]) s else s)) else None
  | AKill => (* ~QObject of the object: its connections vanish, those with it as context too *)
      if (runs s || idle s) && l_obj s
      then Some (log TObjGone (Lst (l_to s) (l_now s) false false (l_mail s) (l_queue s) (l_aw s) (l_timer s) 0 (l_gen s)
                                 (l_alive s) (l_con s) (l_out s) 0 (l_ub s) (l_tr s))) else None
  | ADrop => (* ~AsyncGenerator, qcoroasyncgenerator.h:298-302: destroys the frame, the queue in it (unique_ptr,
                qcorosignal.h:387), the timer and the dummy receiver with the events posted to it *)
      if (runs s || idle s) && l_alive s
      then Some (log TDropped (Lst (l_to s) (l_now s) (l_obj s) false [] [] false None 0 (l_gen s)
                                 false (l_con s) (l_out s) 0 (l_ub s) (l_tr s))) else None
  | ADeliver =>
      if idle s then match l_mail s with [] => None | v :: m => Some (queue_slot v (log (TDeliver v) (set_mail m s))) end
      else None
  | ATick =>
      if idle s then
        if match l_timer s with Some d => l_now s <? d | None => true end
        then Some (log TTick (set_now (S (l_now s)) s)) else None
      else None
  | AFire => (* single shot: stops, then emits timeout *)
      if idle s then match l_timer s with
        | Some d => if d <=? l_now s then Some (next_slot (set_fire (l_tconns s) (log TFire (set_timer None s)))) else None
        | None => None end
      else None
  | ANext => (* the slot called last has returned *)
      match l_con s, l_fire s with CRun, _ | _, 0 => None | _, S _ => Some (next_slot s) end
  | AWake => (* another co_await of the consumer is done: resumes the consumer, wherever it is *)
      if idle s then match l_out s with 0 => None | S n =>
        match l_con s with
        | CAway => Some (log TBack (set_out n (set_con CRun s)))
        | CAsked => Some (log TStale (set_out n (set_con CRun s)))
        | CRun | CFin => Some (bad UDeadConsumer s)
        end end
      else None
  | AAsk => (* co_await begin(), ++it: IteratorAwaitableBase::await_suspend, qcoroasyncgenerator.h:113-120 *)
      if runs s then
        if l_alive s then
          match l_gen s with
          | GEnd => Some (bad UPastEnd s)
          | _ => Some (gen_resume (log TAsk (set_con CAsked s)))
          end
        else Some (bad UPastEnd s)
      else None
  | ALeave => if runs s then Some (log TLeave (set_out (S (l_out s)) (set_con CAway s))) else None
  | AFinish => if runs s then Some (log TFin (set_con CFin s)) else None
  end.

(** [s] is a state of a history of the listener. *)
Inductive lreach (to : option nat) (obj : bool) : lst -> Prop :=
  | lreach_0 : lreach to obj (listener to obj)
  | lreach_S s s' a : lreach to obj s -> perform a s = Some s' -> lreach to obj s'.

(** For examples. *)
Fixpoint play (l : list act) (s : lst) : lst :=
  match l with [] => s | a :: l => match perform a s with Some s' => play l s' | None => s end end.
End listen.
Arguments lst : clear implicits. Arguments lev : clear implicits. Arguments act : clear implicits. Arguments gpos : clear implicits.
