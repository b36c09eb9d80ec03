(** * A small Qt: event loop, signals, timers, one wrapped object, and a coroutine that uses the QCoro wrappers.

    Models the awaiters QCoro connects to Qt signals: /repo/qcoro/core/qcorosignal.h (QCoroSignalBase, QCoroSignal, qCoro),
    the helper objects of /repo/qcoro/core/qcoroiodevice_p.{h,cpp}, network/*.cpp and websockets/*.cpp (objects that re-emit
    signals of the wrapped object as ready(..)), and the hand written awaiters (core/qcoroiodevice.cpp:15-51,
    core/qcorotimer.cpp:13-34, network/qcoronetworkreply.cpp:40-81). The wrapper functions themselves are programs over this
    machine (QtWrap*.v). No proofs in this file.

    What is Qt (trusted, see DESIGN.md): emission of a signal runs direct connections at once and posts an event per queued
    connection; posted events are delivered in order by the event loop, also when the connection was cut meanwhile; they are
    discarded when their receiver is destroyed; connections vanish with their sender and their context object; QTimer fires
    not before its interval is over and only while started; a zero timer fires when control is back in the event loop.

    Simplifications: one thread; Task is transparent (co_await of a Task runs its body, see PropsTask.v); timers are exact
    (not coarse); timeouts are natural numbers, None for the negative ones. *)
From stdpp Require Import list.

Section qt.
(** [D]: state of the wrapped object as Qt reports it; [S]: its signals; [P]: signal arguments; [O]: what the user observes. *)
Context {D S P O : Type}.

(** Where a co_await waits for a signal: the wrapped object itself, or the helper's ready signal. [m s p]: the argument to
    deliver if signal [s] with [p] is (one of) the awaited. *)
Inductive src := FromDev (m : S -> P -> option P) | FromHelper.

(** How the awaiter's slot is connected.
    [MQueued]: Qt::QueuedConnection to a dummy receiver owned by the awaiter (qcorosignal.h:215-234,
      qcoronetworkreply.cpp:69-77);
    [MDirect]: called during the emission (qcorotimer.cpp:25-28);
    [MShot]: called during the emission, resumption by QTimer::singleShot(0) (qcoroiodevice.cpp:19-24, 34-41). *)
Inductive mode := MQueued | MDirect | MShot.

(** A helper object. [relay s p d]: its slot for signal [s], if connected: None: nothing happens, [Some (q, p', o)]: emits
    ready(p'), [o = Some d']: after calling into the wrapped object, which goes to state d'; [q]: via a queued connection.
    [keeps s s']: is the connection to [s'] still there after the slot of [s] emitted. [leaky s]: the connection to [s] has
    no context object, so it stays when the helper is destroyed. *)
Record helper := Helper {
  relay : S -> P -> D -> option (bool * P * option D); keeps : S -> S -> bool; leaky : S -> bool }.

(** Code of a coroutine that uses one wrapped object. *)
CoInductive wprog (A : Type) : Type :=
  | WRet (a : A)                                            (* co_return *)
  | WObs (o : O) (p : wprog A)                              (* user visible effect *)
  | WAlive (k : bool -> wprog A)                            (* test of a QPointer to the object *)
  | WGet (k : D -> wprog A)                                 (* const member functions of the object *)
  | WCall (f : D -> D * list (S * P)) (k : D -> wprog A)    (* other member functions: new state and signals emitted
                                                               during the call; [k] gets the state before the call *)
  | WHelper (h : helper) (p : wprog A)                      (* Helper helper(object, ..); *)
  | WDrop (p : wprog A)                                     (* the helper goes out of scope *)
  | WAwait (m : mode) (c : src) (to : option nat) (k : option P -> wprog A) (* co_await awaiter *)
  | WBad.                                                   (* undefined behaviour: dereference of an empty optional, use of a destroyed wrapper *)
Arguments WRet {A}. Arguments WObs {A}. Arguments WAlive {A}. Arguments WGet {A}. Arguments WCall {A}.
Arguments WHelper {A}. Arguments WDrop {A}. Arguments WAwait {A}. Arguments WBad {A}.

Context {A : Type}.

Inductive costat :=
  | CRun (p : wprog A)
  | CSusp (k : option P -> wprog A)
  | CBack (k : option P -> wprog A)    (* resumed, about to run await_resume() and the awaiter's destructor *)
  | CDone (a : A).

(** The awaiter object of the current co_await: [aid] its identity; [aconn]: is its slot connected to the signal (mConn);
    [atimer]: the deadline of its running QTimer; [actx]: does the connection of the timer to its slot exist;
    [ares]: mResult. *)
Record awaiter := Awaiter { aid : nat; asrc : src; amode : mode; aconn : bool; atimer : option nat; actx : bool; ares : option P }.

(** Posted events: queued call of the slot of awaiter [i]; queued call of the slot for [s] of helper [h], which emits p. *)
Inductive posted := PSlot (i : nat) (p : P) | PRelay (h : nat) (s : S) (p : P).

Inductive wub :=
  | WDead             (* null or dangling pointer to the destroyed object *)
  | WBadResume        (* resume() of a coroutine that is not suspended *)
  | WUndef            (* undefined behaviour of the code itself: dereference of an empty std::optional, .. *)
  | WStaleSlot        (* slot of a destroyed awaiter or helper runs *)
  | WNoHelper.        (* ill-formed program: no helper to await or to drop, or two at once *)

(** What happened (newest first in the trace). *)
Inductive tev :=
  | TDev (d : D)                              (* the object changed to state d *)
  | TEmit (s : S) (p : P)                     (* the object emitted a signal *)
  | TReady (p : P)                            (* the helper emitted ready(p) *)
  | TExpire                                   (* the awaiter's timer expired *)
  | TTick                                     (* a unit of time passed *)
  | TDestroy                                  (* the object was destroyed *)
  | TSusp (c : src) (to : option nat)         (* the coroutine suspended in a co_await *)
  | TResume (v : option P)                    (* it was resumed; co_await evaluates to v *)
  | TSkip (v : option P)                      (* a co_await did not suspend and evaluated to v *)
  | TObs (o : O)
  | TRet (a : A).

Record wstate := WState {
  wdev : D; walive : bool; wco : costat; waw : option awaiter; whelp : option (nat * helper * (S -> bool));
  wleak : list (S -> bool); wposted : list posted; wshots : nat; wtodo : list (S * P); wnow : nat; wnext : nat;
  wtrace : list tev; wubs : option wub }.

Definition set_co c s := WState (wdev s) (walive s) c (waw s) (whelp s) (wleak s) (wposted s) (wshots s) (wtodo s) (wnow s) (wnext s) (wtrace s) (wubs s).
Definition set_aw a s := WState (wdev s) (walive s) (wco s) a (whelp s) (wleak s) (wposted s) (wshots s) (wtodo s) (wnow s) (wnext s) (wtrace s) (wubs s).
Definition set_help h s := WState (wdev s) (walive s) (wco s) (waw s) h (wleak s) (wposted s) (wshots s) (wtodo s) (wnow s) (wnext s) (wtrace s) (wubs s).
Definition set_leak l s := WState (wdev s) (walive s) (wco s) (waw s) (whelp s) l (wposted s) (wshots s) (wtodo s) (wnow s) (wnext s) (wtrace s) (wubs s).
Definition set_posted l s := WState (wdev s) (walive s) (wco s) (waw s) (whelp s) (wleak s) l (wshots s) (wtodo s) (wnow s) (wnext s) (wtrace s) (wubs s).
Definition set_shots n s := WState (wdev s) (walive s) (wco s) (waw s) (whelp s) (wleak s) (wposted s) n (wtodo s) (wnow s) (wnext s) (wtrace s) (wubs s).
Definition set_todo l s := WState (wdev s) (walive s) (wco s) (waw s) (whelp s) (wleak s) (wposted s) (wshots s) l (wnow s) (wnext s) (wtrace s) (wubs s).
Definition set_dev d s := WState d (walive s) (wco s) (waw s) (whelp s) (wleak s) (wposted s) (wshots s) (wtodo s) (wnow s) (wnext s) (wtrace s) (wubs s).
Definition set_alive b s := WState (wdev s) b (wco s) (waw s) (whelp s) (wleak s) (wposted s) (wshots s) (wtodo s) (wnow s) (wnext s) (wtrace s) (wubs s).
Definition set_now n s := WState (wdev s) (walive s) (wco s) (waw s) (whelp s) (wleak s) (wposted s) (wshots s) (wtodo s) n (wnext s) (wtrace s) (wubs s).
Definition set_next n s := WState (wdev s) (walive s) (wco s) (waw s) (whelp s) (wleak s) (wposted s) (wshots s) (wtodo s) (wnow s) n (wtrace s) (wubs s).
Definition wlog e s := WState (wdev s) (walive s) (wco s) (waw s) (whelp s) (wleak s) (wposted s) (wshots s) (wtodo s) (wnow s) (wnext s) (e :: wtrace s) (wubs s).
Definition wfail u s := WState (wdev s) (walive s) (wco s) (waw s) (whelp s) (wleak s) (wposted s) (wshots s) (wtodo s) (wnow s) (wnext s) (wtrace s) (Some u).

(** std::coroutine_handle::resume() of the coroutine. *)
Definition resume (s : wstate) : wstate :=
  match wco s with CSusp k => set_co (CBack k) s | _ => wfail WBadResume s end.

Definition post (e : posted) (s : wstate) : wstate := set_posted (wposted s ++ [e]) s.

(** The awaited signal was emitted with argument [p]: the connection of awaiter [a].
    MQueued: QObject::connect(.., mDummyReceiver.get(), .., Qt::QueuedConnection), qcorosignal.h:217-233,
      qcoronetworkreply.cpp:71-73: an event is posted.
    MDirect: qcorotimer.cpp:25-28: disconnect(mConn), resume.
    MShot: OperationBase::finish, qcoroiodevice.cpp:19-24: disconnect both, singleShot(0, resume). *)
Definition trigger (a : awaiter) (p : P) (s : wstate) : wstate :=
  match amode a with
  | MQueued => post (PSlot (aid a) p) s
  | MDirect => resume (set_aw (Some (Awaiter (aid a) (asrc a) (amode a) false (atimer a) (actx a) (Some p))) s)
  | MShot => set_shots (Datatypes.S (wshots s)) (set_aw (Some (Awaiter (aid a) (asrc a) (amode a) false (atimer a) (actx a) (Some p))) s)
  end.

(** The helper emits ready([p]) from its slot for signal [from]: emitReady() of WaitSignalHelper (qcoroiodevice_p.h:42-51),
    SocketConnectedHelper (qcorolocalsocket.cpp:35-39), WebSocketStateWatcher (qcorowebsocket.cpp:51-55): first the
    connections are cut, then the signal is emitted. *)
Definition ready (from : S) (p : P) (s : wstate) : wstate :=
  match whelp s with
  | Some (i, h, live) =>
      let s1 := wlog (TReady p) (set_help (Some (i, h, λ x, live x && keeps h from x)) s) in
      match waw s1 with
      | Some a => match asrc a with FromHelper => if aconn a then trigger a p s1 else s1 | FromDev _ => s1 end
      | None => s1
      end
  | None => wfail WStaleSlot s
  end.

(** The slot of the helper for signal [sg]. *)
Definition helper_slot (sg : S) (p : P) (s : wstate) : wstate :=
  match whelp s with
  | Some (i, h, live) =>
      if live sg then
        match relay h sg p (wdev s) with
        | Some (false, p', None) => ready sg p' s
        | Some (false, p', Some d') => ready sg p' (wlog (TDev d') (set_dev d' s))
        | Some (true, p', _) => post (PRelay i sg p') s
        | None => s
        end
      else s
  | None => s
  end.

(** One emission by the wrapped object. *)
Definition emit (sg : S) (p : P) (s : wstate) : wstate :=
  let s1 := wlog (TEmit sg p) s in
  if existsb (λ f, f sg) (wleak s) then wfail WStaleSlot s1 else
  let s2 := helper_slot sg p s1 in
  match waw s2 with
  | Some a => match asrc a with
              | FromDev m => if aconn a then match m sg p with Some v => trigger a v s2 | None => s2 end else s2
              | FromHelper => s2
              end
  | None => s2
  end.

(** Destruction of the awaiter at the end of the full expression: ~QCoroSignalBase disconnects (qcorosignal.h:105-109), the
    dummy receiver's posted events go with it, and the timer. *)
Definition drop_awaiter (s : wstate) : wstate :=
  match waw s with
  | Some a => set_aw None (set_posted (List.filter (λ e, match e with PSlot i _ => negb (i =? aid a) | PRelay _ _ _ => true end) (wposted s)) s)
  | None => s
  end.

(** Destruction of the helper: its connections and posted events go, except connections without a context object. *)
Definition drop_helper (s : wstate) : wstate :=
  match whelp s with
  | Some (i, h, live) => set_leak ((λ x, live x && leaky h x) :: wleak s) (set_help None
      (set_posted (List.filter (λ e, match e with PRelay j _ _ => negb (j =? i) | PSlot _ _ => true end) (wposted s)) s))
  | None => wfail WNoHelper s
  end.

(** Only QCoroSignal has a timer (WaitOperationBase, the other class with one, is not used by any wrapper). *)
Definition deadline (m : mode) (now : nat) (to : option nat) : option nat :=
  match m with MQueued => option_map (Nat.add now) to | _ => None end.

(** co_await: await_ready() is true iff the object to listen to is gone (qcorosignal.h:200-202); otherwise await_suspend():
    start the timer with the connection of its timeout to the awaiting coroutine, whose context is the object listened to
    (:111-120), then connect the signal (:204-208). *)
Definition await (m : mode) (c : src) (to : option nat) (k : option P -> wprog A) (s : wstate) : wstate :=
  let go := wlog (TSusp c to) (set_co (CSusp k) (set_next (Datatypes.S (wnext s))
              (set_aw (Some (Awaiter (wnext s) c m true (deadline m (wnow s) to) true None)) s))) in
  match c with
  | FromDev _ => if walive s then go else wlog (TSkip None) (set_co (CRun (k None)) s)
  | FromHelper => match whelp s with Some _ => go | None => wfail WNoHelper s end
  end.

Inductive res := Next (s : wstate) | Idle.

(** Internal steps: run the coroutine; else the remaining emissions of the current call into Qt. *)
Definition step (s : wstate) : res :=
  match wubs s with Some _ => Idle | None =>
  match wco s with
  | CRun p =>
      Next match p with
      | WRet a => wlog (TRet a) (set_co (CDone a) s)
      | WObs o p => wlog (TObs o) (set_co (CRun p) s)
      | WAlive k => set_co (CRun (k (walive s))) s
      | WGet k => if walive s then set_co (CRun (k (wdev s))) s else wfail WDead s
      | WCall f k =>
          if walive s then
            let d := wdev s in
            foldl (λ s e, emit (fst e) (snd e) s) (wlog (TDev (fst (f d))) (set_dev (fst (f d)) (set_co (CRun (k d)) s))) (snd (f d))
          else wfail WDead s
      | WHelper h p => match whelp s with
                       | Some _ => wfail WNoHelper s
                       | None => if walive s then set_help (Some (wnext s, h, λ _, true)) (set_next (Datatypes.S (wnext s)) (set_co (CRun p) s))
                                 else wfail WDead s
                       end
      | WDrop p => drop_helper (set_co (CRun p) s)
      | WAwait m c to k => await m c to k s
      | WBad => wfail WUndef s
      end
  | CBack k =>
      (* await_resume(): std::move(mResult), qcorosignal.h:210-212 *)
      let v := match waw s with Some a => ares a | None => None end in
      Next (wlog (TResume v) (set_co (CRun (k v)) (drop_awaiter s)))
  | CSusp _ | CDone _ =>
      match wtodo s with
      | (sg, p) :: l => Next (emit sg p (set_todo l s))
      | [] => Idle
      end
  end end.

(** Events from outside. [EvDev d ems]: the object goes to state [d] and emits [ems]. *)
Inductive wev := EvDev (d : D) (ems : list (S * P)) | EvDestroy | EvPosted | EvShot | EvTimer | EvTick.

(** One event of the event loop, when no code of the coroutine is running. *)
Definition env_step (e : wev) (s : wstate) : res :=
  match e with
  | EvDev d ems => if walive s then Next (set_todo ems (wlog (TDev d) (set_dev d s))) else Idle
  | EvDestroy =>
      (* all connections from the object vanish; so do those of which it is the context (qcorosignal.h:113: mObj) *)
      if walive s then
        Next (wlog TDestroy (set_alive false (set_leak [] (set_help (match whelp s with Some (i, h, _) => Some (i, h, λ _, false) | None => None end)
          (set_aw (match waw s with
                   | Some a => match asrc a with
                               | FromDev _ => Some (Awaiter (aid a) (asrc a) (amode a) false (atimer a) false (ares a))
                               | FromHelper => Some a
                               end
                   | None => None end) s)))))
      else Idle
  | EvPosted =>
      match wposted s with
      | PSlot i p :: l =>
          (* the slot lambda, qcorosignal.h:219-232: stop the timer, disconnect, store the result, resume *)
          let s1 := set_posted l s in
          match waw s1 with
          | Some a => if decide (aid a = i)
                      then Next (resume (set_aw (Some (Awaiter (aid a) (asrc a) (amode a) false None (actx a) (Some p))) s1))
                      else Next (wfail WStaleSlot s1)
          | None => Next (wfail WStaleSlot s1)
          end
      | PRelay i sg p :: l =>
          let s1 := set_posted l s in
          match whelp s1 with
          | Some (j, h, live) => if decide (i = j) then Next (ready sg p s1) else Next (wfail WStaleSlot s1)
          | None => Next (wfail WStaleSlot s1)
          end
      | [] => Idle
      end
  | EvShot => match wshots s with Datatypes.S n => Next (resume (set_shots n s)) | 0 => Idle end
  | EvTimer =>
      match waw s with
      | Some a => match atimer a with
                  | Some n => if decide (n ≤ wnow s) then
                      (* single shot timer expires; its slot, qcorosignal.h:114-117: disconnect(mConn), resume *)
                      let s1 := wlog TExpire (set_aw (Some (Awaiter (aid a) (asrc a) (amode a) (aconn a && negb (actx a)) None (actx a) (ares a))) s) in
                      Next (if actx a then resume s1 else s1)
                    else Idle
                  | None => Idle
                  end
      | None => Idle
      end
  | EvTick => Next (wlog TTick (set_now (Datatypes.S (wnow s)) s))
  end.

(** Executions. [denv d ems d']: what the class of the wrapped object can do on its own. *)
Inductive exec (denv : D -> list (S * P) -> D -> Prop) : wstate -> wstate -> Prop :=
  | exec_refl s : exec denv s s
  | exec_step s0 s s' : exec denv s0 s -> step s = Next s' -> exec denv s0 s'
  | exec_env s0 s e s' : exec denv s0 s -> step s = Idle -> wubs s = None -> env_step e s = Next s' ->
      match e with EvDev d ems => denv (wdev s) ems d | _ => True end -> exec denv s0 s'.

(** The application calls the coroutine [p] while the object [alive] (or is null) is in state [d]. *)
Definition winit (d : D) (alive : bool) (p : wprog A) : wstate :=
  WState d alive (CRun p) None None [] [] 0 [] 0 0 [] None.
End qt.
Arguments WRet {D S P O A}.
Arguments WObs {D S P O A}.
Arguments WAlive {D S P O A}.
Arguments WGet {D S P O A}.
Arguments WCall {D S P O A}.
Arguments WHelper {D S P O A}.
Arguments WDrop {D S P O A}.
Arguments WAwait {D S P O A}.
Arguments WBad {D S P O A}.
