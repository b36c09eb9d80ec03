(** * Executable small-step model of QCoro's Task core.

    Models, in /repo/qcoro:
    - qcorotask.h (classes TaskFinalSuspend, TaskPromiseBase, TaskPromise, TaskAwaiterBase, TaskBase, Task),
    - impl/taskpromisebase.h, impl/taskpromise.h, impl/taskfinalsuspend.h, impl/taskawaiterbase.h,
      impl/taskbase.h, qcorolazytask.h, impl/lazytask.h, impl/waitfor.h, impl/connect.h.

    No proofs in this file. *)
From stdpp Require Import gmap list.

(** Coroutine frame handle, Task object address, wait context address, QObject address. *)
Notation fid := nat (only parsing).
Notation tid := nat (only parsing).
Notation cid := nat (only parsing).
Notation qid := nat (only parsing).

(** Who executes a piece of code: a coroutine, or a plain (non-coroutine) function such as
    main() or a slot invoked by the event loop. *)
Inductive actor := Co (f : fid) | Plain (n : nat).

Global Instance actor_eq_dec : EqDecision actor.
Proof. solve_decision. Defined.

(** Exceptions: derived from std::exception (caught by [then()], taskbase.h:143,155) or not. *)
Inductive exn := StdExn (n : nat) | OtherExn (n : nat).

Global Instance exn_eq_dec : EqDecision exn.
Proof. solve_decision. Defined.

(** Task (qcorotask.h:423-) or LazyTask (qcorolazytask.h:39-51). *)
Inductive kind := KTask | KLazy.

Global Instance kind_eq_dec : EqDecision kind.
Proof. solve_decision. Defined.

(** Reasons for undefined behaviour / termination. *)
Inductive ub :=
  | UDeadTask        (* user code touches a Task object that was already destroyed *)
  | UNotCoroutine    (* co_await in a plain function: rejected by the compiler *)
  | UUncaught        (* exception leaves a plain event handler: std::terminate *)
  | ULazyNull        (* symmetric transfer to a null handle, lazytask.h:50 *)
  | ULazyReawait     (* symmetric transfer to a coroutine that is not at its initial suspend, lazytask.h:50 *)
  | UEmptyOptional   (* *result on an empty optional, waitfor.h:86 *)
  | UDanglingCtx     (* runCoroutine writes to a WaitContext that went out of scope, waitfor.h:49-52 *)
  | UFreedFrame      (* access to a destroyed coroutine frame *)
  | UBadResume       (* resume() of a coroutine that is not suspended in the matching co_await *)
  | UNoResult        (* result() read before the coroutine finished *)
  | URefUnderflow    (* refcount decremented below zero *)
  | UDestroyRunning. (* destroy() of a coroutine which has not reached its final suspend point *)

Section model.
(** [V]: type of co_returned values; [mv]: what is left in an object after moving from it;
    [dflt]: value-initialised result [U{}] (taskbase.h:129), also used as the unit of [void]. *)
Context {V : Type} (mv : V -> V) (dflt : V).

(** Result of a coroutine: variant<T, exception_ptr> of TaskPromise (qcorotask.h: mValue;
    the monostate alternative is [None] in the frame's [fresult]). *)
Inductive outcome := Val (v : V) | Exc (e : exn).

(** Observable effects of user code. [OThen]/[OErr]/[OConn] mark the invocation of callbacks passed
    to then()/connect(); [OUser] is any other effect. *)
Inductive obs :=
  | OUser (n : nat)
  | OThen (v : V)
  | OErr (e : exn)
  | OConn (q : qid) (v : V).

(** Bodies of coroutines and plain functions, as interaction trees: everything user code can do with
    the Task API. Coinductive, so bodies may loop forever. Task variables are addresses [tid]. *)
CoInductive prog (A : Type) : Type :=
  | PRet (a : A)                                     (* co_return a / return a *)
  | PThrow (e : exn)                                 (* an exception leaves the body *)
  | PObs (o : obs) (p : prog A)                      (* any visible effect *)
  | PCall (k : kind) (ps : list tid) (body : list tid -> prog V) (c : tid -> prog A)
      (* call a coroutine; the Task objects ps are moved into by-value parameters *)
  | PAwait (x : tid) (c : outcome -> prog A)         (* co_await x *)
  | PLeaf (c : outcome -> prog A)                    (* co_await of anything completed by the event loop *)
  | PNull (k : kind) (c : tid -> prog A)             (* Task<> t; *)
  | PMove (x : tid) (c : tid -> prog A)              (* Task t(std::move(x)) *)
  | PAssign (x y : tid) (p : prog A)                 (* x = std::move(y) *)
  | PDrop (x : tid) (p : prog A)                     (* x goes out of scope *)
  | PReady (x : tid) (c : bool -> prog A)            (* x.isReady() *)
  | PWaitFor (void : bool) (x : tid) (c : outcome -> prog A) (* QCoro::waitFor(x); void: is T = void? *)
  | PAlive (q : qid) (c : bool -> prog A)            (* QPointer check *)
  | PKill (q : qid) (p : prog A).                    (* delete q *)

Arguments PRet {A}. Arguments PThrow {A}. Arguments PObs {A}. Arguments PCall {A}.
Arguments PAwait {A}. Arguments PLeaf {A}. Arguments PNull {A}. Arguments PMove {A}.
Arguments PAssign {A}. Arguments PDrop {A}. Arguments PReady {A}. Arguments PWaitFor {A}.
Arguments PAlive {A}. Arguments PKill {A}.

(** Sequencing of a function call inside a body: run [p], continue with its value; exceptions propagate. *)
CoFixpoint pbind {A B} (p : prog A) (k : A -> prog B) : prog B :=
  match p with
  | PRet a => k a
  | PThrow e => PThrow e
  | PObs o p => PObs o (pbind p k)
  | PCall kd ps b c => PCall kd ps b (fun t => pbind (c t) k)
  | PAwait x c => PAwait x (fun o => pbind (c o) k)
  | PLeaf c => PLeaf (fun o => pbind (c o) k)
  | PNull kd c => PNull kd (fun t => pbind (c t) k)
  | PMove x c => PMove x (fun t => pbind (c t) k)
  | PAssign x y p => PAssign x y (pbind p k)
  | PDrop x p => PDrop x (pbind p k)
  | PReady x c => PReady x (fun b => pbind (c b) k)
  | PWaitFor vd x c => PWaitFor vd x (fun o => pbind (c o) k)
  | PAlive q c => PAlive q (fun b => pbind (c b) k)
  | PKill q p => PKill q (pbind p k)
  end.

Definition ret_outcome (o : outcome) : prog V :=
  match o with Val v => PRet v | Exc e => PThrow e end.

(** Code of a coroutine at a point of its execution: user code, or the library coroutine
    [runCoroutine] of waitfor.h:44-64, which has two parts: [CWaitStart c x h] is its [co_await awaitable]
    (waitfor.h:47,58; h records the coroutine to which x refers, for the trace only); [CWaitSet c o] is what follows the await: store value/exception in the context,
    coroutineFinished = true, loop.quit() (waitfor.h:48-52, 58-63). *)
Inductive code :=
  | CUser (p : prog V)
  | CWaitStart (c : cid) (x : tid) (h : option fid)
  | CWaitSet (c : cid) (o : outcome).

(** Continuation of a suspended co_await. *)
Inductive kont :=
  | KUser (c : outcome -> prog V)
  | KWait (c : cid).

Definition kapply (k : kont) (o : outcome) : code :=
  match k with KUser c => CUser (c o) | KWait c => CWaitSet c o end.

(** Suspension state of a coroutine frame (the compiler's resume index). *)
Inductive status :=
  | Initial (p : prog V)               (* LazyTask at initial_suspend (suspend_always), lazytask.h:24-26 *)
  | Running                            (* has an activation on the call stack *)
  | AwaitTask (h : fid) (k : kont)     (* suspended in co_await of the coroutine h *)
  | AwaitNull                          (* suspended in co_await of an empty Task *)
  | AwaitLeaf (c : outcome -> prog V)  (* suspended in co_await of an event-loop awaitable *)
  | Final.                             (* final suspend point: handle.done() *)

(** Coroutine frame with its promise: mRefCount, mAwaitingCoroutines (qcorotask.h TaskPromiseBase),
    mValue/mException ([fresult]), by-value Task parameters ([fparams]). *)
Record frame := Frame {
  fkind : kind;
  fstatus : status;
  fawaiters : list fid;
  frc : nat;
  fresult : option outcome;
  fparams : list tid;
}.

(** A live Task/LazyTask object: its class and mCoroutine. *)
Record tobj := Obj { okind : kind; ohandle : option fid }.

(** C++ call stack. *)
Inductive item :=
  | Run (w : actor) (c : code)          (* an activation executing code *)
  | FinalSusp (h : fid) (l : list fid)  (* TaskFinalSuspend::await_suspend of h, awaiters still to resume *)
  | Drops (l : list tid)                (* destructors of by-value parameters / temporaries *)
  | Assign (x y : tid)                  (* second half of TaskBase::operator= *)
  | WaitLoop (w : actor) (void : bool) (x : tid) (c : cid) (entered : bool) (k : outcome -> prog V).
                                        (* waitFor() after runCoroutine() returned, waitfor.h:71-76, 80-86 *)

(** Book-keeping of what a caller did, for the trace. *)
Inductive act :=
  | ACall (t : tid) (f : fid) (ps : list tid)  (* new Task t, coroutine f, its by-value parameter objects ps *)
  | ANull (t : tid)
  | AMove (t : tid)
  | AAssign
  | ADrop (x : tid)
  | AReady (b : bool)
  | AAlive (q : qid) (b : bool)
  | AKill.

(** Observable trace. *)
Inductive event :=
  | ECreate (f : fid) (k : kind) (b : code) (w : actor)  (* coroutine f with body b called by w *)
  | EStart (f : fid)                                     (* its body starts *)
  | EFinish (f : fid) (o : outcome)                      (* its body ended with o *)
  | EDestroy (f : fid)                                   (* its frame is destroyed *)
  | EWait (f h : fid)                                    (* f suspends in co_await of coroutine h *)
  | EWake (f h : fid) (o : outcome)                      (* f is resumed and obtains o from h *)
  | ENow (f h : fid) (o : outcome)                       (* f awaits finished h: obtains o without suspension *)
  | EHang (f : fid)                                      (* f awaits an empty Task: warning, suspended *)
  | ELeafWait (f : fid)
  | ELeafWake (f : fid) (o : outcome)
  | EObs (w : actor) (o : obs)
  | EAct (w : actor) (a : act)
  | EKill (q : qid)                                      (* the QObject q is destroyed *)
  | EWaitCall (w : actor) (c : cid) (f : fid) (h : option fid)
      (* w enters waitFor() on a Task referring to coroutine h; the runCoroutine frame is f *)
  | ELoop (c : cid)                                      (* waitFor() enters its nested QEventLoop *)
  | EWaitRet (w : actor) (c : cid) (o : outcome).        (* waitFor() returns/throws o *)

(** Machine state. [ctxs]: live WaitContexts: [None] = not finished. [trace]: newest first.
    [nf,nt,nc]: allocation counters (addresses are never reused in the model). *)
Record state := State {
  heap : gmap fid frame;
  objs : gmap tid tobj;
  alive : gset qid;
  ctxs : gmap cid (option outcome);
  stack : list item;
  trace : list event;
  nf : nat;
  nt : nat;
  nc : nat;
}.

Definition init (qs : gset qid) : state := State ∅ ∅ qs ∅ [] [] 0 0 0.

Inductive res := Next (s : state) | UB (r : ub) | Idle.

(** Field updates. *)
Definition set_heap h s := State h (objs s) (alive s) (ctxs s) (stack s) (trace s) (nf s) (nt s) (nc s).
Definition set_objs o s := State (heap s) o (alive s) (ctxs s) (stack s) (trace s) (nf s) (nt s) (nc s).
Definition set_alive a s := State (heap s) (objs s) a (ctxs s) (stack s) (trace s) (nf s) (nt s) (nc s).
Definition set_ctxs c s := State (heap s) (objs s) (alive s) c (stack s) (trace s) (nf s) (nt s) (nc s).
Definition set_stack st s := State (heap s) (objs s) (alive s) (ctxs s) st (trace s) (nf s) (nt s) (nc s).
Definition emit e s := State (heap s) (objs s) (alive s) (ctxs s) (stack s) (e :: trace s) (nf s) (nt s) (nc s).
Definition push i s := set_stack (i :: stack s) s.

Definition fr_status st fr := Frame (fkind fr) st (fawaiters fr) (frc fr) (fresult fr) (fparams fr).
Definition fr_awaiters l fr := Frame (fkind fr) (fstatus fr) l (frc fr) (fresult fr) (fparams fr).
Definition fr_rc n fr := Frame (fkind fr) (fstatus fr) (fawaiters fr) n (fresult fr) (fparams fr).
Definition fr_result r fr := Frame (fkind fr) (fstatus fr) (fawaiters fr) (frc fr) r (fparams fr).

Definition upd (f : fid) (g : frame -> frame) (s : state) : state := set_heap (alter g f (heap s)) s.

(** coroutine_handle::done() *)
Definition is_final (fr : frame) : bool := match fstatus fr with Final => true | _ => false end.

(** What remains in the promise after [std::move(promise.result())] (taskbase.h:69): a moved-from value.
    Exceptions are rethrown from the stored exception_ptr, which stays (taskpromise.h:52-55, 81-83). *)
Definition consumed (o : outcome) : outcome := match o with Val v => Val (mv v) | Exc e => Exc e end.

(** TaskPromiseBase::derefCoroutine (taskpromisebase.h:53-57) and destroyCoroutine (63-67). Destroying the
    frame destroys its by-value parameters (pushed as [Drops]). *)
Definition deref (h : fid) (s : state) : res :=
  match heap s !! h with
  | None => UB UFreedFrame
  | Some fr =>
    match frc fr with
    | 0 => UB URefUnderflow
    | S 0 => if is_final fr
             then Next (push (Drops (fparams fr)) (emit (EDestroy h) (set_heap (delete h (heap s)) s)))
             else UB UDestroyRunning
    | S n => Next (upd h (fr_rc n) s)
    end
  end.

(** ~TaskBase (taskbase.h:43-47). The debug-only warning of ~LazyTask (lazytask.h:31-37) is not modelled. *)
Definition drop_obj (x : tid) (s : state) : res :=
  match objs s !! x with
  | None => UB UDeadTask
  | Some ob =>
    let s1 := set_objs (delete x (objs s)) s in
    match ohandle ob with
    | None => Next s1
    | Some h => deref h s1
    end
  end.

(** Move construction (taskbase.h:24-26) of a fresh object from each of [ps]; used for by-value
    parameters. Returns the addresses of the new objects. *)
Fixpoint move_all (ps : list tid) (m : gmap tid tobj) (n : nat) : option (gmap tid tobj * list tid) :=
  match ps with
  | [] => Some (m, [])
  | x :: ps =>
    match m !! x with
    | None => None
    | Some ob =>
      match move_all ps (<[n := ob]> (<[x := Obj (okind ob) None]> m)) (S n) with
      | None => None
      | Some (m', l) => Some (m', n :: l)
      end
    end
  end.

(** Creation of a coroutine frame: promise constructor sets mRefCount = 1 (taskpromisebase.h:17-20),
    get_return_object() constructs Task(handle) (taskpromise.h:19-21, 70-72, lazytask.h:19-21), whose
    constructor calls refCoroutine() (taskbase.h:19-21): refcount 2. Task: initial_suspend = suspend_never
    (taskpromisebase.h:22-24), the body starts at once on top of the caller's activation.
    LazyTask: suspend_always (lazytask.h:24-26). *)
Definition new_frame (k : kind) (st : status) (ps : list tid) : frame := Frame k st [] 2 None ps.

(** Delivery of the result of finished [h] to [f]: TaskAwaiter::await_resume (taskbase.h:66-74,
    lazytask.h:53-61). Returns the outcome and the updated state. *)
Definition take_result (h : fid) (s : state) : option outcome * state :=
  match heap s !! h with
  | None => (None, s)
  | Some fr =>
    match fresult fr with
    | None => (None, s)
    | Some o => (Some o, upd h (fr_result (Some (consumed o))) s)
    end
  end.

(** co_await x by coroutine f, with continuation k. [s] has the rest of the stack (f's activation removed).
    TaskAwaiterBase::await_ready/await_suspend (taskawaiterbase.h:18-30), LazyTask's await_suspend
    (lazytask.h:47-51): symmetric transfer to the awaited lazy coroutine. *)
Definition do_await (f : fid) (x : tid) (k : kont) (s : state) : res :=
  match objs s !! x with
  | None => UB UDeadTask
  | Some ob =>
    match ohandle ob with
    | None =>
      match okind ob with
      | KTask => Next (emit (EHang f) (upd f (fr_status AwaitNull) s))
      | KLazy => UB ULazyNull
      end
    | Some h =>
      match heap s !! h with
      | None => UB UFreedFrame
      | Some fr =>
        if is_final fr then
          match take_result h s with
          | (None, _) => UB UNoResult
          | (Some o, s1) => Next (push (Run (Co f) (kapply k o)) (emit (ENow f h o) s1))
          end
        else
          let s1 := upd h (fun fr => fr_awaiters (fawaiters fr ++ [f]) fr) s in
          let s2 := emit (EWait f h) (upd f (fr_status (AwaitTask h k)) s1) in
          match okind ob with
          | KTask => Next s2
          | KLazy =>
            match fstatus fr with
            | Initial p => Next (push (Run (Co h) (CUser p)) (emit (EStart h) (upd h (fr_status Running) s2)))
            | _ => UB ULazyReawait
            end
          end
      end
    end
  end.

(** The body of coroutine f ended: return_value/return_void/unhandled_exception store the outcome
    (taskpromise.h:24-48, 74-78), then final_suspend() (taskpromisebase.h:26-28) makes a TaskFinalSuspend
    with a copy of the awaiters, whose await_suspend runs next. *)
Definition finish (f : fid) (o : outcome) (s : state) : res :=
  match heap s !! f with
  | None => UB UFreedFrame
  | Some fr =>
    Next (push (FinalSusp f (fawaiters fr))
           (emit (EFinish f o) (upd f (fun fr => fr_result (Some o) (fr_status Final fr)) s)))
  end.

(** One step of user code of actor [w]; [s] has w's activation already removed from the stack. *)
Definition step_user (w : actor) (p : prog V) (s : state) : res :=
  let go p' s' := Next (push (Run w (CUser p')) s') in
  match p with
  | PRet v => match w with Co f => finish f (Val v) s | Plain _ => Next s end
  | PThrow e => match w with Co f => finish f (Exc e) s | Plain _ => UB UUncaught end
  | PObs o p' => go p' (emit (EObs w o) s)
  | PCall k ps body c =>
    match move_all ps (objs s) (S (nt s)) with
    | None => UB UDeadTask
    | Some (m, ps') =>
      let t := nt s in
      let f := nf s in
      let st := match k with KTask => Running | KLazy => Initial (body ps') end in
      let s1 := State (<[f := new_frame k st ps']> (heap s)) (<[t := Obj k (Some f)]> m) (alive s) (ctxs s)
                  (Run w (CUser (c t)) :: stack s)
                  (ECreate f k (CUser (body ps')) w :: EAct w (ACall t f ps') :: trace s)
                  (S f) (S t + length ps) (nc s) in
      match k with
      | KTask => Next (push (Run (Co f) (CUser (body ps'))) (emit (EStart f) s1))
      | KLazy => Next s1
      end
    end
  | PAwait x c => match w with Co f => do_await f x (KUser c) s | Plain _ => UB UNotCoroutine end
  | PLeaf c =>
    match w with
    | Co f => Next (emit (ELeafWait f) (upd f (fr_status (AwaitLeaf c)) s))
    | Plain _ => UB UNotCoroutine
    end
  | PNull k c =>
    let t := nt s in
    go (c t) (emit (EAct w (ANull t))
      (State (heap s) (<[t := Obj k None]> (objs s)) (alive s) (ctxs s) (stack s) (trace s) (nf s) (S t) (nc s)))
  | PMove x c =>
    (* TaskBase(TaskBase &&), taskbase.h:24-26 *)
    match objs s !! x with
    | None => UB UDeadTask
    | Some ob =>
      let t := nt s in
      go (c t) (emit (EAct w (AMove t))
        (State (heap s) (<[t := ob]> (<[x := Obj (okind ob) None]> (objs s))) (alive s) (ctxs s) (stack s)
               (trace s) (nf s) (S t) (nc s)))
    end
  | PAssign x y p' =>
    (* TaskBase::operator=(TaskBase &&), taskbase.h:30-40: self check; deref of the old coroutine first
       (its parameters may be destroyed meanwhile), then take over [Assign]. *)
    match objs s !! x, objs s !! y with
    | Some ox, Some oy =>
      let s0 := push (Run w (CUser p')) (emit (EAct w AAssign) s) in
      if decide (x = y) then Next s0
      else
        let s1 := set_objs (<[x := Obj (okind ox) None]> (objs s0)) (push (Assign x y) s0) in
        match ohandle ox with
        | None => Next s1
        | Some h => deref h s1
        end
    | _, _ => UB UDeadTask
    end
  | PDrop x p' => drop_obj x (push (Run w (CUser p')) (emit (EAct w (ADrop x)) s))
  | PReady x c =>
    (* TaskBase::isReady, taskbase.h:50-52 *)
    match objs s !! x with
    | None => UB UDeadTask
    | Some ob =>
      match ohandle ob with
      | None => go (c true) (emit (EAct w (AReady true)) s)
      | Some h =>
        match heap s !! h with
        | None => UB UFreedFrame
        | Some fr => go (c (is_final fr)) (emit (EAct w (AReady (is_final fr))) s)
        end
      end
    end
  | PWaitFor vd x c =>
    (* waitFor (waitfor.h:66-88): WaitContext on the C++ stack; runCoroutine is called (an eager Task
       coroutine without by-value parameters), its Task temporary is destroyed at the end of the
       full expression (waitfor.h:70,79), then the loop part. The first thing runCoroutine does is
       co_await (waitfor.h:47,58). *)
    let t := nt s in
    let f := nf s in
    let i := nc s in
    match objs s !! x with
    | None => UB UDeadTask
    | Some ob =>
      let h := ohandle ob in
      do_await f x (KWait i)
      (State (<[f := new_frame KTask Running []]> (heap s)) (<[t := Obj KTask (Some f)]> (objs s)) (alive s)
            (<[i := None]> (ctxs s))
            (Drops [t] :: WaitLoop w vd x i false c :: stack s)
            (EStart f :: ECreate f KTask (CWaitStart i x h) w :: EWaitCall w i f h :: trace s)
            (S f) (S t) (S i))
    end
  | PAlive q c =>
    let b := bool_decide (q ∈ alive s) in
    go (c b) (emit (EAct w (AAlive q b)) s)
  | PKill q p' => go p' (emit (EKill q) (emit (EAct w AKill) (set_alive (alive s ∖ {[q]}) s)))
  end.

(** Code of an activation. [CWaitSet]: runCoroutine after its co_await (waitfor.h:48-53, 58-64). *)
Definition step_code (w : actor) (c : code) (s : state) : res :=
  match c with
  | CUser p => step_user w p s
  | CWaitStart i x _ => match w with Co f => do_await f x (KWait i) s | Plain _ => UB UNotCoroutine end
  | CWaitSet i o =>
    match w with
    | Plain _ => UB UNotCoroutine
    | Co f =>
      match ctxs s !! i with
      | None => UB UDanglingCtx
      | Some _ => finish f (Val dflt) (set_ctxs (<[i := Some o]> (ctxs s)) s)
      end
    end
  end.

(** One step of the machine: execute the top of the call stack. *)
Definition step (s : state) : res :=
  match stack s with
  | [] => Idle
  | Run w c :: st => step_code w c (set_stack st s)
  | FinalSusp h [] :: st =>
    (* promise.derefCoroutine(), taskfinalsuspend.h:33 *)
    deref h (set_stack st s)
  | FinalSusp h (a :: l) :: st =>
    (* for (auto &awaiter : mAwaitingCoroutines) awaiter.resume(); taskfinalsuspend.h:27-29.
       The resumed coroutine runs await_resume() of its own awaiter object. *)
    match heap s !! a with
    | None => UB UFreedFrame
    | Some fr =>
      match fstatus fr with
      | AwaitTask h' k =>
        let s0 := upd a (fr_status Running) (set_stack (FinalSusp h l :: st) s) in
        match heap s !! h' with
        | None => UB UFreedFrame
        | Some _ =>
          match take_result h' s0 with
          | (None, _) => UB UNoResult
          | (Some o, s1) => Next (push (Run (Co a) (kapply k o)) (emit (EWake a h' o) s1))
          end
        end
      | _ => UB UBadResume
      end
    end
  | Drops [] :: st => Next (set_stack st s)
  | Drops (x :: l) :: st => drop_obj x (set_stack (Drops l :: st) s)
  | Assign x y :: st =>
    (* mCoroutine = other.mCoroutine; other.mCoroutine = nullptr; taskbase.h:36-37 *)
    match objs s !! x, objs s !! y with
    | Some _, Some oy =>
      Next (set_stack st (set_objs (<[x := oy]> (<[y := Obj (okind oy) None]> (objs s))) s))
    | _, _ => UB UDeadTask
    end
  | WaitLoop w vd x i entered c :: st =>
    (* if (!context.coroutineFinished) loop.exec(); rethrow or return; waitfor.h:71-76, 80-86 *)
    match ctxs s !! i with
    | None => UB UDanglingCtx
    | Some (Some o) =>
      Next (push (Run w (CUser (c o))) (emit (EWaitRet w i o) (set_ctxs (delete i (ctxs s)) (set_stack st s))))
    | Some None =>
      if entered then Idle
      else Next (emit (ELoop i) (set_stack (WaitLoop w vd x i true c :: st) s))
    end
  end.

(** What the environment (event loop, other code) can do when the machine is idle, i.e. in the outermost
    event loop or inside the nested loop of a waitFor(). *)
Inductive envev :=
  | EvHandler (p : prog V)            (* a plain function is invoked by the event loop *)
  | EvFire (f : fid) (o : outcome)    (* the awaitable on which f waits completes with o *)
  | EvKill (q : qid)                  (* a QObject is destroyed *)
  | EvQuit.                           (* the innermost nested loop is quit from outside *)

Definition is_idle (s : state) : bool := match step s with Idle => true | _ => false end.

Definition env_step (e : envev) (s : state) : res :=
  if is_idle s then
    match e with
    | EvHandler p =>
      Next (State (heap s) (objs s) (alive s) (ctxs s) (Run (Plain (nf s)) (CUser p) :: stack s) (trace s)
              (S (nf s)) (nt s) (nc s))
    | EvFire f o =>
      match heap s !! f with
      | Some fr =>
        match fstatus fr with
        | AwaitLeaf c => Next (push (Run (Co f) (CUser (c o))) (emit (ELeafWake f o) (upd f (fr_status Running) s)))
        | _ => Next s
        end
      | None => Next s
      end
    | EvKill q => Next (emit (EKill q) (set_alive (alive s ∖ {[q]}) s))
    | EvQuit =>
      match stack s with
      | WaitLoop w vd x i entered c :: st =>
        (* exec() returns although coroutineFinished is false; waitfor.h:75-76 / 83-86 *)
        if vd then
          Next (push (Run w (CUser (c (Val dflt)))) (emit (EWaitRet w i (Val dflt))
                 (set_ctxs (delete i (ctxs s)) (set_stack st s))))
        else UB UEmptyOptional
      | _ => Next s
      end
    end
  else Idle.

(** Executions: internal steps and environment events in any order. [quits] records whether the
    environment ever quit a nested loop. *)
Inductive exec (quits : bool) : state -> state -> Prop :=
  | exec_refl s : exec quits s s
  | exec_step s s1 s2 : exec quits s s1 -> step s1 = Next s2 -> exec quits s s2
  | exec_env s s1 s2 e :
      exec quits s s1 -> (e = EvQuit -> quits = true) -> env_step e s1 = Next s2 -> exec quits s s2.

(** Reachable from a fresh program whose live QObjects are [qs]. *)
Definition reach (quits : bool) (s : state) : Prop := exists qs, exec quits (init qs) s.

(** Undefined behaviour reachable from [s] in the next step. *)
Definition ub_next (quits : bool) (s : state) (r : ub) : Prop :=
  step s = UB r \/ exists e, (e = EvQuit -> quits = true) /\ env_step e s = UB r.

(** ** Library coroutines built from the primitives *)

(** Body of thenImpl/thenImplRef (taskbase.h:133-197). [err = None]: the one-argument overloads, whose error
    handler is [[](const auto &) { throw; }] (taskbase.h:85,95). handleException: taskbase.h:126-131. *)
Definition then_body (x : tid) (cb : V -> prog V) (err : option (exn -> prog unit)) : prog V :=
  PAwait x (fun o =>
    match o with
    | Val v => PObs (OThen v) (cb v)
    | Exc (StdExn n) =>
      match err with
      | None => PThrow (StdExn n)
      | Some h => PObs (OErr (StdExn n)) (pbind (h (StdExn n)) (fun _ => PRet dflt))
      end
    | Exc (OtherExn n) => PThrow (OtherExn n)
    end).

(** Callback that itself returns a task: [co_return co_await invokeCb(...)] (taskbase.h:147,159,180,192); the
    temporary task is destroyed at the end of the full expression. *)
Definition task_cb (cb : V -> prog tid) (v : V) : prog V :=
  pbind (cb v) (fun t => PAwait t (fun o => PDrop t (ret_outcome o))).

(** then() & (taskbase.h:83-86, 102-104): the coroutine refers to the task by reference. *)
Definition then_ref {A} (k : kind) (x : tid) cb err (c : tid -> prog A) : prog A :=
  PCall k [] (fun _ => then_body x cb err) c.

(** then() && (taskbase.h:91-96, 110-112): the task is moved into a by-value parameter. *)
Definition then_move {A} (k : kind) (x : tid) cb err (c : tid -> prog A) : prog A :=
  PCall k [x] (fun ps => then_body (hd 0 ps) cb err) c.

(** QCoro::connect (connect.h:20-50): a one-argument then() on the (lvalue) task whose lambda checks the
    QPointer; the resulting Task is dropped. *)
Definition connect_cb (q : qid) (cb : V -> prog V) (v : V) : prog V :=
  PAlive q (fun b => if b then PObs (OConn q v) (cb v) else PRet dflt).

Definition connect_body (x : tid) (q : qid) (cb : V -> prog V) : prog V :=
  then_body x (connect_cb q cb) None.

Definition connect {A} (x : tid) (q : qid) (cb : V -> prog V) (c : prog A) : prog A :=
  then_ref KTask x (connect_cb q cb) None (fun t => PDrop t c).

(** toTask (waitfor.h:23-27) on an event-loop awaitable: [co_return co_await future]. [now]: the outcome, if the future is
    ready already (no suspension). The awaiter is made from the reference parameter before the first suspension. *)
Definition to_task_body (now : option outcome) : prog V :=
  match now with Some o => ret_outcome o | None => PLeaf ret_outcome end.

(** QCoro::connect on a future (connect.h:52-59): [auto task = toTask(std::move(future)); connect(std::move(task), ...)];
    [task] is destroyed at the end. *)
Definition connect_future {A} (now : option outcome) (q : qid) (cb : V -> prog V) (c : prog A) : prog A :=
  PCall KTask [] (fun _ => to_task_body now) (fun t => connect t q cb (PDrop t c)).

End model.

Arguments outcome : clear implicits.
Arguments obs : clear implicits.
Arguments prog : clear implicits.
Arguments code : clear implicits.
Arguments kont : clear implicits.
Arguments status : clear implicits.
Arguments frame : clear implicits.
Arguments item : clear implicits.
Arguments event : clear implicits.
Arguments state : clear implicits.
Arguments res : clear implicits.
Arguments envev : clear implicits.
Arguments PRet {V A}. Arguments PThrow {V A}. Arguments PObs {V A}. Arguments PCall {V A}.
Arguments PAwait {V A}. Arguments PLeaf {V A}. Arguments PNull {V A}. Arguments PMove {V A}.
Arguments PAssign {V A}. Arguments PDrop {V A}. Arguments PReady {V A}. Arguments PWaitFor {V A}.
Arguments PAlive {V A}. Arguments PKill {V A}.
