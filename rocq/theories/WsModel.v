(** * The frame and message generators of QWebSocket.

    Models /repo/qcoro/websockets/qcorowebsocket.cpp:88-139 (WebSocketSignalWatcher, watcherGenerator), 188-210 (binaryFrames,
    binaryMessages, textFrames, textMessages, which only differ in the signal), on top of the signal listener
    (ListenModel.v). No proofs in this file.

    There are three coroutines: the listener's inner generator and its consumer, the watcher generator (whose code is here),
    and the consumer of that one, the user's coroutine, which is arbitrary: a history is any sequence of the actions below.

    Qt (trusted): see ListenModel.v; the watcher's own connections are direct ones (same thread). Simplifications: those of
    ListenModel.v; the socket is a source of frames and of state changes, and outlives the generator; the
    completion of a co_await of the user that was cut short before is left out. *)
From stdpp Require Import list option.
From Verif Require Import ListenModel.

Section ws.
(** [F]: what is yielded: the (unwrapped) arguments of the signal. *)
Context {F : Type}.

(** Where the watcher generator is. *)
Inductive wpos :=
  | WInit              (* initial_suspend: nothing of its body has run, so there is no watcher yet *)
  | WInner             (* suspended in co_await signalListener.begin() or ++it, qcorowebsocket.cpp:126, 137 *)
  | WYield (f : F)     (* suspended in co_yield, qcorowebsocket.cpp:132-136 *)
  | WEnd.

Inductive wub :=
  | WPastEnd           (* the user advances past the end, or a destroyed generator *)
  | WStale             (* co_await ++it of the watcher generator returns although the listener yielded nothing: reads a destroyed value *)
  | WDead.             (* a finished consumer is resumed *)

Inductive wev :=
  | YFrame (f : F)     (* the socket receives a frame (or message): the signal is emitted *)
  | YState (c : bool)  (* the state of the socket changes: to connected, to another state *)
  | YDeliver           (* the event loop delivers something to the listener *)
  | YTick | YFire
  | YDropped           (* the generator is destroyed *)
  | YAsk               (* the user does co_await begin() or ++it *)
  | YPark              (* ... which suspends *)
  | YGot (f : F)       (* ... which returns, with a frame *)
  | YEnd               (* ... which returns the end iterator *)
  | YLeave             (* the user is suspended in another co_await *)
  | YBack              (* which is done *)
  | YEarly             (* which returns although it is not done *)
  | YFin
  | YUB (u : wub).

Record wst := Wst {
  w_to : option nat;
  w_in : option (lst (option F));  (* the listener, if it exists. It exists together with the watcher. *)
  w_pos : wpos;
  w_alive : bool;                  (* the watcher generator's frame *)
  w_user : cpos;
  w_ub : bool;
  w_tr : list wev }.

Definition wlog (e : wev) (s : wst) : wst := Wst (w_to s) (w_in s) (w_pos s) (w_alive s) (w_user s) (w_ub s) (e :: w_tr s).
Definition wset_in (x : option (lst (option F))) (s : wst) : wst := Wst (w_to s) x (w_pos s) (w_alive s) (w_user s) (w_ub s) (w_tr s).
Definition wset_pos (x : wpos) (s : wst) : wst := Wst (w_to s) (w_in s) x (w_alive s) (w_user s) (w_ub s) (w_tr s).
Definition wset_user (x : cpos) (s : wst) : wst := Wst (w_to s) (w_in s) (w_pos s) (w_alive s) x (w_ub s) (w_tr s).
Definition wbad (u : wub) (s : wst) : wst := Wst (w_to s) (w_in s) (w_pos s) (w_alive s) (w_user s) true (YUB u :: w_tr s).

(** qCoro(socket).binaryFrames(timeout) etc., qcorowebsocket.cpp:188-210: only creates the generator. *)
Definition frames (to : option nat) : wst := Wst to None WInit true CRun false [].

(** Control passes to the user's coroutine: co_yield or final_suspend of the watcher generator, qcoroasyncgenerator.h:75-101. *)
Definition to_user (o : option F) (s : wst) : wst :=
  match w_user s with
  | CAsked => wlog (match o with Some f => YGot f | None => YEnd end) (wset_user CRun s)
  | CAway => wlog YEarly (wset_user CRun s)
  | CRun | CFin => wbad WDead s
  end.

(** The watcher generator after co_await signalListener.begin() or ++it, qcorowebsocket.cpp:127-136: ends if the listener did
    or if the watcher reported a state change (the locals, listener and watcher, are destroyed then), else yields. [l]: the
    listener, whose consumer runs. *)
Definition w_got (l : lst (option F)) (s : wst) : wst :=
  match l_gen l with
  | GYield (Some f) => to_user (Some f) (wset_pos (WYield f) (wset_in (perform ALeave l) s))
  | _ => to_user None (wset_pos WEnd (wset_in None s))
  end.

(** The watcher generator does co_await signalListener.begin() or ++it, qcorowebsocket.cpp:126, 137. *)
Definition w_next (l : lst (option F)) (s : wst) : wst :=
  match perform AAsk l with
  | Some l' =>
      if runs l' then w_got l' s
      else let s' := wset_pos WInner (wset_in (Some l') s) in
           match w_user s with CAsked => wlog YPark s' | _ => s' end
  | None => s
  end.

(** The listener went from [l] to [l'], due to the event loop. If it resumed the watcher generator, that one continues: after
    co_await, or, if it was suspended there, after co_yield. *)
Definition w_back (l l' : lst (option F)) (s : wst) : wst :=
  if runs l' then match l_con l with CAsked => w_got l' s | _ => w_next l' s end
  else wset_in (Some l') s.

(** resume() of the watcher generator: it starts (watcher and listener are created, qcorowebsocket.cpp:123-125), or goes on
    after co_yield. *)
Definition w_resume (s : wst) : wst :=
  match w_pos s, w_in s with
  | WInit, _ => w_next (listener (w_to s) true) s
  | WYield _, Some l => match perform AWake l with Some l' => w_next l' s | None => s end
  | WInner, _ => wbad WStale s
  | _, _ => wbad WPastEnd s
  end.

Inductive wact :=
  | XFrame (f : F) | XState (c : bool) | XDrop
  | XDeliver | XTick | XFire | XWake
  | XAsk | XLeave | XFinish.

Definition wruns (s : wst) : bool := match w_user s with CRun => true | _ => false end.
(** Does the event loop have control? (QTimer::timeout never has: the listener does not survive the first of its slots.) *)
Definition widle (s : wst) : bool := negb (wruns s).

(** The watcher's signal is emitted: reaches the listener if there is one. qcorowebsocket.cpp:99-107. *)
Definition w_ready (o : option F) (s : wst) : wst :=
  match w_in s with
  | Some l => match perform (AEmit o) l with Some l' => wset_in (Some l') s | None => s end
  | None => s
  end.

Definition wperform (a : wact) (s : wst) : option wst :=
  if w_ub s then None else
  match a with
  | XFrame f => Some (wlog (YFrame f) (w_ready (Some f) s))
  | XState c => Some (wlog (YState c) (if c then s else w_ready None s))
  | XDrop => if w_alive s then Some (wlog YDropped (Wst (w_to s) None (w_pos s) false (w_user s) (w_ub s) (w_tr s))) else None
  | XDeliver =>
      if widle s then match w_in s with
        | Some l => match perform ADeliver l with Some l' => Some (w_back l l' (wlog YDeliver s)) | None => None end
        | None => None end
      else None
  | XTick =>
      if widle s then match w_in s with
        | Some l => match perform ATick l with Some l' => Some (wlog YTick (wset_in (Some l') s)) | None => None end
        | None => Some (wlog YTick s) end
      else None
  | XFire =>
      if widle s then match w_in s with
        | Some l => match perform AFire l with Some l' => Some (w_back l l' (wlog YFire s)) | None => None end
        | None => None end
      else None
  | XWake => match w_user s with CAway => Some (wlog YBack (wset_user CRun s)) | _ => None end
  | XAsk =>
      if wruns s then
        if w_alive s then Some (match w_pos s with WEnd => wbad WPastEnd s | _ => w_resume (wlog YAsk (wset_user CAsked s)) end)
        else Some (wbad WPastEnd s)
      else None
  | XLeave => if wruns s then Some (wlog YLeave (wset_user CAway s)) else None
  | XFinish => if wruns s then Some (wlog YFin (wset_user CFin s)) else None
  end.

Inductive wreach (to : option nat) : wst -> Prop :=
  | wreach_0 : wreach to (frames to)
  | wreach_S s s' a : wreach to s -> wperform a s = Some s' -> wreach to s'.

Fixpoint xplay (l : list wact) (s : wst) : wst :=
  match l with [] => s | a :: l => match wperform a s with Some s' => xplay l s' | None => s end end.
End ws.
Arguments wst : clear implicits. Arguments wev : clear implicits. Arguments wact : clear implicits. Arguments wpos : clear implicits.
