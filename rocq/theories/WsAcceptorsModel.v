(** * Any number of coroutines that accept connections from one QWebSocketServer.

    Models QCoroWebSocketServer::nextPendingConnection() and QCoroWebSocketServerSignalListener (/repo/qcoro/websockets/qcorowebsocketserver.cpp:15-51) with QCoroSignal
    (/repo/qcoro/core/qcorosignal.h:111-120, 200-234). QtNet.v has the same code for one coroutine; here the coroutines are arbitrary and a history is any sequence of
    the actions below. No proofs in this file.

    Qt (trusted): newConnection and closed call the slots directly, in the order of connection; a connection with a context object ends with it, one without ends with the
    sender only. nextPendingConnection() takes the oldest pending connection, or is nullptr. close() drops the pending connections; closed is emitted later. Timers may be
    late, and may fire while an event is posted.
    Simplifications: a connection is a number; an emission is one step; events are delivered in any order (Qt: as posted); of several events for one awaiter only the first
    counts; connections may come and signals be emitted at any time; the server lives. After undefined behaviour nothing is said. *)
From stdpp Require Import list option.

(** A coroutine: elsewhere; suspended, with the deadline; the event with the result r of ready(r) is posted; destroyed. *)
Inductive wcst := WElse | WWait (dl : option nat) | WPosted (r : option nat) (dl : option nat) | WDead.

Inductive wev :=
  | WCall (i : nat) (to : option nat)              (* coroutine i calls nextPendingConnection(to) *)
  | WSuspended (i : nat)                           (* and is suspended *)
  | WTook (i : nat) (r : option nat)               (* i, or its listener, calls QWebSocketServer::nextPendingConnection(), which returns r *)
  | WGot (i : nat) (r : option nat) (late : bool)  (* the call returns r (None: nullptr); [late]: because of the timeout *)
  | WDestroyed (i : nat)
  | WArrive (c : nat)                              (* connection c becomes pending *)
  | WSignal | WClosedSig                           (* newConnection, closed is emitted *)
  | WListen | WClose (cs : list nat)               (* the server starts to listen; is closed and drops cs *)
  | WTaken (c : nat)                               (* someone else takes c *)
  | WTick | WUndefined.

Record wst := Wst { w_listen : bool; w_pend : list nat; w_co : nat -> wcst;
  w_order : list nat;    (* whose listeners exist, as connected *)
  w_stale : bool;        (* a listener has been destroyed; its slot for newConnection is still connected *)
  w_now : nat; w_bad : bool; w_tr : list wev }.
Definition wsacceptors0 : wst := Wst false [] (λ _, WElse) [] false 0 false [].

Inductive wact :=
  | WACall (i : nat) (to : option nat) | WAWake (i : nat) | WAExpire (i : nat) | WADestroy (i : nat)
  | WAArrive (c : nat) | WASignal | WAClosedSig | WAListen | WAClose | WATake | WATick.

Definition set_wco (i : nat) (c : wcst) (f : nat -> wcst) : nat -> wcst := λ j, if decide (j = i) then c else f j.
Definition wlog (e : wev) (s : wst) : wst := Wst (w_listen s) (w_pend s) (w_co s) (w_order s) (w_stale s) (w_now s) (w_bad s) (e :: w_tr s).
(** server->nextPendingConnection(), by coroutine i or its listener: qcorowebsocketserver.cpp:23, 45. *)
Definition wtake (i : nat) (s : wst) : wst :=
  Wst (w_listen s) (tail (w_pend s)) (w_co s) (w_order s) (w_stale s) (w_now s) (w_bad s) (WTook i (head (w_pend s)) :: w_tr s).
(** A suspended call ends, and with it its listener, whose closed connection has a context (:19) and whose newConnection connection has none (:22). *)
Definition wend (i : nat) (c : wcst) (e : wev) (s : wst) : wst :=
  Wst (w_listen s) (w_pend s) (set_wco i c (w_co s)) (filter (λ j, j ≠ i) (w_order s)) true (w_now s) (w_bad s) (e :: w_tr s).
(** Q_EMIT ready(r): the first one is the result. :20, 23; qcorosignal.h:219-232. *)
Definition post (r : option nat) (c : wcst) : wcst := match c with WWait dl => WPosted r dl | c => c end.
(** The slot of the listener of coroutine i for newConnection. :22-24 *)
Definition serve1 (i : nat) (s : wst) : wst :=
  let s1 := wtake i s in
  Wst (w_listen s1) (w_pend s1) (set_wco i (post (head (w_pend s)) (w_co s i)) (w_co s1)) (w_order s1) (w_stale s1) (w_now s1) (w_bad s1) (w_tr s1).
Fixpoint serve (l : list nat) (s : wst) : wst := match l with [] => s | i :: l => serve l (serve1 i s) end.

Definition wperform (a : wact) (s : wst) : option wst :=
  if w_bad s then None else
  match a with
  | WACall i to =>
      match w_co s i with
      | WElse =>
          let s1 := wlog (WCall i to) s in
          (* :39-49; qcorosignal.h:204-208 *)
          Some (if negb (w_listen s) then wlog (WGot i None false) s1
                else match w_pend s with
                | c :: _ => wlog (WGot i (Some c) false) (wtake i s1)
                | [] => Wst true [] (set_wco i (WWait ((λ n, w_now s + n) <$> to)) (w_co s)) (w_order s ++ [i]) (w_stale s) (w_now s) false (WSuspended i :: w_tr s1)
                end)
      | _ => None
      end
  (* the queued slot, qcorosignal.h:219-232; :49-50 *)
  | WAWake i => match w_co s i with WPosted r _ => Some (wend i WElse (WGot i r false) s) | _ => None end
  (* qcorosignal.h:113-117; :50 *)
  | WAExpire i =>
      match w_co s i with
      | WWait (Some d) | WPosted _ (Some d) => if decide (d ≤ w_now s) then Some (wend i WElse (WGot i None true) s) else None
      | _ => None
      end
  | WADestroy i =>
      match w_co s i with
      | WDead => None
      | WElse => Some (Wst (w_listen s) (w_pend s) (set_wco i WDead (w_co s)) (w_order s) (w_stale s) (w_now s) false (WDestroyed i :: w_tr s))
      | _ => Some (wend i WDead (WDestroyed i) s)
      end
  | WAArrive c => Some (Wst (w_listen s) (w_pend s ++ [c]) (w_co s) (w_order s) (w_stale s) (w_now s) false (WArrive c :: w_tr s))
  (* :22: the slot of a destroyed listener is called as well *)
  | WASignal =>
      Some (if w_stale s then Wst (w_listen s) (w_pend s) (w_co s) (w_order s) true (w_now s) true (WUndefined :: WSignal :: w_tr s)
            else serve (w_order s) (wlog WSignal s))
  (* :19-21 *)
  | WAClosedSig => Some (Wst (w_listen s) (w_pend s) (λ i, post None (w_co s i)) (w_order s) (w_stale s) (w_now s) false (WClosedSig :: w_tr s))
  | WAListen => if w_listen s then None else Some (Wst true (w_pend s) (w_co s) (w_order s) (w_stale s) (w_now s) false (WListen :: w_tr s))
  | WAClose => Some (Wst false [] (w_co s) (w_order s) (w_stale s) (w_now s) false (WClose (w_pend s) :: w_tr s))
  | WATake => match w_pend s with c :: l => Some (Wst (w_listen s) l (w_co s) (w_order s) (w_stale s) (w_now s) false (WTaken c :: w_tr s)) | [] => None end
  | WATick => Some (Wst (w_listen s) (w_pend s) (w_co s) (w_order s) (w_stale s) (S (w_now s)) false (WTick :: w_tr s))
  end.

Inductive wreach : wst -> Prop :=
  | wreach_0 : wreach wsacceptors0
  | wreach_S s s' a : wreach s -> wperform a s = Some s' -> wreach s'.
Fixpoint wplays (l : list wact) (s : wst) : wst :=
  match l with [] => s | a :: l => match wperform a s with Some s' => wplays l s' | None => s end end.
