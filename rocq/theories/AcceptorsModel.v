(** * Any number of coroutines that accept connections from one QTcpServer.

    Models QCoroTcpServer::waitForNewConnection() (/repo/qcoro/network/qcorotcpserver.cpp:37-51) with QCoroSignal (/repo/qcoro/core/qcorosignal.h:111-120, 200-234).
    QtNet.v has the same code for one coroutine, with the destruction of server and wrapper and re-entrance; here the coroutines are arbitrary and a history is any
    sequence of the actions below. No proofs in this file.

    Qt (trusted): newConnection posts an event to the receiver of each awaiter. close() drops the pending connections; no signal is emitted. nextPendingConnection() takes
    the oldest pending connection, or is nullptr. Timers may be late, and may fire while the event is posted.
    Simplifications: a connection is a number; an emission is one step (the slots only post); events are delivered in any order (Qt: as posted); of several events for one
    awaiter only the first counts (the slot disconnects, and the receiver goes with the awaiter); the server lives (see C117, C122). *)
From stdpp Require Import list option.


(** A coroutine: elsewhere; waiting for newConnection, with the deadline; its event is posted; destroyed. *)
Inductive acst := AElse | AWait (dl : option nat) | APosted (dl : option nat) | ADead.

Inductive aev :=
  | ACall (i : nat) (to : option nat)              (* coroutine i calls waitForNewConnection(to) *)
  | ASuspended (i : nat)                           (* and is suspended *)
  | AGot (i : nat) (r : option nat) (late : bool)  (* it returns r (None: nullptr); [late]: because of the timeout *)
  | ADestroyed (i : nat)
  | AArrive (c : nat)                              (* connection c becomes pending *)
  | ASignal                                        (* newConnection is emitted *)
  | AListen                                        (* the server starts to listen *)
  | AClosed (cs : list nat)                        (* the server is closed and drops cs *)
  | ATaken (c : nat)                               (* someone else takes c with nextPendingConnection() *)
  | ATick.

Record ast := Ast { a_listen : bool; a_pend : list nat; a_co : nat -> acst; a_now : nat; a_tr : list aev }.
Definition acceptors0 : ast := Ast false [] (λ _, AElse) 0 [].

Inductive aact :=
  | AACall (i : nat) (to : option nat) | AAWake (i : nat) | AAExpire (i : nat) | AADestroy (i : nat)
  | AAArrive (c : nat) | AASignal | AAListen | AAClose | AATake | AATick.

Definition set_aco (i : nat) (c : acst) (f : nat -> acst) : nat -> acst := λ j, if decide (j = i) then c else f j.
(** server->nextPendingConnection(), and return of the result: qcorotcpserver.cpp:43, 48. *)
Definition take_conn (i : nat) (s : ast) : ast :=
  Ast (a_listen s) (tail (a_pend s)) (set_aco i AElse (a_co s)) (a_now s) (AGot i (head (a_pend s)) false :: a_tr s).
(** co_return nullptr: qcorotcpserver.cpp:40, 50. *)
Definition no_conn (i : nat) (late : bool) (s : ast) : ast :=
  Ast (a_listen s) (a_pend s) (set_aco i AElse (a_co s)) (a_now s) (AGot i None late :: a_tr s).
(** The connections of all awaiters are queued: qcorosignal.h:217-218, 233. *)
Definition signal_all (f : nat -> acst) : nat -> acst := λ i, match f i with AWait dl => APosted dl | c => c end.

Definition aperform (a : aact) (s : ast) : option ast :=
  match a with
  | AACall i to =>
      match a_co s i with
      | AElse =>
          let s1 := Ast (a_listen s) (a_pend s) (a_co s) (a_now s) (ACall i to :: a_tr s) in
          (* qcorotcpserver.cpp:39-46, qcorosignal.h:204-208 *)
          Some (if negb (a_listen s) then no_conn i false s1
                else match a_pend s with
                | _ :: _ => take_conn i s1
                | [] => Ast (a_listen s) (a_pend s) (set_aco i (AWait ((λ n, a_now s + n) <$> to)) (a_co s)) (a_now s) (ASuspended i :: a_tr s1)
                end)
      | _ => None
      end
  (* the queued slot, qcorosignal.h:219-232; qcorotcpserver.cpp:47-49 *)
  | AAWake i => match a_co s i with APosted _ => Some (take_conn i s) | _ => None end
  (* qcorosignal.h:113-117; qcorotcpserver.cpp:50 *)
  | AAExpire i =>
      match a_co s i with
      | AWait (Some d) | APosted (Some d) => if decide (d ≤ a_now s) then Some (no_conn i true s) else None
      | _ => None
      end
  | AADestroy i =>
      match a_co s i with
      | ADead => None
      | _ => Some (Ast (a_listen s) (a_pend s) (set_aco i ADead (a_co s)) (a_now s) (ADestroyed i :: a_tr s))
      end
  | AAArrive c => if a_listen s then Some (Ast true (a_pend s ++ [c]) (a_co s) (a_now s) (AArrive c :: a_tr s)) else None
  | AASignal => if a_listen s then Some (Ast true (a_pend s) (signal_all (a_co s)) (a_now s) (ASignal :: a_tr s)) else None
  | AAListen => if a_listen s then None else Some (Ast true (a_pend s) (a_co s) (a_now s) (AListen :: a_tr s))
  | AAClose => if a_listen s then Some (Ast false [] (a_co s) (a_now s) (AClosed (a_pend s) :: a_tr s)) else None
  | AATake => match a_pend s with c :: l => Some (Ast (a_listen s) l (a_co s) (a_now s) (ATaken c :: a_tr s)) | [] => None end
  | AATick => Some (Ast (a_listen s) (a_pend s) (a_co s) (S (a_now s)) (ATick :: a_tr s))
  end.

Inductive areach : ast -> Prop :=
  | areach_0 : areach acceptors0
  | areach_S s s' a : areach s -> aperform a s = Some s' -> areach s'.
Fixpoint aplay (l : list aact) (s : ast) : ast :=
  match l with [] => s | a :: l => match aperform a s with Some s' => aplay l s' | None => s end end.
