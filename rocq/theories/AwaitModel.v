(** * Any number of coroutines that await signals of one object, and that may be destroyed while they do.

    Models the awaiters of
    - qCoro(obj, signal, timeout): QCoroSignal, /repo/qcoro/core/qcorosignal.h:105-120, 168-244 ([KSignal]);
    - co_await reply: QCoroNetworkReply::WaitForFinishedOperation, /repo/qcoro/network/qcoronetworkreply.cpp:40-82 ([KReply]);
    - co_await timer: QCoroTimer::WaitForTimeoutOperation, /repo/qcoro/core/qcorotimer.cpp:13-34, qcorotimer.h:19-31 ([KTimer]);
    - co_await device: QCoroIODevice::OperationBase, ReadOperation, /repo/qcoro/core/qcoroiodevice.cpp:15-47, qcoroiodevice.h:22-41 ([KDevice]).
    QtModel.v is about what one coroutine does with them; here the coroutines are arbitrary: a history is any sequence of the actions
    below. No proofs in this file.

    Qt (trusted): an emission calls the slots connected when it starts, in the order of connection, except those disconnected meanwhile; queued
    slots post an event instead; posted events go with their receiver, connections with sender and context object; a connection without a
    context object lives as long as its sender. Emissions nest: code run by a slot may emit again.

    Simplifications: one thread; only awaits that suspend (when they do: C33, C43, C45, C52); a timer may be late. The event loop may
    deliver at any time, also within an emission (nested event loops). *)
From stdpp Require Import list option.

Section await.
(** Signals of the object, and their arguments. *)
Context {S P : Type}.

Inductive kind := KSignal (to : option nat) | KReply | KTimer | KDevice.

(** A coroutine: not in one of these co_awaits; suspended in one, by the awaiter [id] with the deadline [dl]; destroyed. *)
Inductive cst := CRun | CWait (id : nat) (k : kind) (dl : option nat) | CDead.

(** A connection: of the awaiter [c_id] of coroutine [c_co], to the signals in [c_sig]. *)
Record conn := Conn { c_id : nat; c_co : nat; c_kind : kind; c_sig : S -> bool }.

(** What an emission still has to do; [SDone]: it is over. *)
Inductive slot := SCall (c : conn) (p : P) | SDone.

Definition is_done (x : slot) : bool := match x with SDone => true | SCall _ _ => false end.

(** What can be observed, newest first in the trace. *)
Inductive aev :=
  | EAwait (i : nat) (k : kind) (sg : S -> bool)   (* coroutine i suspends in a co_await for any of the signals sg *)
  | EResume (i : nat) (v : option P)               (* which returns, due to an emission with argument v or the timeout *)
  | EDestroyed (i : nat)                           (* coroutine i is destroyed *)
  | EEmit (x : S) (p : P) | EEmitted               (* the object starts to emit, the emission is over *)
  | ETick | EGone                                  (* the object is destroyed *)
  | EUse (i : nat).                                (* undefined behaviour: the destroyed frame of i is used *)

Record ast := Ast {
  a_obj : bool; a_co : nat -> cst; a_conns : list conn; a_posted : list (nat * nat * P); a_shots : list (nat * nat * P);
  a_emit : list slot; a_now : nat; a_next : nat; a_ub : bool; a_tr : list aev }.

Definition aw0 : ast := Ast true (λ _, CRun) [] [] [] [] 0 0 false [].

Definition upd (i : nat) (c : cst) (f : nat -> cst) : nat -> cst := λ j, if decide (j = i) then c else f j.
Definition others {A} (id : nat) (f : A -> nat) (l : list A) : list A := filter (λ x, f x ≠ id) l.
Definition pid (e : nat * nat * P) : nat := e.1.1.

(** Undefined behaviour: something refers to the destroyed frame of [i]. *)
Definition bad (i : nat) (s : ast) : ast :=
  Ast (a_obj s) (a_co s) (a_conns s) (a_posted s) (a_shots s) (a_emit s) (a_now s) (a_next s) true (EUse i :: a_tr s).

(** Coroutine [i], suspended by awaiter [id], is resumed; the awaiter is destroyed at the end of the co_await expression, and with it
    its connection (~QCoroSignalBase, qcorosignal.h:105-109; the dummy objects are receivers; co_await timer disconnects itself,
    qcorotimer.cpp:26) and the events posted to its dummy object. *)
Definition resume (i id : nat) (v : option P) (s : ast) : ast :=
  Ast (a_obj s) (upd i CRun (a_co s)) (others id c_id (a_conns s)) (others id pid (a_posted s)) (a_shots s) (a_emit s) (a_now s) (a_next s)
    (a_ub s) (EResume i v :: a_tr s).

(** A pointer to the awaiter [id] of coroutine [i], or its handle, is used: [f] if it still exists. *)
Definition used (i id : nat) (s : ast) (f : ast) : ast :=
  match a_co s i with CWait id' _ _ => if decide (id' = id) then f else bad i s | _ => bad i s end.

(** The slot of connection [c] is called: qcorosignal.h:217-233 and qcoronetworkreply.cpp:71-73 (queued), qcorotimer.cpp:25-28 (direct),
    qcoroiodevice.cpp:19-24 (disconnects, resumes by a single shot timer). *)
Definition call (c : conn) (p : P) (s : ast) : ast :=
  match c_kind c with
  | KSignal _ | KReply =>
      Ast (a_obj s) (a_co s) (a_conns s) (a_posted s ++ [(c_id c, c_co c, p)]) (a_shots s) (a_emit s) (a_now s) (a_next s) (a_ub s) (a_tr s)
  | KTimer => used (c_co c) (c_id c) s (resume (c_co c) (c_id c) (Some p) s)
  | KDevice => used (c_co c) (c_id c) s
      (Ast (a_obj s) (a_co s) (others (c_id c) c_id (a_conns s)) (a_posted s) (a_shots s ++ [(c_id c, c_co c, p)]) (a_emit s) (a_now s) (a_next s) (a_ub s) (a_tr s))
  end.

Inductive aact :=
  | AAwait (i : nat) (k : kind) (sg : S -> bool)
  | ADestroy (i : nat)
  | AEmit (x : S) (p : P)
  | ANext                (* the emission in progress calls its next slot, or is over *)
  | ADeliver | AShot | AExpire (i : nat) | ATick | AKill.

Definition set_emit (x : list slot) (s : ast) : ast :=
  Ast (a_obj s) (a_co s) (a_conns s) (a_posted s) (a_shots s) x (a_now s) (a_next s) (a_ub s) (a_tr s).
Definition set_posted (x : list (nat * nat * P)) (s : ast) : ast :=
  Ast (a_obj s) (a_co s) (a_conns s) x (a_shots s) (a_emit s) (a_now s) (a_next s) (a_ub s) (a_tr s).
Definition set_shots (x : list (nat * nat * P)) (s : ast) : ast :=
  Ast (a_obj s) (a_co s) (a_conns s) (a_posted s) x (a_emit s) (a_now s) (a_next s) (a_ub s) (a_tr s).
Definition log (e : aev) (s : ast) : ast :=
  Ast (a_obj s) (a_co s) (a_conns s) (a_posted s) (a_shots s) (a_emit s) (a_now s) (a_next s) (a_ub s) (e :: a_tr s).

(** The deadline of the awaiter's timer. qcorosignal.h:111-129. *)
Definition deadline (k : kind) (now : nat) : option nat := match k with KSignal (Some n) => Some (now + n) | _ => None end.
(** Does the destruction of the awaiter cut its connection? Neither WaitForTimeoutOperation nor OperationBase has a destructor. *)
Definition cuts (k : kind) : bool := match k with KSignal _ | KReply => true | KTimer | KDevice => false end.

Definition perform (a : aact) (s : ast) : option ast :=
  if a_ub s then None else
  match a with
  | AAwait i k sg =>
      match a_obj s, a_co s i with
      | true, CRun => Some (Ast true (upd i (CWait (a_next s) k (deadline k (a_now s))) (a_co s)) (a_conns s ++ [Conn (a_next s) i k sg]) (a_posted s) (a_shots s) (a_emit s)
                        (a_now s) (Datatypes.S (a_next s)) (a_ub s) (EAwait i k sg :: a_tr s))
      | _, _ => None
      end
  | ADestroy i =>
      match a_co s i with
      | CDead => None
      | CRun => Some (log (EDestroyed i) (Ast (a_obj s) (upd i CDead (a_co s)) (a_conns s) (a_posted s) (a_shots s) (a_emit s) (a_now s) (a_next s) (a_ub s) (a_tr s)))
      | CWait id k _ =>
          Some (log (EDestroyed i) (Ast (a_obj s) (upd i CDead (a_co s)) (if cuts k then others id c_id (a_conns s) else a_conns s)
            (others id pid (a_posted s)) (a_shots s) (a_emit s) (a_now s) (a_next s) (a_ub s) (a_tr s)))
      end
  | AEmit x p =>
      if a_obj s then Some (log (EEmit x p) (set_emit (map (λ c, SCall c p) (filter (λ c, c_sig c x = true) (a_conns s)) ++ SDone :: a_emit s) s)) else None
  | ANext =>
      match a_emit s with
      | [] => None
      | SDone :: r => Some (log EEmitted (set_emit r s))
      | SCall c p :: r => Some (if decide (c_id c ∈ map c_id (a_conns s)) then call c p (set_emit r s) else set_emit r s)
      end
  | ADeliver =>
      match a_posted s with
      | [] => None
      | (id, i, p) :: r => Some (used i id (set_posted r s) (resume i id (Some p) (set_posted r s)))
      end
  | AShot =>
      match a_shots s with
      | [] => None
      | (id, i, p) :: r => Some (used i id (set_shots r s) (resume i id (Some p) (set_shots r s)))
      end
  | AExpire i => (* the timer's connection has the object as context: qcorosignal.h:113 *)
      match a_obj s, a_co s i with
      | true, CWait id _ (Some d) => if decide (d ≤ a_now s) then Some (resume i id None s) else None
      | _, _ => None
      end
  | ATick => Some (log ETick (Ast (a_obj s) (a_co s) (a_conns s) (a_posted s) (a_shots s) (a_emit s) (Datatypes.S (a_now s)) (a_next s) (a_ub s) (a_tr s)))
  | AKill =>
      if a_obj s then Some (log EGone (Ast false (a_co s) [] (a_posted s) (a_shots s) (filter (λ x, is_done x = true) (a_emit s)) (a_now s) (a_next s) (a_ub s) (a_tr s))) else None
  end.

Inductive areach : ast -> Prop :=
  | areach_0 : areach aw0
  | areach_S s s' a : areach s -> perform a s = Some s' -> areach s'.
Inductive agoes : ast -> ast -> Prop :=
  | agoes_0 s : agoes s s
  | agoes_S s s' s'' a : agoes s s' -> perform a s' = Some s'' -> agoes s s''.
Fixpoint aplay (l : list aact) (s : ast) : ast :=
  match l with [] => s | a :: l => match perform a s with Some s' => aplay l s' | None => s end end.
End await.
Arguments conn : clear implicits. Arguments slot : clear implicits. Arguments aev : clear implicits. Arguments ast : clear implicits. Arguments aact : clear implicits.
