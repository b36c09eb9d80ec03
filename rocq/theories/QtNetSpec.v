(** * What the wrappers of QtNet.v do, in terms of the object's states and signals. No proofs.

    Trace segments are newest first. [l]: what happened from the call until the function returned. *)
From stdpp Require Import list.
From Coq Require Import ZArith.
From Verif Require Import QtModel QtSpec QtObj QtNet.

Section spec.
Context {O A : Type}.
Notation tev := (@tev qobj sig arg O A).

(** The answer is known at the call: true if [yes], false if [no]; else it is true if signal [sg] is emitted, and false when
    the timeout is over. The signal does not help if the timer had expired before, unless the object (the timer's context)
    was destroyed. *)
Inductive decided (sg : sig) (yes no : Prop) (to : option nat) : bool -> list tev -> Prop :=
  | dc_yes : yes -> decided sg yes no to true []
  | dc_no : ¬ yes -> no -> decided sg yes no to false []
  | dc_signal a l1 l2 : ¬ yes -> ¬ no -> quiet (l1 ++ TEmit sg a :: l2) -> (∀ a', TEmit sg a' ∉ l2) -> (TExpire ∈ l1 ++ TEmit sg a :: l2 -> TDestroy ∈ l1 ++ TEmit sg a :: l2) ->
      decided sg yes no to true (TResume (Some a) :: (l1 ++ TEmit sg a :: l2) ++ [TSusp (FromDev (only sg)) to])
  | dc_timeout n lw : ¬ yes -> ¬ no -> to = Some n -> quiet lw -> n ≤ elapsed lw -> TDestroy ∉ lw -> TExpire ∉ lw ->
      decided sg yes no to false (TResume None :: (TExpire :: lw) ++ [TSusp (FromDev (only sg)) to]).

(** The first signal that settles the matter decides the answer; or the timeout, then it is [dflt]. *)
Inductive settled {B} (settles : sig -> arg -> B -> Prop) (dflt : B) (to : option nat) : B -> list tev -> Prop :=
  | st_signal b v sg a l1 l2 : quiet (l1 ++ TEmit sg a :: l2) -> settles sg a b -> (∀ sg' a' b', TEmit sg' a' ∈ l2 -> ¬ settles sg' a' b') ->
      settled settles dflt to b (TResume (Some v) :: (l1 ++ TEmit sg a :: l2) ++ [TSusp FromHelper to])
  | st_timeout n lw : to = Some n -> quiet lw -> n ≤ elapsed lw ->
      settled settles dflt to dflt (TResume None :: (TExpire :: lw) ++ [TSusp FromHelper to]).

(** QLocalSocket: connected, or unconnected again *)
Definition settles_local (sg : sig) (a : arg) (b : bool) : Prop :=
  match sg with Connected => b = true | StateChanged => a = AState Unconnected ∧ b = false | _ => False end.
Definition local_connected (d : qobj) (to : option nat) (b : bool) (l : list tev) : Prop :=
  (o_state d = SConnected ∧ b = true ∧ l = []) ∨ (o_state d ≠ SConnected ∧ settled settles_local false to b l).
(** QWebSocket::open() *)
Definition settles_open (sg : sig) (a : arg) (b : bool) : Prop :=
  match sg with StateChanged => a = AState SConnected ∧ b = true | ErrorOccurred => b = false | _ => False end.
(** QWebSocket::ping(): the time of the first pong, or nothing if the connection is lost *)
Definition settles_ping (sg : sig) (a : arg) (b : option Z) : Prop :=
  match sg with Pong => b = match a with APong t => t | _ => None end | StateChanged => a ≠ AState SConnected ∧ b = None | _ => False end.

(** What happens when a function of the object is called that goes to state [d1] and emits [ems]. *)
Definition called (d1 : qobj) (ems : list (sig * arg)) : list tev := reverse (map (λ e, TEmit (fst e) (snd e)) ems) ++ [TDev d1].

(** co_await reply *)
Inductive reply_awaited (d : qobj) : bool -> list tev -> Prop :=
  | ra_now : o_finished d = true -> reply_awaited d true []
  | ra_signal a l1 l2 b : o_finished d = false -> quiet (l1 ++ TEmit Finished a :: l2) -> (∀ a', TEmit Finished a' ∉ l2) -> (b = true <-> TDestroy ∉ l1 ++ TEmit Finished a :: l2) ->
      reply_awaited d b (TResume (Some a) :: (l1 ++ TEmit Finished a :: l2) ++ [TSusp (FromDev (only Finished)) None]).

(** waitForNewConnection(timeout): the connection, and the state of the server after. After the wait the oldest connection
    is taken, if there (still) is one. *)
Inductive new_connection (d : qobj) (to : option nat) : option nat -> list tev -> qobj -> Prop :=
  | nc_deaf : o_listening d = false -> new_connection d to None [] d
  | nc_pending c cs : o_listening d = true -> o_pending d = c :: cs -> new_connection d to (Some c) [TDev (set_pending cs d)] (set_pending cs d)
  | nc_timeout n lw : o_listening d = true -> o_pending d = [] -> to = Some n -> quiet lw -> n ≤ elapsed lw -> TDestroy ∉ lw ->
      new_connection d to None (TResume None :: (TExpire :: lw) ++ [TSusp (FromDev (only NewConnection)) to]) (dev_after d lw)
  | nc_signal a lw : o_listening d = true -> o_pending d = [] -> quiet lw -> TEmit NewConnection a ∈ lw ->
      let d1 := dev_after d lw in let d2 := set_pending (tail (o_pending d1)) d1 in
      new_connection d to (head (o_pending d1)) (TDev d2 :: TResume (Some a) :: lw ++ [TSusp (FromDev (only NewConnection)) to]) d2.

(** The server's queue of connections only grows by itself (nobody else takes connections from it). *)
Definition queues (denv : qobj -> list (sig * arg) -> qobj -> Prop) : Prop := ∀ d ems d', denv d ems d' -> ∃ x, o_pending d' = o_pending d ++ x.
(** The connections that arrived in [l], in order. *)
Definition fresh (d d' : qobj) : list nat := drop (length (o_pending d)) (o_pending d').
Fixpoint clients (d : qobj) (l : list tev) : list nat :=
  match l with [] => [] | TDev d' :: l => clients d l ++ fresh (dev_after d l) d' | _ :: l => clients d l end.

(** QWebSocketServer: what the wrapper's listener object reports. *)
Inductive next_connection (d : qobj) (to : option nat) : option nat -> list tev -> Prop :=
  | nw_deaf : o_listening d = false -> next_connection d to None []
  | nw_pending c cs : o_listening d = true -> o_pending d = c :: cs -> next_connection d to (Some c) [TDev (set_pending cs d)]
  | nw_timeout n lw : o_listening d = true -> o_pending d = [] -> to = Some n -> quiet lw -> n ≤ elapsed lw ->
      next_connection d to None (TResume None :: (TExpire :: lw) ++ [TSusp FromHelper to])
  | nw_closed v a l1 l2 : o_listening d = true -> o_pending d = [] -> let lw := l1 ++ TEmit Closed a :: l2 in quiet lw ->
      (∀ sg a', TEmit sg a' ∈ l2 -> sg ≠ Closed ∧ sg ≠ NewConnection) ->
      next_connection d to None (TResume (Some v) :: lw ++ [TSusp FromHelper to])
  | nw_client v a l1 l2 : o_listening d = true -> o_pending d = [] -> let lw := l1 ++ TEmit NewConnection a :: l2 in quiet lw ->
      (∀ sg a', TEmit sg a' ∈ l2 -> sg ≠ Closed ∧ sg ≠ NewConnection) ->
      next_connection d to (head (o_pending (dev_after d l2))) (TResume (Some v) :: lw ++ [TSusp FromHelper to]).

(** co_await timer, waitForTimeout() *)
Inductive timer_awaited (c : @src sig arg) (d : qobj) : list tev -> Prop :=
  | ta_now : o_active d = false -> timer_awaited c d []
  | ta_signal a l1 l2 : o_active d = true -> quiet (l1 ++ TEmit Timeout a :: l2) -> (∀ a', TEmit Timeout a' ∉ l2) ->
      timer_awaited c d (TResume (Some a) :: (l1 ++ TEmit Timeout a :: l2) ++ [TSusp c None]).
End spec.
