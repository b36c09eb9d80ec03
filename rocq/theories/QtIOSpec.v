(** * What the QCoroIODevice functions do, in terms of the object's states and signals. No proofs.

    Trace segments are newest first. [d]: the object's state at the call; [l]: what happened until the function returned. *)
From stdpp Require Import list.
From Coq Require Import ZArith.
From Verif Require Import QtModel QtSpec QtObj QtIO.

Section spec.
Context {O A : Type}.
Notation tev := (@tev qobj sig arg O A).
Notation wstate := (@wstate qobj sig arg O A).

(** The signals that wake up waitForReadyRead() of wrapper class [c]. *)
Definition wakes_read (c : cls) (sg : sig) (a : arg) : Prop :=
  match sg with
  | ReadyRead | AboutToClose => True
  | StateChanged => (c = AbstractSocket ∧ (a = AState Closing ∨ a = AState Unconnected)) ∨ (c = LocalSocket ∧ a ≠ AState SConnected)
  | ErrorOccurred | Finished => c = NetworkReply
  | _ => False
  end.
(** The signals that wake up waitForBytesWritten(), and the number of bytes it reports then. *)
Definition wakes_write (c : cls) (sg : sig) (a : arg) (v : arg) : Prop :=
  match sg with
  | BytesWritten => v = a
  | AboutToClose => v = AInt 0
  | StateChanged => v = AInt 0 ∧ ((c = AbstractSocket ∧ (a = AState Closing ∨ a = AState Unconnected)) ∨ (c = LocalSocket ∧ a ≠ AState SConnected))
  | ErrorOccurred | Finished => v = AInt 0 ∧ c = NetworkReply
  | _ => False
  end.
(** The wait is over before it began. *)
Definition is_socket (c : cls) : Prop := c = AbstractSocket ∨ c = LocalSocket.

(** [lw] is the history of a wait that was ended by the emission of [sg] with [a]; it is the first one of this kind unless
    the wrapper is that of a QNetworkReply (of which some signals are handled by queued connections). *)
Definition ended_by (c : cls) (wakes : sig -> arg -> Prop) (lw : list tev) (sg : sig) (a : arg) : Prop :=
  ∃ l1 l2, lw = l1 ++ TEmit sg a :: l2 ∧ wakes sg a ∧ (c ≠ NetworkReply -> ∀ sg' a', TEmit sg' a' ∈ l2 -> ¬ wakes sg' a').

(** waitForReadyRead(timeout) *)
Inductive ready_read (c : cls) (d : qobj) (to : option nat) : bool -> list tev -> Prop :=
  | rr_unreadable : o_readable d = false -> ready_read c d to false []
  | rr_data : o_readable d = true -> o_data d ≠ [] -> ready_read c d to true []
  | rr_socket : o_readable d = true -> o_data d = [] -> is_socket c -> o_state d ≠ SConnected -> ready_read c d to true []
  | rr_reply : o_readable d = true -> o_data d = [] -> c = NetworkReply -> o_finished d = true -> ready_read c d to true []
  | rr_timeout n lw : o_readable d = true -> o_data d = [] -> to = Some n -> quiet lw -> n ≤ elapsed lw ->
      ready_read c d to false (TResume None :: (TExpire :: lw) ++ [TSusp FromHelper to])
  | rr_signal v lw sg a : o_readable d = true -> o_data d = [] -> quiet lw -> ended_by c (wakes_read c) lw sg a ->
      ready_read c d to true (TResume (Some v) :: lw ++ [TSusp FromHelper to]).

(** waitForBytesWritten(timeout) *)
Inductive bytes_written (c : cls) (d : qobj) (to : option nat) : option Z -> list tev -> Prop :=
  | bw_unwritable : o_writable d = false -> bytes_written c d to None []
  | bw_nothing : o_writable d = true -> o_towrite d = 0%Z -> bytes_written c d to (Some 0%Z) []
  | bw_socket : o_writable d = true -> o_towrite d ≠ 0%Z -> is_socket c -> o_state d ≠ SConnected -> bytes_written c d to None []
  | bw_reply : o_writable d = true -> o_towrite d ≠ 0%Z -> c = NetworkReply -> o_finished d = true -> bytes_written c d to (Some 0%Z) []
  | bw_timeout n lw : o_writable d = true -> o_towrite d ≠ 0%Z -> to = Some n -> quiet lw -> n ≤ elapsed lw ->
      bytes_written c d to None (TResume None :: (TExpire :: lw) ++ [TSusp FromHelper to])
  | bw_signal v lw sg a : o_writable d = true -> o_towrite d ≠ 0%Z -> quiet lw -> ended_by c (λ sg a, ∃ v', wakes_write c sg a v') lw sg a -> wakes_write c sg a v ->
      bytes_written c d to (Some (int_of v)) (TResume (Some v) :: lw ++ [TSusp FromHelper to]).

(** What the Qt functions return of the bytes [x] that can be read: [b], and [y] remains. A line ends with byte 10. *)
Definition reads (r : rkind) (x b y : list byte) : Prop :=
  x = b ++ y ∧
  match r with
  | RAll => y = []
  | RMax n => length b = n `min` length x
  | RLine n => (∀ b1 b2, b = b1 ++ 10%nat :: b2 -> b2 = []) ∧ (n ≠ 0 -> length b ≤ n) ∧
      (y = [] ∨ last b = Some 10%nat ∨ (n ≠ 0 ∧ length b = n))
  end.

(** readAll/read/readLine(timeout): nothing, or the front of what can be read at that time. *)
Inductive read_result (c : cls) (r : rkind) (d : qobj) (to : option nat) : list byte -> list tev -> qobj -> Prop :=
  | re_nothing l : ready_read c d to false l -> read_result c r d to [] l (dev_after d l)
  | re_bytes l b y : ready_read c d to true l -> reads r (o_data (dev_after d l)) b y ->
      let d' := set_data y (dev_after d l) in read_result c r d to b (TDev d' :: l) d'.

(** co_await device: all that can be read, at once if there is something (or the device is not open or not readable), else
    some time after readyRead or aboutToClose. *)
Inductive read_device (d : qobj) : list byte -> list tev -> qobj -> Prop :=
  | rd_now : o_open d = false ∨ o_readable d = false ∨ o_data d ≠ [] -> read_device d (o_data d) [TDev (set_data [] d)] (set_data [] d)
  | rd_wait v lw sg a : o_open d = true -> o_readable d = true -> o_data d = [] -> quiet lw -> TEmit sg a ∈ lw -> sg = ReadyRead ∨ sg = AboutToClose ->
      let l := TResume v :: lw ++ [TSusp (FromDev read_or_close) None] in let d' := set_data [] (dev_after d l) in
      read_device d (o_data (dev_after d l)) (TDev d' :: l) d'.

(** The object is a stream of bytes: nothing that arrived disappears on its own. *)
Definition appends (denv : qobj -> list (sig * arg) -> qobj -> Prop) : Prop := ∀ d ems d', denv d ems d' -> ∃ x, o_data d' = o_data d ++ x.
(** The bytes that arrived in [l]: those by which the readable data grew. *)
Fixpoint arrived (d : qobj) (l : list tev) : list byte :=
  match l with
  | [] => []
  | TDev d' :: l => arrived d l ++ drop (length (o_data (dev_after d l))) (o_data d')
  | _ :: l => arrived d l
  end.

(** A number of waits for bytesWritten notifications, which report [n] bytes in total. *)
Inductive flushed (c : cls) (d : qobj) : list tev -> Z -> Prop :=
  | fl_nil : flushed c d [] 0
  | fl_wait l n lw m : flushed c d l n -> bytes_written c (dev_after d l) None (Some m) lw -> lw ≠ [] -> flushed c d (lw ++ l) (n + m).
End spec.
