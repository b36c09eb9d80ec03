(** * QmlTask and QmlTaskListener.

    Models /repo/qcoro/qml/qcoroqmltask.cpp:24-31 (QmlTaskPrivate), 45-58 (constructors, copies), 60-77 (then), 79-91 (await), 98-102 (setValue); the
    constructors for other task types, qcoroqmltask.h:47-87, only convert the result. No proofs in this file.

    Any number of QmlTask objects (handles; copies share a QmlTaskPrivate), tasks and listeners; a history is a sequence of the actions below.

    A continuation (numbered) is the callback given to Task::then() by then() or await(). Of Task (see its models) the following is used: the callbacks of a task
    that is not finished run one after the other when it finishes, in the order of their registration; the callback of a finished task runs immediately; each of them is
    passed the result by moving it out of the promise (taskbase.h:61-76, 147-165), so that the first one gets the value and the others a moved-from, i.e. null, QVariant;
    if the task ends with an exception, no callback runs. What callbacks do is up to the environment: actions can happen between any two of them.
    QSharedDataPointer (Qt, trusted): a non-const access copies the data if there is another handle, and the copy constructor of QmlTaskPrivate is Q_UNREACHABLE(). *)
From stdpp Require Import list option.

Inductive ckind := KJs | KListen (l : nat).
Record cont := Cont { c_id : nat; c_kind : ckind }.

(** The coroutine of a QmlTaskPrivate. *)
Inductive qtask :=
  | QNone                                            (* std::nullopt *)
  | QPending (cs : list cont)                        (* not finished; its callbacks, oldest first *)
  | QFinished (v : option nat) (cs : list cont)      (* the result in the promise (None: moved from); the callbacks still to be run *)
  | QFailed.

Inductive qev :=
  | QECreate (h p : nat)                             (* QmlTask h is created, with a task *)
  | QEDefault (h p : nat)                            (* ... default constructed *)
  | QECopy (h p : nat)                               (* ... as a copy of one with private p *)
  | QEDrop (h : nat)                                 (* ... destroyed *)
  | QERegister (p c : nat) (k : ckind)               (* then() or await() registers callback c with the task of p *)
  | QEDone (p v : nat)                               (* the task ends with value v *)
  | QEFail (p : nat)
  | QECall (c : nat) (v : option nat)                (* callback c runs: for then(), the JS function is called with v *)
  | QESet (l : nat) (v : option nat)                 (* the listener's value is set, valueChanged() emitted *)
  | QEKill (l : nat)                                 (* the listener is destroyed *)
  | QEWarn (h : nat)
  | QEBad (h : nat).                                 (* undefined behaviour *)

Record qst := Qst {
  q_hand : list (nat * nat);                         (* the QmlTask objects and their privates *)
  q_task : nat -> qtask;
  q_dead : nat -> bool;                              (* listeners destroyed *)
  q_priv : nat;                                      (* numbers used for privates, callbacks, listeners *)
  q_cont : nat;
  q_lis : nat;
  q_bad : bool;
  q_tr : list qev }.
Definition qml0 : qst := Qst [] (λ _, QNone) (λ _, false) 0 0 0 false [].

Definition qsay (e : qev) (s : qst) : qst := Qst (q_hand s) (q_task s) (q_dead s) (q_priv s) (q_cont s) (q_lis s) (q_bad s) (e :: q_tr s).
Definition qset (p : nat) (t : qtask) (s : qst) : qst :=
  Qst (q_hand s) (λ n, if decide (n = p) then t else q_task s n) (q_dead s) (q_priv s) (q_cont s) (q_lis s) (q_bad s) (q_tr s).
Definition qbad (h : nat) (s : qst) : qst := Qst (q_hand s) (q_task s) (q_dead s) (q_priv s) (q_cont s) (q_lis s) true (QEBad h :: q_tr s).
Fixpoint lookup_handle (h : nat) (l : list (nat * nat)) : option nat :=
  match l with [] => None | (h', p) :: l => if decide (h' = h) then Some p else lookup_handle h l end.
Definition private (h : nat) (s : qst) : option nat := lookup_handle h (q_hand s).
(** How many QmlTask objects use the private: if it is not 1, then d-> runs the copy constructor, :28-30. *)
Fixpoint users_in (p : nat) (l : list (nat * nat)) : nat :=
  match l with [] => 0 | (_, p') :: l => (if decide (p' = p) then 1 else 0) + users_in p l end.
Definition users (p : nat) (s : qst) : nat := users_in p (q_hand s).
Fixpoint without (h : nat) (l : list (nat * nat)) : list (nat * nat) :=
  match l with [] => [] | (h', p) :: l => if decide (h' = h) then without h l else (h', p) :: without h l end.

(** A callback runs, :72-75, :85-89. *)
Definition run (c : cont) (v : option nat) (s : qst) : qst :=
  let s := qsay (QECall (c_id c) v) s in
  match c_kind c with
  | KJs => s
  | KListen l => if q_dead s l then s else qsay (QESet l v) s
  end.
(** d->task->then(callback), qcoroqmltask.cpp:72, 85. *)
Definition attach (p : nat) (k : ckind) (s : qst) : qst :=
  let c := Cont (q_cont s) k in
  let s := Qst (q_hand s) (q_task s) (q_dead s) (q_priv s) (S (q_cont s)) (q_lis s) (q_bad s) (QERegister p (q_cont s) k :: q_tr s) in
  match q_task s p with
  | QPending cs => qset p (QPending (cs ++ [c])) s
  | QFinished v cs => run c v (qset p (QFinished None cs) s)
  | _ => s
  end.

Inductive qact :=
  | AQCreate (h : nat)                (* QmlTask(Task<QVariant> &&), :49-53; the task is not finished *)
  | AQDefault (h : nat)               (* QmlTask(), :45-47 *)
  | AQCopy (h h' : nat)               (* h := a copy of h', :55-56 *)
  | AQDrop (h : nat)                  (* ~QmlTask(), :57 *)
  | AQThen (h : nat) (callable : bool)
  | AQAwait (h : nat) (iv : option nat)
  | AQDone (p v : nat) | AQFail (p : nat)
  | AQResume (p : nat)                (* the next callback of a finished task runs *)
  | AQKill (l : nat).

Definition qperform (x : qact) (s : qst) : option qst :=
  if q_bad s then None else
  match x with
  | AQCreate h =>
      match private h s with
      | Some _ => None
      | None => Some (qset (q_priv s) (QPending []) (Qst ((h, q_priv s) :: q_hand s) (q_task s) (q_dead s) (S (q_priv s)) (q_cont s) (q_lis s) (q_bad s) (QECreate h (q_priv s) :: q_tr s)))
      end
  | AQDefault h =>
      match private h s with
      | Some _ => None
      | None => Some (Qst ((h, q_priv s) :: q_hand s) (q_task s) (q_dead s) (S (q_priv s)) (q_cont s) (q_lis s) (q_bad s) (QEDefault h (q_priv s) :: q_tr s))
      end
  | AQCopy h h' =>
      match private h s, private h' s with
      | None, Some p => Some (Qst ((h, p) :: q_hand s) (q_task s) (q_dead s) (q_priv s) (q_cont s) (q_lis s) (q_bad s) (QECopy h p :: q_tr s))
      | _, _ => None end
  | AQDrop h => Some (Qst (without h (q_hand s)) (q_task s) (q_dead s) (q_priv s) (q_cont s) (q_lis s) (q_bad s) (QEDrop h :: q_tr s))
  | AQThen h callable =>
      match private h s with
      | None => None
      | Some p =>
          Some (if decide (users p s = 1) then
                  match q_task s p with
                  | QNone => qsay (QEWarn h) s                       (* :61-65 *)
                  | _ => if callable then attach p KJs s             (* :72-76 *)
                         else qsay (QEWarn h) s                      (* :67-70 *)
                  end
                else qbad h s)
      end
  | AQAwait h iv =>
      match private h s with
      | None => None
      | Some p =>
          let l := q_lis s in                                        (* :81 *)
          let s := Qst (q_hand s) (q_task s) (q_dead s) (q_priv s) (q_cont s) (S l) (q_bad s) (q_tr s) in
          let s := match iv with Some _ => qsay (QESet l iv) s | None => s end in     (* :82-84 *)
          Some (if decide (users p s = 1) then
                  match q_task s p with
                  | QNone => qbad h s                                (* *optional, :85 *)
                  | _ => attach p (KListen l) s
                  end
                else qbad h s)
      end
  | AQDone p v =>
      match q_task s p with
      | QPending [] => Some (qset p (QFinished (Some v) []) (qsay (QEDone p v) s))
      | QPending (c :: cs) => Some (run c (Some v) (qset p (QFinished None cs) (qsay (QEDone p v) s)))
      | _ => None end
  | AQFail p =>
      match q_task s p with
      | QPending cs => Some (qset p QFailed (qsay (QEFail p) s))
      | _ => None end
  | AQResume p =>
      match q_task s p with
      | QFinished v (c :: cs) => Some (run c v (qset p (QFinished None cs) s))
      | _ => None end
  | AQKill l =>
      if decide (l < q_lis s) then
        Some (Qst (q_hand s) (q_task s) (λ n, if decide (n = l) then true else q_dead s n) (q_priv s) (q_cont s) (q_lis s) (q_bad s) (QEKill l :: q_tr s))
      else None
  end.

Inductive qreach : qst -> Prop :=
  | qreach_0 : qreach qml0
  | qreach_S s s' x : qreach s -> qperform x s = Some s' -> qreach s'.

Fixpoint qplay (l : list qact) (s : qst) : qst :=
  match l with [] => s | a :: l => match qperform a s with Some s' => qplay l s' | None => s end end.
