(** * Specification of Task/LazyTask behaviour as a predicate on traces.

    This file does not mention the machine: it says which sequences of observable events are allowed.
    Traces are lists of events, newest first; "history" of an event = the list after it. *)
From stdpp Require Import gmap list.
From Verif Require Import TaskModel.

Section spec.
Context {V : Type} (mv : V -> V) (dflt : V).
Notation event := (event V).

(** Life of a coroutine as seen in a history. *)
Inductive phase :=
  | PhNone            (* not created *)
  | PhInit            (* created, body not started *)
  | PhRun             (* body is executing *)
  | PhWait (h : nat)  (* suspended on coroutine h *)
  | PhLeaf            (* suspended on an event-loop awaitable *)
  | PhHung            (* suspended on an empty Task *)
  | PhFin             (* body ended, frame exists *)
  | PhGone.           (* frame destroyed *)

Definition phase1 (f : nat) (e : event) (p : phase) : phase :=
  match e with
  | ECreate g _ _ _ => if decide (f = g) then PhInit else p
  | EStart g => if decide (f = g) then PhRun else p
  | EFinish g _ => if decide (f = g) then PhFin else p
  | EDestroy g => if decide (f = g) then PhGone else p
  | EWait g h => if decide (f = g) then PhWait h else p
  | EWake g _ _ => if decide (f = g) then PhRun else p
  | EHang g => if decide (f = g) then PhHung else p
  | ELeafWait g => if decide (f = g) then PhLeaf else p
  | ELeafWake g _ => if decide (f = g) then PhRun else p
  | _ => p
  end.

Fixpoint phase_of (f : nat) (tr : list event) : phase :=
  match tr with [] => PhNone | e :: l => phase1 f e (phase_of f l) end.

(** Coroutines that started waiting on [h] and have not been resumed yet, oldest first. *)
Fixpoint queue (h : nat) (tr : list event) : list nat :=
  match tr with
  | [] => []
  | EWait f g :: l => if decide (h = g) then queue h l ++ [f] else queue h l
  | EWake f g _ :: l => if decide (h = g) then tail (queue h l) else queue h l
  | _ :: l => queue h l
  end.

(** What the next consumer of [h] obtains: the outcome with which its body ended; a value is moved out by
    every consumer, an exception is not. *)
Fixpoint result_of (h : nat) (tr : list event) : option (outcome V) :=
  match tr with
  | [] => None
  | EFinish g o :: l => if decide (h = g) then Some o else result_of h l
  | EWake _ g _ :: l | ENow _ g _ :: l =>
      if decide (h = g) then consumed mv <$> result_of h l else result_of h l
  | _ :: l => result_of h l
  end.

Definition unfinished (p : phase) : Prop :=
  match p with PhInit | PhRun | PhWait _ | PhLeaf | PhHung => True | _ => False end.

Definition actor_runs (w : actor) (l : list event) : Prop :=
  match w with Co f => phase_of f l = PhRun | Plain _ => True end.

(** [legal e l]: event [e] may happen after history [l]. *)
Definition legal (e : event) (l : list event) : Prop :=
  match e with
  | ECreate f k b w => phase_of f l = PhNone ∧ actor_runs w l
  | EStart f =>
      phase_of f l = PhInit ∧
      ((∃ b w l', l = ECreate f KTask b w :: l') ∨
       (∃ g l', l = EWait g f :: l' ∧ ∃ b w, ECreate f KLazy b w ∈ l'))
  | EFinish f o => phase_of f l = PhRun
  | EDestroy f => phase_of f l = PhFin ∧ queue f l = []
  | EWait f h => phase_of f l = PhRun ∧ unfinished (phase_of h l)
  | EWake f h o =>
      phase_of f l = PhWait h ∧ phase_of h l = PhFin ∧ head (queue h l) = Some f ∧ result_of h l = Some o
  | ENow f h o => phase_of f l = PhRun ∧ phase_of h l = PhFin ∧ result_of h l = Some o
  | EHang f | ELeafWait f => phase_of f l = PhRun
  | ELeafWake f o => phase_of f l = PhLeaf
  | EObs w _ | EAct w _ | EWaitCall w _ _ _ | EWaitRet w _ _ => actor_runs w l
  | EKill _ | ELoop _ => True
  end.

Fixpoint legal_trace (tr : list event) : Prop :=
  match tr with [] => True | e :: l => legal e l ∧ legal_trace l end.

(** ** Local events of one actor and runs of a program *)
Inductive lev :=
  | LObs (o : obs V)
  | LAct (a : act)
  | LAwait (o : outcome V)
  | LLeaf (o : outcome V)
  | LWaitRet (o : outcome V)
  | LFinish (o : outcome V).

(** [adv p l r]: program [p] performs [l] and becomes [r] ([None]: it has ended). *)
Inductive adv : prog V V -> lev -> option (prog V V) -> Prop :=
  | adv_ret v : adv (PRet v) (LFinish (Val v)) None
  | adv_throw e : adv (PThrow e) (LFinish (Exc e)) None
  | adv_obs o p : adv (PObs o p) (LObs o) (Some p)
  | adv_call k ps b c t f ps' : adv (PCall k ps b c) (LAct (ACall t f ps')) (Some (c t))
  | adv_await x c o : adv (PAwait x c) (LAwait o) (Some (c o))
  | adv_leaf c o : adv (PLeaf c) (LLeaf o) (Some (c o))
  | adv_null k c t : adv (PNull k c) (LAct (ANull t)) (Some (c t))
  | adv_move x c t : adv (PMove x c) (LAct (AMove t)) (Some (c t))
  | adv_assign x y p : adv (PAssign x y p) (LAct AAssign) (Some p)
  | adv_drop x p : adv (PDrop x p) (LAct (ADrop x)) (Some p)
  | adv_ready x c b : adv (PReady x c) (LAct (AReady b)) (Some (c b))
  | adv_waitfor vd x c o : adv (PWaitFor vd x c) (LWaitRet o) (Some (c o))
  | adv_alive q c b : adv (PAlive q c) (LAct (AAlive q b)) (Some (c b))
  | adv_kill q p : adv (PKill q p) (LAct AKill) (Some p).

(** [walk p l r]: a run of [p]; [l] lists the local events, newest first. *)
Inductive walk (p : prog V V) : list lev -> option (prog V V) -> Prop :=
  | walk_nil : walk p [] (Some p)
  | walk_cons l q e r : walk p l (Some q) -> adv q e r -> walk p (e :: l) r.

(** Local events of actor [w] in a trace. *)
Definition proj1 (w : actor) (e : event) : list lev :=
  match e with
  | EObs w' o => if decide (w = w') then [LObs o] else []
  | EAct w' a => if decide (w = w') then [LAct a] else []
  | EWake f _ o | ENow f _ o => if decide (w = Co f) then [LAwait o] else []
  | ELeafWake f o => if decide (w = Co f) then [LLeaf o] else []
  | EWaitRet w' _ o => if decide (w = w') then [LWaitRet o] else []
  | EFinish f o => if decide (w = Co f) then [LFinish o] else []
  | _ => []
  end.
Definition proj (w : actor) (tr : list event) : list lev := flat_map (proj1 w) tr.

(** The same for the code of a coroutine, which may be the library's [runCoroutine] (waitfor.h:44-64). *)
Inductive cadv : code V -> lev -> option (code V) -> Prop :=
  | cadv_user p l r : adv p l r -> cadv (CUser p) l (CUser <$> r)
  | cadv_wait i x h o : cadv (CWaitStart i x h) (LAwait o) (Some (CWaitSet i o))
  | cadv_set i o : cadv (CWaitSet i o) (LFinish (Val dflt)) None.

Inductive cwalk (c : code V) : list lev -> option (code V) -> Prop :=
  | cwalk_nil : cwalk c [] (Some c)
  | cwalk_cons l q e r : cwalk c l (Some q) -> cadv q e r -> cwalk c (e :: l) r.

(** ** Eager start: who executes an event, and coroutines that have not yet left their first run *)
Definition by_actor (e : event) : option actor :=
  match e with
  | EObs w _ | EAct w _ | EWaitCall w _ _ _ | EWaitRet w _ _ | ECreate _ _ _ w => Some w
  | EFinish f _ | EWait f _ | EHang f | ELeafWait f | ENow f _ _ | EWake f _ _ | ELeafWake f _ => Some (Co f)
  | EStart _ | EDestroy _ | EKill _ | ELoop _ => None
  end.

(** Does [e] end an uninterrupted run of coroutine [f]? *)
Definition leaves (f : nat) (e : event) : Prop :=
  match e with
  | EWait g _ | EHang g | ELeafWait g | EFinish g _ => g = f
  | _ => False
  end.
Definition never_left (f : nat) (tr : list event) : Prop := ∀ e, e ∈ tr -> ¬ leaves f e.

(** In every prefix: while an eagerly started coroutine is in its first run, its caller does nothing. *)
Fixpoint eager_trace (tr : list event) : Prop :=
  match tr with
  | [] => True
  | e :: l => (∀ f b w, ECreate f KTask b w ∈ l -> never_left f l -> by_actor e ≠ Some w) ∧ eager_trace l
  end.

(** ** QObject lifetime: [qs] are the objects alive at the start *)
Definition alive_in (qs : gset nat) (q : nat) (tr : list event) : Prop := q ∈ qs ∧ EKill q ∉ tr.

Fixpoint alive_trace (qs : gset nat) (tr : list event) : Prop :=
  match tr with
  | [] => True
  | e :: l =>
    match e with
    | EAct _ (AAlive q b) => b = true <-> alive_in qs q l
    | EObs (Co f) o => ∀ q, head (proj (Co f) l) = Some (LAct (AAlive q true)) -> alive_in qs q l
    | _ => True
    end ∧ alive_trace qs l
  end.

(** ** waitFor() *)
Definition delivered (f h : nat) (o : outcome V) (tr : list event) : Prop :=
  EWake f h o ∈ tr ∨ ENow f h o ∈ tr.

(** In every prefix: waitFor() returns an outcome that its coroutine obtained from the awaited task (unless the
    environment quits nested loops, [q]); it enters the nested event loop only if the task has not finished. *)
Fixpoint wait_trace (q : bool) (tr : list event) : Prop :=
  match tr with
  | [] => True
  | e :: l =>
    match e with
    | EWaitRet w i o => q = false -> ∃ f h, EWaitCall w i f (Some h) ∈ l ∧ delivered f h o l
    | ELoop i => ∃ w f hd, EWaitCall w i f hd ∈ l ∧ ∀ h o, hd = Some h -> EFinish h o ∉ l
    | _ => True
    end ∧ wait_trace q l
  end.


(** ** Derived views of a trace, all oldest first *)
(** Coroutines that started waiting on [h]; coroutines resumed by [h]; outcomes handed out by [h]. *)
Fixpoint waits (h : nat) (tr : list event) : list nat :=
  match tr with
  | [] => []
  | EWait f g :: l => if decide (h = g) then waits h l ++ [f] else waits h l
  | _ :: l => waits h l
  end.
Fixpoint wakes (h : nat) (tr : list event) : list nat :=
  match tr with
  | [] => []
  | EWake f g _ :: l => if decide (h = g) then wakes h l ++ [f] else wakes h l
  | _ :: l => wakes h l
  end.

Fixpoint deliveries (h : nat) (tr : list event) : list (outcome V) :=
  match tr with
  | [] => []
  | EWake _ g o :: l | ENow _ g o :: l => if decide (h = g) then deliveries h l ++ [o] else deliveries h l
  | _ :: l => deliveries h l
  end.


(** ** Internal steps of the machine (no environment event in between) *)
Inductive steps : state V -> state V -> Prop :=
  | steps_refl s : steps s s
  | steps_cons s s1 s2 : TaskModel.step mv dflt s = Next s1 -> steps s1 s2 -> steps s s2.


(** ** then() and connect(): what the coroutine does after its co_await delivered [o].
    [l] is a list of local events, newest first; [l = []]: it has done nothing yet. *)
Definition then_run (cb : V -> prog V V) (err : option (exn -> prog V unit)) (o : outcome V) (l : list lev) : Prop :=
  match o with
  | Val v => l = [] ∨ ∃ l' r, l = l' ++ [LObs (OThen v)] ∧ walk (cb v) l' r
  | Exc (StdExn n) =>
    match err with
    | None => l = [] ∨ l = [LFinish (Exc (StdExn n))]
    | Some h => l = [] ∨ ∃ l' r, l = l' ++ [LObs (OErr (StdExn n))] ∧
                  walk (pbind (h (StdExn n)) (λ _, PRet dflt)) l' r
    end
  | Exc (OtherExn n) => l = [] ∨ l = [LFinish (Exc (OtherExn n))]
  end.

(** [busy]: the coroutine is on the call stack, its run may be incomplete. *)
Definition connect_run (busy : Prop) (q : nat) (cb : V -> prog V V) (o : outcome V) (l : list lev) : Prop :=
  match o with
  | Exc e => busy ∧ l = [] ∨ l = [LFinish (Exc e)]
  | Val v => busy ∧ (l = [] ∨ l = [LObs (OThen v)]) ∨
     ∃ b l', l = l' ++ [LAct (AAlive q b); LObs (OThen v)] ∧
      if b then busy ∧ l' = [] ∨ ∃ l2 r, l' = l2 ++ [LObs (OConn q v)] ∧ walk (cb v) l2 r
      else busy ∧ l' = [] ∨ l' = [LFinish (Val dflt)]
  end.


End spec.
