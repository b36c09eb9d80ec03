(** * Trace vocabulary for the theorems about the signal based wrappers. Traces and their segments are newest first. *)
From stdpp Require Import list.
From Verif Require Import QtModel.

Section spec.
Context {D S P O A : Type}.
Notation tev := (@tev D S P O A).
Notation src := (@src S P).

(** No connection without context object was left behind by a helper object (see QtModel.helper). *)
Definition noleak (s : @wstate D S P O A) : Prop := ∀ sg, existsb (λ f, f sg) (wleak s) = false.

(** Is this event an emission of what [c] listens to, and with which argument? *)
Definition occurs (c : src) (e : tev) : option P :=
  match c, e with
  | FromDev m, TEmit s p => m s p
  | FromHelper, TReady p => Some p
  | _, _ => None
  end.

(** The arguments of all emissions in a trace segment, oldest first. *)
Definition emissions (c : src) (l : list tev) : list P := omap (occurs c) (reverse l).

(** How much time passed. *)
Fixpoint elapsed (l : list tev) : nat :=
  match l with [] => 0 | TTick :: l => Datatypes.S (elapsed l) | _ :: l => elapsed l end.

(** The state of the object after [l], starting from [d]. *)
Fixpoint dev_after (d : D) (l : list tev) : D :=
  match l with [] => d | TDev d' :: _ => d' | _ :: l => dev_after d l end.

(** All changes of the object in [l] are such that [denv] allows them. *)
Definition behaves (denv : D -> list (S * P) -> D -> Prop) (d : D) (l : list tev) : Prop :=
  ∀ l1 d' l2, l = l1 ++ TDev d' :: l2 -> ∃ ems, denv (dev_after d l2) ems d'.

(** The object's own history: it goes to a new state and then emits the signals that belong to it, as [denv] says;
    [q]: those not yet emitted. *)
Inductive plays (denv : D -> list (S * P) -> D -> Prop) (d : D) : list tev -> list (S * P) -> Prop :=
  | plays_nil : plays denv d [] []
  | plays_dev l d' ems : plays denv d l [] -> denv (dev_after d l) ems d' -> plays denv d (TDev d' :: l) ems
  | plays_emit l sg p q : plays denv d l ((sg, p) :: q) -> plays denv d (TEmit sg p :: l) q
  | plays_other l e q : plays denv d l q -> (match e with TDev _ | TEmit _ _ => False | _ => True end) -> plays denv d (e :: l) q.

(** Nothing visible of the coroutine happened in between. *)
Definition quiet (l : list tev) : Prop := ∀ e, e ∈ l -> match e with TResume _ | TSkip _ | TSusp _ _ | TObs _ | TRet _ => False | _ => True end.

(** [awaited c to l v]: a co_await on [c] with timeout [to] evaluated to [v] after [l] happened since it suspended:
    the first emission, or nothing because the timer fired, after at least the timeout and while the object existed (a
    helper object does as long as the coroutine waits). *)
Definition awaited (c : src) (to : option nat) (l : list tev) (v : option P) : Prop :=
  match v with
  | Some p => head (emissions c l) = Some p ∧ (TExpire ∈ l -> TDestroy ∈ l)
  | None => ∃ n l', to = Some n ∧ l = TExpire :: l' ∧ n ≤ elapsed l' ∧ TExpire ∉ l' ∧ match c with FromDev _ => TDestroy ∉ l' | FromHelper => True end
  end.
End spec.

(** ** Helper objects *)
Section helper.
Context {D S P O A : Type}.
Notation tev := (@tev D S P O A).

(** The helper's slots only look at the object. *)
Definition calm (h : @helper D S P) : Prop := ∀ sg p d b q d', relay h sg p d ≠ Some (b, q, Some d').

(** The emissions of the wrapped object in [l] (newest first; object in state [d] before) to which the helper [h] reacts:
    is the reaction queued, and the argument of ready(). Oldest first. *)
Fixpoint relays (h : @helper D S P) (d : D) (l : list tev) : list (bool * P) :=
  match l with
  | [] => []
  | e :: l => relays h d l ++ match e with
      | TEmit sg p => match relay h sg p (dev_after d l) with Some (b, q, _) => [(b, q)] | None => [] end
      | _ => []
      end
  end.
End helper.

(** ** Calls of wrapper functions *)
Section call.
Context {D S P O A : Type}.
Notation wstate := (@wstate D S P O A).
Notation tev := (@tev D S P O A).

(** Nothing of the caller happened. *)
Definition inside (l : list tev) : Prop := ∀ e, e ∈ l -> match e with TObs _ | TRet _ => False | _ => True end.

(** The coroutine in state [s0] is about to "co_await [p]". In every execution, either it is still inside the call, or in
    undefined behaviour which [U] describes, or the call returned some [b] in state [s2], when [l] had happened since the
    call; then [Q b l s2]. *)
Definition call_spec {B} denv (s0 : wstate) (p : (B -> @wprog D S P O A) -> @wprog D S P O A) (U : @wub -> list tev -> Prop)
    (Q : B -> list tev -> wstate -> Prop) : Prop :=
  ∀ k s, wco s0 = CRun (p k) -> exec denv s0 s ->
    (∃ l, wtrace s = l ++ wtrace s0 ∧ inside l ∧ ∀ u, wubs s = Some u -> U u l) ∨
    (∃ s2 l b, exec denv s0 s2 ∧ exec denv s2 s ∧ wco s2 = CRun (k b) ∧ wubs s2 = None ∧ wtrace s2 = l ++ wtrace s0 ∧ inside l ∧ Q b l s2).

(** [helper_wait h d to l v]: [l] is a complete wait for ready() of the helper object [h] with timeout [to], the wrapped
    object being in state [d] before, and it evaluated to [v]: nothing when the time is up, else the reaction to an emission
    of the wrapped object since, the first one unless [h] uses queued connections. *)
Definition direct (h : @helper D S P) : Prop := ∀ sg q d p o, relay h sg q d ≠ Some (true, p, o).
Definition helper_wait (h : @helper D S P) (d : D) (to : option nat) (l : list tev) (v : option P) : Prop :=
  ∃ lw, l = TResume v :: lw ++ [TSusp FromHelper to] ∧ quiet lw ∧
    match v with
    | None => ∃ n l', to = Some n ∧ lw = TExpire :: l' ∧ n ≤ elapsed l'
    | Some p => (∃ b, (b, p) ∈ relays h d lw) ∧ (direct h -> head (map snd (relays h d lw)) = Some p)
    end.
(** [signal_wait m to l v]: the same for a signal of the wrapped object itself. *)
Definition signal_wait (m : S -> P -> option P) (to : option nat) (l : list tev) (v : option P) : Prop :=
  ∃ lw, l = TResume v :: lw ++ [TSusp (FromDev m) to] ∧ quiet lw ∧
    match v with
    | None => ∃ n l', to = Some n ∧ lw = TExpire :: l' ∧ n ≤ elapsed l' ∧ TDestroy ∉ l'
    | Some p => head (emissions (FromDev m) lw) = Some p
    end.

(** Turns of the event loop: everything that is pending is processed, nothing new happens outside. *)
Inductive turns : wstate -> wstate -> Prop :=
  | turns_refl s : turns s s
  | turns_step s s1 s' : step s = Next s1 -> turns s1 s' -> turns s s'
  | turns_env s e s1 s' : step s = Idle -> wubs s = None -> env_step e s = Next s1 ->
      match e with EvPosted | EvShot | EvTimer => True | _ => False end -> turns s1 s' -> turns s s'.

(** The coroutine in state [s0] is about to "co_await [p]". Whenever [W] holds of what happened since (and no code is
    running), the call returned already, or turns of the event loop suffice to make it return (or run into undefined
    behaviour, see call_spec). *)
Definition call_ends {B} denv (s0 : wstate) (p : (B -> @wprog D S P O A) -> @wprog D S P O A) (W : list tev -> Prop) : Prop :=
  ∀ k s l, wco s0 = CRun (p k) -> exec denv s0 s -> step s = Idle -> wubs s = None -> wtrace s = l ++ wtrace s0 -> W l ->
    (∃ s2 b, exec denv s0 s2 ∧ exec denv s2 s ∧ wco s2 = CRun (k b)) ∨
    ∃ s', turns s s' ∧ ((∃ b, wco s' = CRun (k b)) ∨ is_Some (wubs s')).
End call.
