(** * Specification for C115: functions that call each other and wait, run by cooperative threads.

    An ordinary language with ordinary calls: no coroutine, promise, task or awaiter occurs here. *)
From stdpp Require Import gmap list.
From Verif Require Import TaskModel.

Section spec.
Context {V : Type}.
Notation outcome := (outcome V).

(** A function, at a point of its execution. Coinductive: it may loop forever. *)
CoInductive fn :=
  | FRet (v : V)                                         (* return v *)
  | FThrow (e : exn)                                     (* an exception leaves the function *)
  | FObs (n : nat) (p : fn)                              (* a visible effect *)
  | FWait (c : outcome -> fn)                            (* block until something completes; go on with its outcome *)
  | FCall (k : kind) (body : fn) (c : outcome -> fn).    (* call a function; go on with what it returns or throws *)

(** What one can see, in order: a thread starts; an effect; a thread begins to wait (the n-th wait of the whole program has
    ticket n); the wait with this ticket ends with this outcome. *)
Inductive label := LStart | LObs (n : nat) | LWait | LWake (ticket : nat) (o : outcome).

(** The program: the running thread, if any, with its call stack; the waiting threads by ticket; what happened, newest
    first; the number of waits so far. *)
Definition frames := list (outcome -> fn).
Record program := Program { running : option (fn * frames); waiting : gmap nat ((outcome -> fn) * frames); log : list label; tickets : nat }.
Definition nothing : program := Program None ∅ [] 0.

(** The running thread goes on. A function that ends returns its outcome to the caller. *)
Definition return_to (o : outcome) (ks : frames) : option (fn * frames) :=
  match ks with [] => None | k :: ks => Some (k o, ks) end.
Definition go (P : program) : option program :=
  match running P with
  | None => None
  | Some (p, ks) => Some match p with
      | FRet v => Program (return_to (Val v) ks) (waiting P) (log P) (tickets P)
      | FThrow e => Program (return_to (Exc e) ks) (waiting P) (log P) (tickets P)
      | FObs n p => Program (Some (p, ks)) (waiting P) (LObs n :: log P) (tickets P)
      | FWait c => Program None (<[tickets P := (c, ks)]> (waiting P)) (LWait :: log P) (S (tickets P))
      | FCall _ b c => Program (Some (b, c :: ks)) (waiting P) (log P) (tickets P)
      end
  end.

(** All executions: a thread runs until it ends or waits; then another one is started, or a waiting one continues. *)
Inductive runs : program -> Prop :=
  | runs_nothing : runs nothing
  | runs_go P P' : runs P -> go P = Some P' -> runs P'
  | runs_start P p : runs P -> running P = None -> runs (Program (Some (p, [])) (waiting P) (LStart :: log P) (tickets P))
  | runs_wake P n o c ks : runs P -> running P = None -> waiting P !! n = Some (c, ks) ->
      runs (Program (Some (c o, ks)) (delete n (waiting P)) (LWake n o :: log P) (tickets P)).

(** ** The same program written with QCoro *)

(** Every function is a coroutine, every call "co_await f()" of a Task or LazyTask (a temporary, destroyed at the end of the
    full expression), every wait a co_await of something the event loop completes. *)
CoFixpoint coro (p : fn) : prog V V :=
  match p with
  | FRet v => PRet v
  | FThrow e => PThrow e
  | FObs n p => PObs (OUser n) (coro p)
  | FWait c => PLeaf (λ o, coro (c o))
  | FCall k b c => PCall k [] (λ _, coro b) (λ t, PAwait t (λ o, PDrop t (coro (c o))))
  end.

(** A thread is started by an event handler that calls the coroutine and ignores the Task. *)
Definition handler (dflt : V) (p : fn) : prog V V := PCall KTask [] (λ _, coro p) (λ t, PDrop t (PRet dflt)).

(** All executions of such programs: handlers of this kind are called, awaited things complete. *)
Inductive execs (mv : V -> V) (dflt : V) : state V -> Prop :=
  | execs_init qs : execs mv dflt (init qs)
  | execs_step s s' : execs mv dflt s -> step mv dflt s = Next s' -> execs mv dflt s'
  | execs_start s p s' : execs mv dflt s -> env_step mv dflt (EvHandler (handler dflt p)) s = Next s' -> execs mv dflt s'
  | execs_fire s f o s' : execs mv dflt s -> env_step mv dflt (EvFire f o) s = Next s' -> execs mv dflt s'.

(** What one can see of an execution. The ticket of a wake-up is the number of the last wait of that coroutine. *)
Fixpoint waits (l : list (event V)) : nat :=
  match l with [] => 0 | ELeafWait _ :: l => S (waits l) | _ :: l => waits l end.
Fixpoint ticket (f : fid) (l : list (event V)) : option nat :=
  match l with
  | [] => None
  | ELeafWait g :: l => if decide (f = g) then Some (waits l) else ticket f l
  | _ :: l => ticket f l
  end.
Fixpoint seen (l : list (event V)) : list label :=
  match l with
  | [] => []
  | ECreate _ _ _ (Plain _) :: l => LStart :: seen l
  | EObs _ (OUser n) :: l => LObs n :: seen l
  | ELeafWait _ :: l => LWait :: seen l
  | ELeafWake f o :: l => match ticket f l with Some n => LWake n o :: seen l | None => seen l end
  | _ :: l => seen l
  end.
End spec.
Arguments fn : clear implicits.
Arguments label : clear implicits.
Arguments program : clear implicits.
