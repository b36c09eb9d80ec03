(** * Executable model of QCoro::AsyncGenerator.

    Models /repo/qcoro/qcoroasyncgenerator.h: promise, yield/final suspension, begin(), ++, iterators, ownership, swap,
    QCORO_FOREACH. Coroutines are producers (async generator bodies) and consumers (Task coroutines); a producer may
    consume other generators. No proofs in this file.

    Simplifications: a consumer is a Task coroutine whose Task object nobody uses (see TaskModel.v for Task); the leaf
    awaitables are abstracted to a pending completion that the environment may fire at any time, of two kinds: one that
    forgets the coroutine when the coroutine is destroyed ([safe]: a connection whose receiver lives in the frame), and
    one that does not ([safe = false]: co_await on a Task, whose promise keeps the awaiter's handle, qcorotask.h).
    Writing through *it, the && specialisation (:154-168), by-value coroutine parameters and allocation failure are not
    modelled. Resuming a coroutine that is suspended in an unrelated co_await is classified as undefined behaviour. *)
From stdpp Require Import gmap list.

Inductive aactor := Co (f : nat) | Fun (n : nat).
Global Instance aactor_eq_dec : EqDecision aactor.
Proof. solve_decision. Defined.

Inductive aub :=
  | ADeadGen         (* user code touches a destroyed AsyncGenerator object or a non-existing iterator *)
  | ANotCoroutine    (* co_await outside of a coroutine, co_yield outside of a generator: rejected by the compiler *)
  | AUncaught        (* exception leaves a plain function *)
  | ANullHandle      (* promise()/resume() of a null handle *)
  | AFreed           (* access to a destroyed coroutine frame *)
  | AResumeRunning   (* resume of a running coroutine *)
  | AResumeDone      (* resume of a finished coroutine *)
  | AWrongResume     (* resume of a coroutine that waits for something else *)
  | ANullValue       (* *it with m_currentValue == nullptr *)
  | AStaleValue      (* *it while the producer runs on *)
  | ADestroyRunning. (* destroy() of a running coroutine *)

Section model.
Context {V E : Type}.

Inductive aobs := AUser (n : nat) | AGot (v : V).

(** Code of coroutine bodies and plain functions. [ls]: the AsyncGenerator objects that are local variables of the body in
    scope at a suspension point (destroyed with the frame). *)
CoInductive aprog : Type :=
  | ARet
  | AThrow (e : E)
  | AObs (o : aobs) (p : aprog)
  | AYield (v : V) (ls : list nat) (p : aprog)                      (* co_yield v *)
  | ALeaf (safe : bool) (ls : list nat) (c : V -> aprog)            (* co_await of something external *)
  | ASpawn (b : aprog) (p : aprog)                                  (* call a Task coroutine: runs at once *)
  | ANew (b : aprog) (c : nat -> aprog)                             (* call an async generator: a new AsyncGenerator object *)
  | ANull (c : nat -> aprog)                                        (* AsyncGenerator<T> g; *)
  | AMove (g : nat) (c : nat -> aprog)
  | AAssign (g h : nat) (p : aprog)                                 (* g = std::move(h) *)
  | ASwap (g h : nat) (p : aprog)
  | ADrop (g : nat) (p : aprog)
  | ABegin (g : nat) (ls : list nat) (c : nat + E -> aprog)         (* it = co_await g.begin(), or the exception *)
  | AEnd (c : nat -> aprog)
  | ACopy (i : nat) (c : nat -> aprog)
  | AInc (i : nat) (ls : list nat) (c : option E -> aprog)          (* co_await ++i, or the exception *)
  | ADeref (i : nat) (c : V -> aprog)
  | AEq (i j : nat) (c : bool -> aprog).

Inductive astatus :=
  | SInit (b : aprog)                                               (* initial_suspend, :37 *)
  | SRun
  | SYield (v : V) (ls : list nat) (p : aprog)                      (* in co_yield, :76-92, 135-143 *)
  | SLeaf (pid : nat) (safe : bool) (ls : list nat) (c : V -> aprog)
  | SBegin (f : nat) (ls : list nat) (c : nat + E -> aprog)         (* in co_await begin(), waiting for producer f *)
  | SInc (i f : nat) (ls : list nat) (c : option E -> aprog)        (* in co_await ++i, waiting for producer f *)
  | SFinal.                                                         (* final_suspend, :94-97 *)

(** [aprod]: producer or consumer; [anonnull]: m_currentValue != nullptr (:73); [aexc]: m_exception (:69); [acons]:
    m_consumerCoroutine (:70). *)
Record aframe := AFrame { aprod : bool; astat : astatus; anonnull : bool; aexc : option E; acons : option nat }.
Definition fr_stat (x : astatus) (fr : aframe) := AFrame (aprod fr) x (anonnull fr) (aexc fr) (acons fr).
Definition fr_cons (c : nat) (fr : aframe) := AFrame (aprod fr) (astat fr) (anonnull fr) (aexc fr) (Some c).
Definition fr_exc (e : option E) (fr : aframe) := AFrame (aprod fr) (astat fr) (anonnull fr) e (acons fr).

(** Call stack: running code (symmetric transfer replaces the topmost activation); destructors of local objects. *)
Inductive aitem := ARun (w : aactor) (p : aprog) | ADrops (l : list nat).

Inductive aact :=
  | XNull (g : nat) | XMove (g : nat) | XAssign (old : option nat) | XSwap | XDrop (g : nat)
  | XBeginEmpty (i : nat)                (* begin() on an empty generator: end iterator, no suspension *)
  | XEnd (i : nat) | XCopy (i : nat) | XDeref (f : nat) (v : V) | XEq (b : bool) | XNew (g f : nat) | XSpawn (f : nat).

(** Outcome of an awaited begin()/++: an iterator to a value, the end iterator, an exception. *)
Inductive aout := OValue | OEnd | OExc (e : E).

Inductive aevent :=
  | AENew (f : nat) (b : aprog)                 (* async generator f is called *)
  | AESpawn (f : nat) (b : aprog)               (* Task coroutine f is called and starts *)
  | AEAdv (c f : nat) (i : option nat)          (* coroutine c awaits begin() (None) / ++i (Some i) of f; f is resumed *)
  | AEBack (c f : nat) (i : nat) (o : aout)     (* c's co_await on f completes; i: its iterator *)
  | AEYield (f : nat) (v : V)
  | AEFinish (f : nat) (r : option E)           (* producer body ends *)
  | AEEnd (c : nat) (r : option E)              (* consumer coroutine ends, its frame is destroyed *)
  | AELeaf (f : nat) (safe : bool)              (* f suspends in an external co_await *)
  | AEFire (f : nat) (v : V)                    (* ... which completes *)
  | AEDestroy (f : nat)
  | AEObs (w : aactor) (o : aobs)
  | AEAct (w : aactor) (a : aact).

(** [agens]: AsyncGenerator objects and their m_coroutine; [aiters]: iterators; [apend]: pending external completions and
    the coroutine handle each of them will resume; [atrace]: newest first. *)
Record astate := AState {
  aheap : gmap nat aframe;
  agens : gmap nat (option nat);
  aiters : gmap nat (option nat);
  apend : gmap nat nat;
  astack : list aitem;
  atrace : list aevent;
  anf : nat; ang : nat; ani : nat; anp : nat;
}.
Definition ainit : astate := AState ∅ ∅ ∅ ∅ [] [] 0 0 0 0.
Inductive ares := ANext (s : astate) | AUB (r : aub) | AIdle.

Definition aset_heap h s := AState h (agens s) (aiters s) (apend s) (astack s) (atrace s) (anf s) (ang s) (ani s) (anp s).
Definition aset_gens g s := AState (aheap s) g (aiters s) (apend s) (astack s) (atrace s) (anf s) (ang s) (ani s) (anp s).
Definition aset_iters i s := AState (aheap s) (agens s) i (apend s) (astack s) (atrace s) (anf s) (ang s) (ani s) (anp s).
Definition aset_pend p s := AState (aheap s) (agens s) (aiters s) p (astack s) (atrace s) (anf s) (ang s) (ani s) (anp s).
Definition aset_stack st s := AState (aheap s) (agens s) (aiters s) (apend s) st (atrace s) (anf s) (ang s) (ani s) (anp s).
Definition aemit e s := AState (aheap s) (agens s) (aiters s) (apend s) (astack s) (e :: atrace s) (anf s) (ang s) (ani s) (anp s).
Definition apush i s := aset_stack (i :: astack s) s.
Definition aset_frame f fr s := aset_heap (<[f := fr]> (aheap s)) s.
(** A new object / iterator / coroutine id. *)
Definition anew_gen h s := AState (aheap s) (<[ang s := h]> (agens s)) (aiters s) (apend s) (astack s) (atrace s) (anf s) (S (ang s)) (ani s) (anp s).
Definition anew_iter h s := AState (aheap s) (agens s) (<[ani s := h]> (aiters s)) (apend s) (astack s) (atrace s) (anf s) (ang s) (S (ani s)) (anp s).
Definition anew_frame fr s := AState (<[anf s := fr]> (aheap s)) (agens s) (aiters s) (apend s) (astack s) (atrace s) (S (anf s)) (ang s) (ani s) (anp s).
Definition anew_pend f s := AState (aheap s) (agens s) (aiters s) (<[anp s := f]> (apend s)) (astack s) (atrace s) (anf s) (ang s) (ani s) (S (anp s)).

(** Transfer from a coroutine that awaits begin()/++ to the producer: IteratorAwaitableBase::await_suspend, :117-120. *)
Definition ago (c f : nat) (i : option nat) (s : astate) : ares :=
  match aheap s !! f with
  | None => AUB AFreed
  | Some fr =>
    let run p := ANext (apush (ARun (Co f) p) (aemit (AEAdv c f i) (aset_frame f (fr_stat SRun (fr_cons c fr)) s))) in
    match astat fr with
    | SInit b => run b
    | SYield _ _ p => run p
    | SRun => AUB AResumeRunning
    | SFinal => AUB AResumeDone
    | SLeaf _ _ _ _ | SBegin _ _ _ | SInc _ _ _ _ => AUB AWrongResume
    end
  end.

(** Transfer from producer [f] (at co_yield or its end) to m_consumerCoroutine [c] (:84-86), whose co_await continues:
    BeginIteratorAwaitable::await_resume (:339-349), IncrementIteratorAwaitable::await_resume (:184-190). [fr]: f's frame. *)
Definition aback (f : nat) (fr : aframe) (oc : option nat) (s : astate) : ares :=
  match oc with
  | None => AUB ANullHandle
  | Some c =>
    match aheap s !! c with
    | None => AUB AFreed
    | Some cf =>
      let out := if anonnull fr then OValue else match aexc fr with Some e => OExc e | None => OEnd end in
      (* rethrow_exception(std::move(m_exception)), :55-59 *)
      let s1 := match out with OExc _ => aset_frame f (fr_exc None fr) s | _ => s end in
      let resumed := match aheap s1 !! c with Some cf => aset_frame c (fr_stat SRun cf) s1 | None => s1 end in
      match astat cf with
      | SBegin f' _ k =>
        if decide (f' = f) then
          let i := ani s in
          match out with
          | OValue => ANext (apush (ARun (Co c) (k (inl i))) (aemit (AEBack c f i out) (anew_iter (Some f) resumed)))
          | OEnd => ANext (apush (ARun (Co c) (k (inl i))) (aemit (AEBack c f i out) (anew_iter None resumed)))
          | OExc e => ANext (apush (ARun (Co c) (k (inr e))) (aemit (AEBack c f i out) resumed))
          end
        else AUB AWrongResume
      | SInc i f' _ k =>
        if decide (f' = f) then
          match out with
          | OValue => ANext (apush (ARun (Co c) (k None)) (aemit (AEBack c f i out) resumed))
          | OEnd => ANext (apush (ARun (Co c) (k None)) (aemit (AEBack c f i out) (aset_iters (<[i := None]> (aiters s)) resumed)))
          | OExc e => ANext (apush (ARun (Co c) (k (Some e))) (aemit (AEBack c f i out) (aset_iters (<[i := None]> (aiters s)) resumed)))
          end
        else AUB AWrongResume
      | SRun => AUB AResumeRunning
      | SFinal => AUB AResumeDone
      | _ => AUB AWrongResume
      end
    end
  end.

(** coroutine_handle::destroy(). *)
Definition adestroy (f : nat) (s : astate) : ares :=
  match aheap s !! f with
  | None => AUB AFreed
  | Some fr =>
    let go ls s' := ANext (apush (ADrops ls) (aemit (AEDestroy f) (aset_heap (delete f (aheap s')) s'))) in
    match astat fr with
    | SRun => AUB ADestroyRunning
    | SLeaf pid safe ls _ => go ls (if safe then aset_pend (delete pid (apend s)) s else s)
    | SYield _ ls _ | SBegin _ ls _ | SInc _ _ ls _ => go ls s
    | SInit _ | SFinal => go [] s
    end
  end.

(** ~AsyncGenerator, :298-302. *)
Definition adrop (g : nat) (s : astate) : ares :=
  match agens s !! g with
  | None => AUB ADeadGen
  | Some h =>
    let s1 := aset_gens (delete g (agens s)) s in
    match h with
    | None => ANext s1
    | Some f => adestroy f s1
    end
  end.

(** One step of code of [w]; [s] has w's activation removed. *)
Definition astep_user (w : aactor) (p : aprog) (s : astate) : ares :=
  let go p' s' := ANext (apush (ARun w p') s') in
  match p with
  | ARet =>
    match w with
    | Fun _ => ANext s
    | Co f =>
      match aheap s !! f with
      | None => AUB AFreed
      | Some fr =>
        if aprod fr then
          (* return_void, final_suspend (:94-97): m_currentValue = nullptr, transfer to the consumer *)
          let fr' := AFrame true SFinal false (aexc fr) (acons fr) in
          aback f fr' (acons fr) (aemit (AEFinish f None) (aset_frame f fr' s))
        else ANext (aemit (AEEnd f None) (aset_heap (delete f (aheap s)) s))
      end
    end
  | AThrow e =>
    match w with
    | Fun _ => AUB AUncaught
    | Co f =>
      match aheap s !! f with
      | None => AUB AFreed
      | Some fr =>
        if aprod fr then
          (* unhandled_exception (:41-43), final_suspend *)
          let fr' := AFrame true SFinal false (Some e) (acons fr) in
          aback f fr' (acons fr) (aemit (AEFinish f (Some e)) (aset_frame f fr' s))
        else ANext (aemit (AEEnd f (Some e)) (aset_heap (delete f (aheap s)) s))
      end
    end
  | AObs o p' => go p' (aemit (AEObs w o) s)
  | AYield v ls p' =>
    match w with
    | Fun _ => AUB ANotCoroutine
    | Co f =>
      match aheap s !! f with
      | None => AUB AFreed
      | Some fr =>
        if aprod fr then
          (* yield_value (:135-143), AsyncGeneratorYieldOperation (:76-92) *)
          let fr' := AFrame true (SYield v ls p') true (aexc fr) (acons fr) in
          aback f fr' (acons fr) (aemit (AEYield f v) (aset_frame f fr' s))
        else AUB ANotCoroutine
      end
    end
  | ALeaf safe ls c =>
    match w with
    | Fun _ => AUB ANotCoroutine
    | Co f =>
      match aheap s !! f with
      | None => AUB AFreed
      | Some fr => ANext (anew_pend f (aemit (AELeaf f safe) (aset_frame f (fr_stat (SLeaf (anp s) safe ls c) fr) s)))
      end
    end
  | ASpawn b p' =>
    let f := anf s in
    ANext (apush (ARun (Co f) b) (apush (ARun w p') (aemit (AESpawn f b) (aemit (AEAct w (XSpawn f)) (anew_frame (AFrame false SRun false None None) s)))))
  | ANew b c =>
    (* get_return_object, :377-379 *)
    let f := anf s in
    go (c (ang s)) (aemit (AENew f b) (aemit (AEAct w (XNew (ang s) f)) (anew_gen (Some f) (anew_frame (AFrame true (SInit b) false None None) s))))
  | ANull c => go (c (ang s)) (aemit (AEAct w (XNull (ang s))) (anew_gen None s))
  | AMove g c =>
    (* :292-295 *)
    match agens s !! g with
    | None => AUB ADeadGen
    | Some h => go (c (ang s)) (aemit (AEAct w (XMove (ang s))) (anew_gen h (aset_gens (<[g := None]> (agens s)) s)))
    end
  | AAssign g g2 p' =>
    (* :305-309: no destroy(), no self check *)
    match agens s !! g, agens s !! g2 with
    | Some old, Some h => go p' (aemit (AEAct w (XAssign old)) (aset_gens (<[g2 := None]> (<[g := h]> (agens s))) s))
    | _, _ => AUB ADeadGen
    end
  | ASwap g g2 p' =>
    (* :360-363, 369-372 *)
    match agens s !! g, agens s !! g2 with
    | Some h, Some h2 => go p' (aemit (AEAct w XSwap) (aset_gens (<[g2 := h]> (<[g := h2]> (agens s))) s))
    | _, _ => AUB ADeadGen
    end
  | ADrop g p' => adrop g (apush (ARun w p') (aemit (AEAct w (XDrop g)) s))
  | ABegin g ls c =>
    (* :327-353 *)
    match w with
    | Fun _ => AUB ANotCoroutine
    | Co cf =>
      match agens s !! g with
      | None => AUB ADeadGen
      | Some None => go (c (inl (ani s))) (aemit (AEAct w (XBeginEmpty (ani s))) (anew_iter None s))
      | Some (Some f) =>
        match aheap s !! cf with
        | None => AUB AFreed
        | Some fr => ago cf f None (aset_frame cf (fr_stat (SBegin f ls c) fr) s)
        end
      end
    end
  | AEnd c => go (c (ani s)) (aemit (AEAct w (XEnd (ani s))) (anew_iter None s))
  | ACopy i c =>
    match aiters s !! i with
    | None => AUB ADeadGen
    | Some h => go (c (ani s)) (aemit (AEAct w (XCopy (ani s))) (anew_iter h s))
    end
  | AInc i ls c =>
    (* :178-194, 220-222: iterator.m_coroutine.promise() *)
    match w with
    | Fun _ => AUB ANotCoroutine
    | Co cf =>
      match aiters s !! i with
      | None => AUB ADeadGen
      | Some None => AUB ANullHandle
      | Some (Some f) =>
        match aheap s !! cf with
        | None => AUB AFreed
        | Some fr => ago cf f (Some i) (aset_frame cf (fr_stat (SInc i f ls c) fr) s)
        end
      end
    end
  | ADeref i c =>
    (* :227-229 *)
    match aiters s !! i with
    | None => AUB ADeadGen
    | Some None => AUB ANullHandle
    | Some (Some f) =>
      match aheap s !! f with
      | None => AUB AFreed
      | Some fr =>
        if anonnull fr then
          match astat fr with
          | SYield v _ _ => go (c v) (aemit (AEAct w (XDeref f v)) s)
          | _ => AUB AStaleValue
          end
        else AUB ANullValue
      end
    end
  | AEq i j c =>
    match aiters s !! i, aiters s !! j with
    | Some h, Some h' => let b := bool_decide (h = h') in go (c b) (aemit (AEAct w (XEq b)) s)
    | _, _ => AUB ADeadGen
    end
  end.

Definition astep (s : astate) : ares :=
  match astack s with
  | [] => AIdle
  | ARun w p :: st => astep_user w p (aset_stack st s)
  | ADrops [] :: st => ANext (aset_stack st s)
  | ADrops (g :: l) :: st => adrop g (aset_stack (ADrops l :: st) s)
  end.

(** The environment: plain functions are called and pending completions fire, in any order, when no code runs. *)
Inductive aenv := EvCall (p : aprog) | EvFire (pid : nat) (v : V).
Definition aenv_step (e : aenv) (s : astate) : ares :=
  match astack s with
  | _ :: _ => AIdle
  | [] =>
    match e with
    | EvCall p => ANext (AState (aheap s) (agens s) (aiters s) (apend s) [ARun (Fun (anf s)) p] (atrace s) (S (anf s)) (ang s) (ani s) (anp s))
    | EvFire pid v =>
      match apend s !! pid with
      | None => AIdle
      | Some f =>
        match aheap s !! f with
        | None => AUB AFreed
        | Some fr =>
          match astat fr with
          | SLeaf pid' _ _ c =>
            if decide (pid' = pid)
            then ANext (apush (ARun (Co f) (c v)) (aemit (AEFire f v) (aset_frame f (fr_stat SRun fr) (aset_pend (delete pid (apend s)) s))))
            else AUB AWrongResume
          | _ => AUB AWrongResume
          end
        end
      end
    end
  end.

Inductive aexec : astate -> astate -> Prop :=
  | aexec_refl s : aexec s s
  | aexec_step s s1 s2 : aexec s s1 -> astep s1 = ANext s2 -> aexec s s2
  | aexec_env s s1 s2 e : aexec s s1 -> aenv_step e s1 = ANext s2 -> aexec s s2.
Definition areach (s : astate) : Prop := aexec ainit s.

(** Loop bodies of consumers: visible effects and own co_awaits. *)
Inductive bop := BObs (n : nat) | BLeaf (safe : bool).
(** The loop of QCORO_FOREACH(v, g) { got(v); body(v) }, :402-407: at its condition ([m = None]) or with [l] left of the
    loop body ([m = Some l]). *)
CoFixpoint aloop (m : option (list bop)) (i e : nat) (ls : list nat) (body : V -> list bop) (k : option E -> aprog) : aprog :=
  match m with
  | None => AEq i e (λ b, if b then k None else ADeref i (λ v, AObs (AGot v) (aloop (Some (body v)) i e ls body k)))
  | Some [] => AInc i ls (λ r, match r with None => aloop None i e ls body k | Some x => k (Some x) end)
  | Some (BObs n :: l) => AObs (AUser n) (aloop (Some l) i e ls body k)
  | Some (BLeaf safe :: l) => ALeaf safe ls (λ _, aloop (Some l) i e ls body k)
  end.
(** QCORO_FOREACH(v, g) { got(v); body(v) }; then [k None], or [k (Some e)] if the iteration throws e. *)
Definition aforeach (g : nat) (ls : list nat) (body : V -> list bop) (k : option E -> aprog) : aprog :=
  ABegin g ls (λ r, match r with inl i => AEnd (λ e, aloop None i e ls body k) | inr x => k (Some x) end).
End model.
Arguments aobs : clear implicits.
Arguments aprog : clear implicits.
Arguments astatus : clear implicits.
Arguments aframe : clear implicits.
Arguments aitem : clear implicits.
Arguments aact : clear implicits.
Arguments aout : clear implicits.
Arguments aevent : clear implicits.
Arguments astate : clear implicits.
Arguments ares : clear implicits.
Arguments aenv : clear implicits.
