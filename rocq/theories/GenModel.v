(** * Executable model of QCoro::Generator (synchronous generators).

    Models /repo/qcoro/qcorogenerator.h (GeneratorPromise, GeneratorIterator, Generator). Generator bodies may create and
    iterate other generators. No proofs in this file.

    Not modelled: by-value generator parameters of generator coroutines; allocation failure; the type-level deletion of
    co_await in a generator body (qcorogenerator.h:122-123: bodies here simply have no co_await). *)
From stdpp Require Import gmap list.

(** Who executes code: the body of the generator coroutine [Gen f], or a plain function. *)
Inductive gactor := Gen (f : nat) | Fun (n : nat).
Global Instance gactor_eq_dec : EqDecision gactor.
Proof. solve_decision. Defined.

Inductive gub :=
  | GDeadGen         (* user code touches a destroyed Generator object or a non-existing iterator *)
  | GYieldOutside    (* co_yield outside of a generator: rejected by the compiler *)
  | GUncaught        (* exception leaves a plain event handler: std::terminate *)
  | GNullHandle      (* resume()/promise() through a null coroutine handle *)
  | GFreed           (* access to a destroyed coroutine frame *)
  | GResumeRunning   (* resume() of a coroutine that is running *)
  | GResumeDone      (* resume() of a coroutine at its final suspend point *)
  | GNullValue       (* dereference of mValue == nullptr *)
  | GStaleValue      (* dereference of mValue while the body runs on: the value may be gone *)
  | GDestroyRunning. (* destroy() of a running coroutine *)

Section model.
(** [V]: yielded values; [E]: exceptions. *)
Context {V E : Type}.

Inductive gobs := GUser (n : nat) | GGot (v : V).

(** Code of generator bodies and of their users: everything that can be done with the Generator API. *)
CoInductive gprog (A : Type) : Type :=
  | GRet (a : A)
  | GThrow (e : E)
  | GObs (o : gobs) (p : gprog A)                              (* any visible effect *)
  | GYield (v : V) (ls : list nat) (c : V -> gprog A)
      (* co_yield x: the value lives in the frame, the consumer may overwrite it, [c] gets it back after resumption;
         [ls]: the Generator objects that are local variables of the body in scope here *)
  | GNew (b : gprog unit) (c : nat -> gprog A)                 (* call a generator coroutine: a new Generator object *)
  | GNull (c : nat -> gprog A)                                 (* Generator<T> g; *)
  | GMove (g : nat) (c : nat -> gprog A)                       (* Generator h(std::move(g)) *)
  | GAssign (g h : nat) (p : gprog A)                          (* g = std::move(h) *)
  | GDrop (g : nat) (p : gprog A)                              (* g goes out of scope *)
  | GBegin (g : nat) (c : nat + E -> gprog A)                  (* auto it = g.begin(), or the exception *)
  | GEnd (c : nat -> gprog A)                                  (* auto it = g.end() *)
  | GCopy (i : nat) (c : nat -> gprog A)                       (* auto j = i *)
  | GInc (i : nat) (c : option E -> gprog A)                   (* ++i, or the exception *)
  | GDeref (i : nat) (c : V -> gprog A)                        (* *i *)
  | GWrite (i : nat) (v : V) (p : gprog A)                     (* *i = v *)
  | GEq (i j : nat) (c : bool -> gprog A).                     (* i == j *)

Arguments GRet {A}. Arguments GThrow {A}. Arguments GObs {A}. Arguments GYield {A}.
Arguments GNew {A}. Arguments GNull {A}. Arguments GMove {A}. Arguments GAssign {A}.
Arguments GDrop {A}. Arguments GBegin {A}. Arguments GEnd {A}. Arguments GCopy {A}.
Arguments GInc {A}. Arguments GDeref {A}. Arguments GWrite {A}. Arguments GEq {A}.

(** Suspension state of a generator's frame. *)
Inductive gstatus :=
  | GInit (b : gprog unit)                              (* initial_suspend: suspend_always, qcorogenerator.h:44 *)
  | GRunning
  | GSusp (v : V) (ls : list nat) (c : V -> gprog unit) (* suspended in co_yield, yield_value: suspend_always, :74-82 *)
  | GFinal.                                             (* final_suspend: suspend_always, :52-55 *)

(** The frame with its promise: [gnonnull]: mValue != nullptr (:126); [gexc]: mException (:127). *)
Record gframe := GFrame { gstat : gstatus; gnonnull : bool; gexc : option E }.

(** C++ call stack: running code; begin()/operator++ between resume() and the rest of the function; destructors of the
    local Generator objects of a destroyed frame. *)
Inductive gitem :=
  | GRun (w : gactor) (p : gprog unit)
  | GAfterBegin (w : gactor) (g : nat) (c : nat + E -> gprog unit)
  | GAfterInc (w : gactor) (i : nat) (c : option E -> gprog unit)
  | GDrops (l : list nat).

(** What a user of the API observed. *)
Inductive gact :=
  | ANew (g f : nat) | ANull (g : nat) | AMove (g : nat) | ADrop (g : nat)
  | ABegin (r : nat + E) | AEnd (i : nat) | ACopy (i : nat) | AInc (r : option E)
  | ADeref (f : nat) (v : V) | AWrite (f : nat) (v : V) | AEq (b : bool)
  | AAssign (old : option nat).  (* old: the coroutine the target owned before *)

Inductive gevent :=
  | GENew (f : nat) (b : gprog unit)      (* generator coroutine f is called *)
  | GEResume (f : nat) (v : option V)     (* its body is resumed (None: for the first time); it gets v back from co_yield *)
  | GEYield (f : nat) (v : V)             (* it co_yields v *)
  | GEFinish (f : nat) (r : option E)     (* its body ends (with an exception) *)
  | GEDestroy (f : nat)                   (* its frame is destroyed *)
  | GEObs (w : gactor) (o : gobs)
  | GEAct (w : gactor) (a : gact).

(** [gens]: live Generator objects and their mGeneratorCoroutine; [iters]: iterators; [gtrace]: newest first. *)
Record gstate := GState {
  gheap : gmap nat gframe;
  gens : gmap nat (option nat);
  iters : gmap nat (option nat);
  gstack : list gitem;
  gtrace : list gevent;
  gnf : nat; gng : nat; gni : nat;
}.

Definition ginit : gstate := GState ∅ ∅ ∅ [] [] 0 0 0.

Inductive gres := GNext (s : gstate) | GUB (r : gub) | GIdle.

Definition gset_heap h s := GState h (gens s) (iters s) (gstack s) (gtrace s) (gnf s) (gng s) (gni s).
Definition gset_gens g s := GState (gheap s) g (iters s) (gstack s) (gtrace s) (gnf s) (gng s) (gni s).
Definition gset_iters i s := GState (gheap s) (gens s) i (gstack s) (gtrace s) (gnf s) (gng s) (gni s).
Definition gset_stack st s := GState (gheap s) (gens s) (iters s) st (gtrace s) (gnf s) (gng s) (gni s).
Definition gemit e s := GState (gheap s) (gens s) (iters s) (gstack s) (e :: gtrace s) (gnf s) (gng s) (gni s).
Definition gpush i s := gset_stack (i :: gstack s) s.
Definition gset_frame f fr s := gset_heap (<[f := fr]> (gheap s)) s.

(** coroutine_handle::resume() on a non-null handle. *)
Definition gresume (f : nat) (s : gstate) : gres :=
  match gheap s !! f with
  | None => GUB GFreed
  | Some fr =>
    let go v p := GNext (gpush (GRun (Gen f) p) (gemit (GEResume f v)
                    (gset_frame f (GFrame GRunning (gnonnull fr) (gexc fr)) s))) in
    match gstat fr with
    | GInit b => go None b
    | GSusp v _ c => go (Some v) (c v)
    | GRunning => GUB GResumeRunning
    | GFinal => GUB GResumeDone
    end
  end.

(** coroutine_handle::destroy(): the frame's local variables are destroyed. *)
Definition gdestroy (f : nat) (s : gstate) : gres :=
  match gheap s !! f with
  | None => GUB GFreed
  | Some fr =>
    let go ls := GNext (gpush (GDrops ls) (gemit (GEDestroy f) (gset_heap (delete f (gheap s)) s))) in
    match gstat fr with
    | GRunning => GUB GDestroyRunning
    | GSusp _ ls _ => go ls
    | _ => go []
    end
  end.

(** ~Generator, qcorogenerator.h:255-259. *)
Definition gdrop (g : nat) (s : gstate) : gres :=
  match gens s !! g with
  | None => GUB GDeadGen
  | Some h =>
    let s1 := gset_gens (delete g (gens s)) s in
    match h with
    | None => GNext s1
    | Some f => gdestroy f s1
    end
  end.

(** promise().value() through a handle, qcorogenerator.h:99-102, 184-186. *)
Definition gvalue (f : nat) (s : gstate) : V + gub :=
  match gheap s !! f with
  | None => inr GFreed
  | Some fr =>
    if gnonnull fr then
      match gstat fr with GSusp v _ _ => inl v | _ => inr GStaleValue end
    else inr GNullValue
  end.

(** One step of code of [w]; [s] has w's activation removed. *)
Definition gstep_user (w : gactor) (p : gprog unit) (s : gstate) : gres :=
  let go p' s' := GNext (gpush (GRun w p') s') in
  match p with
  | GRet _ =>
    (* return_void, final_suspend: mValue = nullptr (:52-55, 87) *)
    match w with
    | Fun _ => GNext s
    | Gen f =>
      match gheap s !! f with
      | None => GUB GFreed
      | Some fr => GNext (gemit (GEFinish f None) (gset_frame f (GFrame GFinal false (gexc fr)) s))
      end
    end
  | GThrow e =>
    (* unhandled_exception (:63-65), then final_suspend *)
    match w with
    | Fun _ => GUB GUncaught
    | Gen f =>
      match gheap s !! f with
      | None => GUB GFreed
      | Some _ => GNext (gemit (GEFinish f (Some e)) (gset_frame f (GFrame GFinal false (Some e)) s))
      end
    end
  | GObs o p' => go p' (gemit (GEObs w o) s)
  | GYield v ls c =>
    match w with
    | Fun _ => GUB GYieldOutside
    | Gen f =>
      match gheap s !! f with
      | None => GUB GFreed
      | Some fr => GNext (gemit (GEYield f v) (gset_frame f (GFrame (GSusp v ls c) true (gexc fr)) s))
      end
    end
  | GNew b c =>
    (* get_return_object (:307-310) *)
    let f := gnf s in
    let g := gng s in
    go (c g) (GState (<[f := GFrame (GInit b) false None]> (gheap s)) (<[g := Some f]> (gens s)) (iters s) (gstack s)
               (GENew f b :: GEAct w (ANew g f) :: gtrace s) (S f) (S g) (gni s))
  | GNull c =>
    let g := gng s in
    go (c g) (GState (gheap s) (<[g := None]> (gens s)) (iters s) (gstack s) (GEAct w (ANull g) :: gtrace s)
               (gnf s) (S g) (gni s))
  | GMove g c =>
    (* Generator(Generator &&), :239-242 *)
    match gens s !! g with
    | None => GUB GDeadGen
    | Some h =>
      let g' := gng s in
      go (c g') (GState (gheap s) (<[g' := h]> (<[g := None]> (gens s))) (iters s) (gstack s)
                  (GEAct w (AMove g') :: gtrace s) (gnf s) (S g') (gni s))
    end
  | GAssign g g2 p' =>
    (* operator=(Generator &&), :244-248: mGeneratorCoroutine = other's; other's = null. No destroy(), no self check. *)
    match gens s !! g, gens s !! g2 with
    | Some old, Some h =>
      go p' (gemit (GEAct w (AAssign old)) (gset_gens (<[g2 := None]> (<[g := h]> (gens s))) s))
    | _, _ => GUB GDeadGen
    end
  | GDrop g p' => gdrop g (gpush (GRun w p') (gemit (GEAct w (ADrop g)) s))
  | GBegin g c =>
    (* begin(), :269-276: first half *)
    match gens s !! g with
    | None => GUB GDeadGen
    | Some None => GUB GNullHandle
    | Some (Some f) => gresume f (gpush (GAfterBegin w g c) s)
    end
  | GEnd c =>
    (* end(), :284-286 *)
    let i := gni s in
    go (c i) (GState (gheap s) (gens s) (<[i := None]> (iters s)) (gstack s) (GEAct w (AEnd i) :: gtrace s)
               (gnf s) (gng s) (S i))
  | GCopy i c =>
    match iters s !! i with
    | None => GUB GDeadGen
    | Some h =>
      let j := gni s in
      go (c j) (GState (gheap s) (gens s) (<[j := h]> (iters s)) (gstack s) (GEAct w (ACopy j) :: gtrace s)
                 (gnf s) (gng s) (S j))
    end
  | GInc i c =>
    (* operator++(), :166-179: first half *)
    match iters s !! i with
    | None => GUB GDeadGen
    | Some None => go (c None) (gemit (GEAct w (AInc None)) s)
    | Some (Some f) => gresume f (gpush (GAfterInc w i c) s)
    end
  | GDeref i c =>
    match iters s !! i with
    | None => GUB GDeadGen
    | Some None => GUB GNullHandle
    | Some (Some f) =>
      match gvalue f s with
      | inr r => GUB r
      | inl v => go (c v) (gemit (GEAct w (ADeref f v)) s)
      end
    end
  | GWrite i v' p' =>
    match iters s !! i with
    | None => GUB GDeadGen
    | Some None => GUB GNullHandle
    | Some (Some f) =>
      match gheap s !! f with
      | None => GUB GFreed
      | Some fr =>
        if gnonnull fr then
          match gstat fr with
          | GSusp _ ls c => go p' (gemit (GEAct w (AWrite f v')) (gset_frame f (GFrame (GSusp v' ls c) true (gexc fr)) s))
          | _ => GUB GStaleValue
          end
        else GUB GNullValue
      end
    end
  | GEq i j c =>
    (* operator==, :188-190 *)
    match iters s !! i, iters s !! j with
    | Some h, Some h' => let b := bool_decide (h = h') in go (c b) (gemit (GEAct w (AEq b)) s)
    | _, _ => GUB GDeadGen
    end
  end.

Definition gstep (s : gstate) : gres :=
  match gstack s with
  | [] => GIdle
  | GRun w p :: st => gstep_user w p (gset_stack st s)
  | GAfterBegin w g c :: st =>
    (* begin() after resume(), :271-275; mGeneratorCoroutine is read again *)
    match gens s !! g with
    | None => GUB GDeadGen
    | Some None => GUB GNullHandle
    | Some (Some f) =>
      match gheap s !! f with
      | None => GUB GFreed
      | Some fr =>
        let i := gni s in
        let ret h := GNext (GState (gheap s) (gens s) (<[i := h]> (iters s)) (GRun w (c (inl i)) :: st)
                             (GEAct w (ABegin (inl i)) :: gtrace s) (gnf s) (gng s) (S i)) in
        if gnonnull fr then ret (Some f)
        else match gexc fr with
             | Some e => GNext (gset_stack (GRun w (c (inr e)) :: st) (gemit (GEAct w (ABegin (inr e))) s))
             | None => ret None
             end
      end
    end
  | GAfterInc w i c :: st =>
    (* operator++() after resume(), :172-178; mGeneratorCoroutine is read again *)
    match iters s !! i with
    | None => GUB GDeadGen
    | Some None => GUB GNullHandle
    | Some (Some f) =>
      match gheap s !! f with
      | None => GUB GFreed
      | Some fr =>
        let ret r s' := GNext (gset_stack (GRun w (c r) :: st) (gemit (GEAct w (AInc r)) s')) in
        if gnonnull fr then ret None s
        else ret (gexc fr) (gset_iters (<[i := None]> (iters s)) s)
      end
    end
  | GDrops [] :: st => GNext (gset_stack st s)
  | GDrops (g :: l) :: st => gdrop g (gset_stack (GDrops l :: st) s)
  end.

(** The environment calls plain functions when no other code runs. *)
Definition gcall (p : gprog unit) (s : gstate) : gres :=
  match gstack s with
  | [] => GNext (GState (gheap s) (gens s) (iters s) [GRun (Fun (gnf s)) p] (gtrace s) (S (gnf s)) (gng s) (gni s))
  | _ => GIdle
  end.

Inductive gexec : gstate -> gstate -> Prop :=
  | gexec_refl s : gexec s s
  | gexec_step s s1 s2 : gexec s s1 -> gstep s1 = GNext s2 -> gexec s s2
  | gexec_call s s1 s2 p : gexec s s1 -> gcall p s1 = GNext s2 -> gexec s s2.

Definition greach (s : gstate) : Prop := gexec ginit s.

(** for (auto &v : g) got(v); continued by [k None], or [k (Some e)] if iteration throws e. The range-based for loop:
    auto it = g.begin(), end = g.end(); it != end; ++it. *)
CoFixpoint gloop (i e : nat) (k : option E -> gprog unit) : gprog unit :=
  GEq i e (λ b, if b then k None else
    GDeref i (λ v, GObs (GGot v) (GInc i (λ r, match r with None => gloop i e k | Some x => k (Some x) end)))).
Definition gforeach (g : nat) (k : option E -> gprog unit) : gprog unit :=
  GBegin g (λ r, match r with inl i => GEnd (λ e, gloop i e k) | inr x => k (Some x) end).

End model.
Arguments gobs : clear implicits.
Arguments gprog : clear implicits.
Arguments gstatus : clear implicits.
Arguments gframe : clear implicits.
Arguments gitem : clear implicits.
Arguments gact : clear implicits.
Arguments gevent : clear implicits.
Arguments gstate : clear implicits.
Arguments gres : clear implicits.
Arguments GRet {V E A}. Arguments GThrow {V E A}. Arguments GObs {V E A}. Arguments GYield {V E A}.
Arguments GNew {V E A}. Arguments GNull {V E A}. Arguments GMove {V E A}. Arguments GAssign {V E A}.
Arguments GDrop {V E A}. Arguments GBegin {V E A}. Arguments GEnd {V E A}. Arguments GCopy {V E A}.
Arguments GInc {V E A}. Arguments GDeref {V E A}. Arguments GWrite {V E A}. Arguments GEq {V E A}.
