(** * qCoro(obj, signal[, timeout]) as a program over the machine of QtModel.v, and unfolding lemmas for programs. *)
From stdpp Require Import list.
From Verif Require Import QtModel QtSpec QtInv QtAwait QtReach.

Section wrap.
Context {D S P O : Type}.
Notation wprog := (@wprog D S P O).

(** Wrapper functions are written in continuation passing style: [f args k] is "k(co_await f(args))". *)

(** qCoro(obj, signal, timeout): qcorosignal.h:352-357. [m]: selects the signal and its (non-private) arguments. *)
Definition qCoro_timeout {A} (m : S -> P -> option P) (to : option nat) (k : option P -> wprog A) : wprog A :=
  WAwait MQueued (FromDev m) to k.

(** qCoro(obj, signal): qcorosignal.h:370-375: timeout -1, and "co_return std::move( *result )". *)
Definition qCoro_signal {A} (m : S -> P -> option P) (k : P -> wprog A) : wprog A :=
  qCoro_timeout m None (λ r, match r with Some p => k p | None => WBad end).

(** The same on a helper object that lives in the coroutine frame: helper(..); co_await qCoro(&helper, &Helper::ready, timeout) *)
Definition qCoro_helper {A} (h : helper) (to : option nat) (k : option P -> wprog A) : wprog A :=
  WHelper h (WAwait MQueued FromHelper to (λ r, WDrop (k r))).

(** Reachable from the call of some coroutine on the object. *)
Definition reach {A} (denv : D -> list (S * P) -> D -> Prop) (s : @wstate D S P O A) : Prop := ∃ d al p, exec denv (winit d al p) s.

Lemma reach_inv {A} denv (s : @wstate D S P O A) : reach denv s -> okub s ∧ (wubs s = None -> winv s).
Proof. intros (d & al & p & H). eapply winv_exec; [apply winit_inv|done|exact H]. Qed.
Lemma reach_clean {A} denv (s : @wstate D S P O A) p : reach denv s -> wubs s = None -> wco s = CRun p -> clean s.
Proof. intros H Hu Hc. destruct (reach_inv _ _ H) as [_ Hi]. destruct (Hi Hu) as [_ Hx]. by rewrite Hc in Hx. Qed.
Lemma reach_exec {A} denv (s s' : @wstate D S P O A) : reach denv s -> exec denv s s' -> reach denv s'.
Proof. intros (d & al & p & H) H'. exists d, al, p. by eapply exec_trans. Qed.

(** Runs for examples. *)
Fixpoint wdrive {A} (n : nat) (s : @wstate D S P O A) : wstate :=
  match n with 0 => s | Datatypes.S n => match step s with Next s' => wdrive n s' | Idle => s end end.
Fixpoint wplay {A} (n : nat) (evs : list (@wev D S P)) (s : @wstate D S P O A) : wstate :=
  match evs with
  | [] => wdrive n s
  | e :: evs => let s1 := wdrive n s in
      match wubs s1, step s1 with
      | None, Idle => match env_step e s1 with Next s2 => wplay n evs s2 | Idle => s1 end
      | _, _ => s1
      end
  end.
(** Does the object behave: all its changes allowed by [denv]. *)
Fixpoint wallowed {A} denv (n : nat) (evs : list (@wev D S P)) (s : @wstate D S P O A) : Prop :=
  match evs with
  | [] => True
  | e :: evs => let s1 := wdrive n s in
      (match e with EvDev d ems => denv (wdev s1) ems d | _ => True end) ∧ match env_step e s1 with Next s2 => wallowed denv n evs s2 | Idle => True end
  end.
Lemma wdrive_exec {A} denv n : ∀ s0 s : @wstate D S P O A, exec denv s0 s -> exec denv s0 (wdrive n s).
Proof. induction n as [|n IH]; intros s0 s H; [done|]. cbn. destruct (step s) as [s'|] eqn:E; [|done]. apply IH. by eapply exec_step. Qed.
Lemma wplay_exec {A} denv n evs : ∀ s0 s : @wstate D S P O A, wallowed denv n evs s -> exec denv s0 s -> exec denv s0 (wplay n evs s).
Proof.
  induction evs as [|e evs IH]; intros s0 s Ha H; cbn.
  - by apply wdrive_exec.
  - destruct Ha as [Ha1 Ha2]. pose proof (wdrive_exec denv n s0 s H) as Hd. destruct (wubs (wdrive n s)) eqn:Eu; [done|].
    destruct (step (wdrive n s)) eqn:Es; [done|]. destruct (env_step e (wdrive n s)) as [s2|] eqn:Ee; [|done].
    apply IH; [done|]. by eapply exec_env.
Qed.
Lemma wplay_reach {A} denv n evs d al (p : wprog A) : wallowed denv n evs (winit d al p) -> reach denv (wplay n evs (winit d al p)).
Proof. intros H. exists d, al, p. apply wplay_exec; [done|constructor]. Qed.
End wrap.
