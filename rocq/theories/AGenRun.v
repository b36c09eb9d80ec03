(** * Running the AsyncGenerator machine on concrete programs and schedules (for examples and counterexamples). *)
From stdpp Require Import gmap list.
From Verif Require Import AGenModel AGenSpec AGenInv AGenStep AGenFacts AGenWait AGenLoop.

Section run.
Context {V E : Type}.
Fixpoint adrive (n : nat) (s : astate V E) : astate V E :=
  match n with 0 => s | S n => match astep s with ANext s' => adrive n s' | _ => s end end.
(** Each environment event of the schedule, followed by at most n steps. *)
Fixpoint asched (l : list (aenv V E)) (n : nat) (s : astate V E) : astate V E :=
  match l with
  | [] => s
  | e :: l => match aenv_step e s with ANext s' => asched l n (adrive n s') | _ => s end
  end.
Lemma adrive_exec n : ∀ s0 s : astate V E, aexec s0 s -> aexec s0 (adrive n s).
Proof.
  induction n as [|n IH]; intros s0 s H; [done|]. cbn. destruct (astep s) as [s'| |] eqn:E0; try done.
  apply IH. eapply aexec_step; eauto.
Qed.
Lemma asched_exec l n : ∀ s0 s : astate V E, aexec s0 s -> aexec s0 (asched l n s).
Proof.
  induction l as [|e l IH]; intros s0 s H; [done|]. cbn. destruct (aenv_step e s) as [s'| |] eqn:E0; try done.
  apply IH, adrive_exec. eapply aexec_env; eauto.
Qed.
Definition arun (l : list (aenv V E)) (n : nat) : astate V E := asched l n ainit.
Lemma arun_reach l n : areach (arun l n).
Proof. apply asched_exec. constructor. Qed.
(** The last environment event is followed by m steps only. *)
Definition arun_to (l : list (aenv V E)) (e : aenv V E) (m : nat) : astate V E :=
  match aenv_step e (arun l 200) with ANext s => adrive m s | _ => ainit end.
Lemma arun_to_reach l e m : areach (arun_to l e m).
Proof.
  unfold arun_to. destruct (aenv_step e (arun l 200)) as [s'| |] eqn:E0; try constructor.
  apply adrive_exec. eapply aexec_env; [apply arun_reach|exact E0].
Qed.
End run.

(** The example instance: values and exceptions are naturals. [Fun 0] is the first function called; its first coroutine is 1. *)
Notation ap := (aprog nat nat).
(** co_yield 10; co_await x; co_yield 11; (throw 7) *)
Definition aprod2 : ap := AYield 10 [] (ALeaf true [] (λ _, AYield 11 [] ARet)).
Definition aprod2_throw : ap := AYield 10 [] (ALeaf true [] (λ _, AYield 11 [] (AThrow 7))).
(** co_await a Task; co_yield 10 *)
Definition aprod_task : ap := ALeaf false [] (λ _, AYield 10 [] ARet).
(** auto g = prod(); QCORO_FOREACH(v, g) { got(v); co_await x; } *)
Definition consumer (b : ap) : ap :=
  ANew b (λ g, aforeach g [g] (λ _, [BLeaf true]) (λ r, match r with None => ADrop g ARet | Some e => ADrop g (AThrow e) end)).
Definition main (c : ap) : aenv nat nat := EvCall (ASpawn c ARet).
Definition sched (n : nat) : list (aenv nat nat) := (λ i, EvFire i 0) <$> seq 0 n.

Lemma ayields_prod2 : ayields aprod2 [10; 11] None.
Proof. repeat constructor. Qed.
Lemma ayields_prod2_throw : ayields aprod2_throw [10; 11] (Some 7).
Proof. repeat constructor. Qed.

Definition ais_destroy (h : nat) (e : aevent nat nat) : bool := match e with AEDestroy g => bool_decide (g = h) | _ => false end.
Definition ais_adv (h : nat) (e : aevent nat nat) : bool := match e with AEAdv _ g _ => bool_decide (g = h) | _ => false end.
Definition ais_adv_by (c h : nat) (e : aevent nat nat) : bool := match e with AEAdv w g _ => negb (bool_decide (w = c)) && bool_decide (g = h) | _ => false end.
