(** * Running the Generator machine on concrete programs (for examples and counterexamples). No model of its own. *)
From stdpp Require Import gmap list.
From Verif Require Import GenModel GenSpec GenInv GenFacts GenLoop GenFacts2 GenCall.

Section run.
Context {V E : Type}.
Fixpoint gdrive (n : nat) (s : gstate V E) : gstate V E :=
  match n with
  | 0 => s
  | S n => match gstep s with GNext s' => gdrive n s' | _ => s end
  end.
Definition grun (p : gprog V E unit) (n : nat) : gstate V E :=
  match gcall p ginit with GNext s => gdrive n s | _ => ginit end.

Lemma gdrive_exec n : ∀ s0 s : gstate V E, gexec s0 s -> gexec s0 (gdrive n s).
Proof.
  induction n as [|n IH]; intros s0 s H; [done|]. cbn. destruct (gstep s) as [s'| |] eqn:E0; try done.
  apply IH. eapply gexec_step; eauto.
Qed.
Lemma grun_reach p n : greach (grun p n).
Proof. unfold grun. cbn. apply gdrive_exec. eapply gexec_call; [constructor|]. reflexivity. Qed.
End run.

(** The example instance: values and exceptions are naturals. The caller is [Fun 0], the first generator coroutine is 1. *)
Notation gp := (gprog nat nat unit).
(** co_yield 10; co_yield 11; (throw 7) *)
Definition two_vals : gp := GObs (GUser 1) (GYield 10 [] (λ _, GYield 11 [] (λ _, GRet tt))).
Definition two_throw : gp := GYield 10 [] (λ _, GObs (GUser 1) (GYield 11 [] (λ _, GThrow 7))).
CoFixpoint from (n : nat) : gp := GYield n [] (λ _, from (S n)).
Definition iterate (b : gp) : gp := GNew b (λ g, gforeach g (λ _, GDrop g (GRet tt))).

Lemma yields_two_vals : yields two_vals [10; 11] None.
Proof. repeat constructor. Qed.
Lemma yields_two_throw : yields two_throw [10; 11] (Some 7).
Proof. repeat constructor. Qed.

(** auto g = two_vals(); g = two_throw(); *)
Definition assign_leak : gp := GNew two_vals (λ g, GNew two_throw (λ h, GAssign g h (GDrop h (GDrop g (GRet tt))))).
(** auto g = two_vals(); g = std::move(g); *)
Definition assign_self : gp := GNew two_vals (λ g, GAssign g g (GDrop g (GRet tt))).
(** Generator<int> g; g.begin(); *)
Definition begin_null : gp := GNull (λ g, GBegin g (λ _, GRet tt)).
(** for (auto &v : g); g.begin(); *)
Definition begin_done : gp := GNew two_vals (λ g, gforeach g (λ _, GBegin g (λ _, GRet tt))).
(** auto it = g.begin(); auto it2 = it; ++it; ++it; ++it2; *)
Definition stale_copy : gp :=
  GNew two_vals (λ g, GBegin g (λ r, match r with inl i => GCopy i (λ j, GInc i (λ _, GInc i (λ _, GInc j (λ _, GRet tt)))) | inr _ => GRet tt end)).
Definition gis_destroy (h : nat) (e : gevent nat nat) : bool := match e with GEDestroy g => bool_decide (g = h) | _ => false end.
