(** * Running the Task machine on concrete programs (for examples and counterexamples). No model of its own. *)
From stdpp Require Import gmap list.
From Verif Require Import TaskModel.

Section run.
Context {V : Type} (mv : V -> V) (dflt : V).

(** Run internal steps until idle, undefined behaviour, or the fuel is used up. *)
Fixpoint drive (n : nat) (s : state V) : state V :=
  match n with
  | 0 => s
  | S n => match step mv dflt s with Next s' => drive n s' | _ => s end
  end.

(** Deliver environment events one after the other, running to idle after each. *)
Fixpoint play (n : nat) (evs : list (envev V)) (s : state V) : state V :=
  match evs with
  | [] => s
  | e :: evs => match env_step mv dflt e s with Next s' => play n evs (drive n s') | _ => s end
  end.

Definition no_quit (evs : list (envev V)) : Prop := Forall (λ e, e ≠ EvQuit) evs.

Lemma drive_exec q n : ∀ s0 s, exec mv dflt q s0 s -> exec mv dflt q s0 (drive n s).
Proof.
  induction n as [|n IH]; intros s0 s H; [done|]. cbn. destruct (step mv dflt s) as [s'| |] eqn:E; try done.
  apply IH. eapply exec_step; eauto.
Qed.

Lemma play_exec q n evs : ∀ s0 s, (q = false -> no_quit evs) -> exec mv dflt q s0 s -> exec mv dflt q s0 (play n evs s).
Proof.
  induction evs as [|e evs IH]; intros s0 s Hq H; [done|]. cbn.
  destruct (env_step mv dflt e s) as [s'| |] eqn:E; try done.
  apply IH.
  - intros ->. specialize (Hq eq_refl). by inversion Hq.
  - apply drive_exec. eapply exec_env; [exact H| |exact E]. intros ->. destruct q; [done|].
    specialize (Hq eq_refl). by inversion Hq.
Qed.

Lemma play_reach q n evs qs : (q = false -> no_quit evs) -> reach mv dflt q (play n evs (init qs)).
Proof. intros Hq. exists qs. apply play_exec; [done|]. constructor. Qed.
Lemma play_drive_reach q n m evs qs : (q = false -> no_quit evs) -> reach mv dflt q (drive m (play n evs (init qs))).
Proof. intros Hq. exists qs. apply drive_exec. apply play_exec; [done|]. constructor. Qed.

(** [stop n evs e m]: play [evs], then event [e], then exactly (at most) [m] internal steps. *)
Definition stop (n : nat) (evs : list (envev V)) (e : envev V) (m : nat) (s : state V) : state V :=
  match env_step mv dflt e (play n evs s) with Next s' => drive m s' | _ => play n evs s end.

Lemma stop_reach q n evs e m qs : (q = false -> no_quit (evs ++ [e])) -> reach mv dflt q (stop n evs e m (init qs)).
Proof.
  intros Hq. unfold stop.
  assert (Hq' : q = false -> no_quit evs) by (intros ->; specialize (Hq eq_refl); apply Forall_app in Hq; by destruct Hq).
  destruct (env_step mv dflt e (play n evs (init qs))) as [s'| |] eqn:E; [|by apply play_reach..].
  exists qs. apply drive_exec. eapply exec_env; [by apply play_exec; [|constructor]| |exact E].
  intros ->. destruct q; [done|]. specialize (Hq eq_refl). apply Forall_app in Hq as [_ Hq]. by inversion Hq.
Qed.
End run.

Ltac noq := intros _; repeat (constructor; [done|]); constructor.

(** ** The example instance: values are naturals, a moved-from value is 0, the default value is 0. *)
Definition mv0 (_ : nat) : nat := 0.
Notation N := nat (only parsing).

(** A coroutine that waits for the event loop and ends with the outcome it is given. *)
Definition leaf : prog nat nat := PLeaf ret_outcome.
(** [co_await t], record the fact, end with its outcome. *)
Definition awaiter (t : nat) : prog nat nat := PAwait t (λ o, PObs (OUser 1) (ret_outcome o)).

(** main(): two coroutines await the same task. Coroutine ids: leaf 1, awaiters 2 and 3. *)
Definition two_awaiters : prog nat nat :=
  PCall KTask [] (λ _, leaf) (λ t, PCall KTask [] (λ _, awaiter t) (λ t1,
  PCall KTask [] (λ _, awaiter t) (λ t2, PDrop t1 (PDrop t2 (PRet 0))))).

Definition run_two : state nat := play mv0 0 100 [EvHandler two_awaiters; EvFire 1 (Val 5)] (init ∅).
Definition run_two_exc : state nat := play mv0 0 100 [EvHandler two_awaiters; EvFire 1 (Exc (StdExn 7))] (init ∅).

Lemma run_two_reach : reach mv0 0 false run_two.
Proof. apply play_reach. noq. Qed.
Lemma run_two_exc_reach : reach mv0 0 false run_two_exc.
Proof. apply play_reach. noq. Qed.

(** ** More concrete runs, used by the examples and counterexamples in PropsTask.v *)
Definition run1 (p : prog nat nat) (m : nat) : state nat := stop mv0 0 100 [] (EvHandler p) m (init {[7]}).
Lemma run1_reach p m : reach mv0 0 false (run1 p m).
Proof. apply stop_reach. noq. Qed.
(** Same, then one completion of coroutine f, then m further steps. *)
Definition run2 (p : prog nat nat) (f : nat) (o : outcome nat) (m : nat) : state nat :=
  stop mv0 0 100 [EvHandler p] (EvFire f o) m (init {[7]}).
Lemma run2_reach p f o m : reach mv0 0 false (run2 p f o m).
Proof. apply stop_reach. noq. Qed.
(** Same, then object 7 is destroyed before the completion. *)
Definition run3 (p : prog nat nat) (f : nat) (o : outcome nat) (m : nat) : state nat :=
  stop mv0 0 100 [EvHandler p; EvKill 7] (EvFire f o) m (init {[7]}).
Lemma run3_reach p f o m : reach mv0 0 false (run3 p f o m).
Proof. apply stop_reach. noq. Qed.

Lemma reach_exec q (s : state nat) qs : exec mv0 0 q (init qs) s -> reach mv0 0 q s.
Proof. by exists qs. Qed.

(** A coroutine that is already finished when its call returns. *)
Definition done5 : prog nat nat := PRet 5.
(** main(): call [b] (coroutine 1, task 0), then continue with [c]. *)
Definition with_task (b : prog nat nat) (c : nat -> prog nat nat) : prog nat nat := PCall KTask [] (λ _, b) c.
(** main(): a coroutine [b] awaited by a second coroutine. *)
Definition await_in (b : prog nat nat) : prog nat nat :=
  with_task b (λ t, PCall KTask [] (λ _, awaiter t) (λ _, PRet 0)).
Definition await_null (k : kind) : prog nat nat := PNull k (λ t, PCall KTask [] (λ _, awaiter t) (λ _, PRet 0)).
(** main(): a LazyTask that is dropped / awaited once / awaited twice. *)
Definition lazy_drop : prog nat nat := PCall KLazy [] (λ _, done5) (λ t, PDrop t (PRet 0)).
Definition lazy_await : prog nat nat := PCall KLazy [] (λ _, leaf) (λ t, PCall KTask [] (λ _, awaiter t) (λ _, PRet 0)).
Definition lazy_twice : prog nat nat :=
  PCall KLazy [] (λ _, leaf) (λ t, PCall KTask [] (λ _, awaiter t) (λ _, PCall KTask [] (λ _, awaiter t) (λ _, PRet 0))).
(** main(): then() with continuation [cb], connect() with context object 7, waitFor(). *)
Definition cb1 (v : nat) : prog nat nat := PObs (OUser v) (PRet (S v)).
Definition err1 (e : exn) : prog nat unit := PObs (OUser 9) (PRet tt).
Definition use_then (b : prog nat nat) : prog nat nat :=
  with_task b (λ t, then_ref 0 KTask t cb1 (Some err1) (λ _, PRet 0)).
Definition use_then_move (b : prog nat nat) : prog nat nat :=
  with_task b (λ t, then_move 0 KTask t cb1 None (λ t2, PDrop t2 (PRet 0))).
Definition use_connect (b : prog nat nat) : prog nat nat := with_task b (λ t, connect 0 t 7 cb1 (PRet 0)).
Definition use_wait (vd : bool) (b : prog nat nat) : prog nat nat :=
  with_task b (λ t, PWaitFor vd t (λ o, PObs (OUser 3) (ret_outcome o))).

(** Helpers for stating facts about concrete traces. *)
Lemma notin {A} (p : A -> bool) e l : p e = true -> existsb p l = false -> e ∉ l.
Proof.
  intros Hp Hl Hin. apply elem_of_list_In in Hin.
  assert (existsb p l = true) by (apply existsb_exists; eauto). congruence.
Qed.
Definition is_fin (h : nat) (e : event nat) : bool := match e with EFinish g _ => bool_decide (g = h) | _ => false end.
Definition is_start (h : nat) (e : event nat) : bool := match e with EStart g => bool_decide (g = h) | _ => false end.
Definition is_destroy (h : nat) (e : event nat) : bool := match e with EDestroy g => bool_decide (g = h) | _ => false end.
Definition is_drop (x : nat) (e : event nat) : bool := match e with EAct _ (ADrop y) => bool_decide (y = x) | _ => false end.
Ltac at_from i n := lazymatch n with
  | 0 => fail "not in the trace"
  | S ?n => first [apply (elem_of_list_lookup_2 _ i); vm_compute; reflexivity | at_from constr:(S i) n]
  end.
Ltac in_ := at_from 0 50.
Ltac at_ i := apply (elem_of_list_lookup_2 _ i); vm_compute; reflexivity.
Ltac dec := match goal with |- ?P => apply (@bool_decide_unpack P _) end; vm_compute; exact I.
Ltac not_in p := apply (notin p); [apply bool_decide_eq_true_2; reflexivity|vm_compute; reflexivity].

Definition unowned (f : nat) (m : gmap nat tobj) : bool :=
  forallb (λ p : nat * tobj, negb (bool_decide (ohandle p.2 = Some f))) (map_to_list m).
Lemma no_owner f m : unowned f m = true -> ∀ x ob, m !! x = Some ob -> ohandle ob ≠ Some f.
Proof.
  intros H x ob Hx E. unfold unowned in H. rewrite forallb_forall in H. apply elem_of_map_to_list, elem_of_list_In in Hx.
  specialize (H _ Hx). cbn in H. by rewrite bool_decide_eq_true_2 in H.
Qed.
