(** * Property theorem C115: coroutines behave like ordinary functions called by cooperative threads.

    Vocabulary: CoopSpec.v. [runs]: executions of the cooperative threads, which call functions; [execs]: executions of the
    same program on the machine of TaskModel.v, where every function is a coroutine and every call a co_await of the Task or
    LazyTask it returns; [seen]: what one can see of the latter. *)
From stdpp Require Import gmap list.
From Verif Require Import TaskModel CoopSpec CoopFacts.

Section props.
Context {V : Type} (mv : V -> V) (dflt : V).

(** ** C115 *)

(** One sees exactly the same: the order of all effects, waits and wake-ups, with the outcomes of the waits. *)
Theorem C115_same_behaviour (l : list (label V)) : (∃ s, execs mv dflt s ∧ seen (trace s) = l) ↔ (∃ P, runs P ∧ log P = l).
Proof.
  split.
  - intros (s & Hs & <-). destruct (sound _ _ _ Hs) as (P & HP & [(s' & _ & _ & ->)|(p & s2 & _ & _ & _ & ->)]); by exists P.
  - intros (P & HP & <-). destruct (complete mv dflt P HP) as (s & Hs & HR). exists s. split; [done|by eapply R_seen].
Qed.

(** The event loop gets control back exactly when no thread runs. *)
Theorem C115_same_idle (l : list (label V)) :
  (∃ s, execs mv dflt s ∧ step mv dflt s = Idle ∧ seen (trace s) = l) ↔ (∃ P, runs P ∧ running P = None ∧ log P = l).
Proof.
  split.
  - intros (s & Hs & Hi & <-). destruct (sound _ _ _ Hs) as (P & HP & HR). destruct (R'_idle _ _ _ _ HR Hi) as [HR0 Hn].
    exists P. split_and!; try done. symmetry. by eapply R_seen.
  - intros (P & HP & Hn & <-). destruct (complete mv dflt P HP) as (s & Hs & HR). exists s. split_and!; [done| |by eapply R_seen].
    by eapply idle_rel.
Qed.

(** Nothing is undefined. *)
Theorem C115_defined s u : execs mv dflt s -> step mv dflt s ≠ UB u.
Proof. intros Hs. destruct (sound _ _ _ Hs) as (P & HP & HR). by eapply R'_defined. Qed.

(** When nothing runs or waits any more, no coroutine and no Task is left. *)
Definition is_wait (x : label V) : bool := match x with LWait => true | _ => false end.
Definition is_wake (x : label V) : bool := match x with LWake _ _ => true | _ => false end.
Definition count (f : label V -> bool) (l : list (label V)) : nat := length (filter f l).

Lemma balance P : runs P -> size (waiting P) + count is_wake (log P) = count is_wait (log P) ∧ ∀ n, is_Some (waiting P !! n) -> n < tickets P.
Proof.
  induction 1 as [|P P' HP [IH1 IH2] Hgo|P p HP [IH1 IH2] Hn|P n o c k HP [IH1 IH2] Hn Hw].
  - split; [done|]. intros n [x Hx]. cbn in Hx. by rewrite lookup_empty in Hx.
  - unfold go in Hgo. destruct (running P) as [[p k]|]; [|done]. injection Hgo as <-. destruct p as [v|e|n p|c|kd b c]; cbn [waiting log tickets]; try done.
    split.
    + assert (Hno : waiting P !! tickets P = None). { destruct (waiting P !! tickets P) eqn:E; [|done]. pose proof (IH2 (tickets P) ltac:(by eexists)). lia. }
      rewrite map_size_insert_None by done. change (count is_wake (LWait :: log P)) with (count is_wake (log P)). change (count is_wait (LWait :: log P)) with (S (count is_wait (log P))). lia.
    + intros n [x [[<- _]|[_ Hx]]%lookup_insert_Some]; [lia|]. pose proof (IH2 n ltac:(by eexists)). lia.
  - done.
  - cbn [waiting log tickets]. split.
    + pose proof (map_size_insert_None n (c, k) (delete n (waiting P)) (lookup_delete (waiting P) n)) as H. rewrite insert_delete in H by done. change (count is_wait (LWake n o :: log P)) with (count is_wait (log P)). change (count is_wake (LWake n o :: log P)) with (S (count is_wake (log P))). lia.
    + intros m [x [_ Hx]%lookup_delete_Some]. apply IH2. by eexists.
Qed.
Theorem C115_no_leak s : execs mv dflt s -> step mv dflt s = Idle -> count is_wake (seen (trace s)) = count is_wait (seen (trace s)) -> heap s = ∅ ∧ objs s = ∅.
Proof.
  intros Hs Hi Hc. destruct (sound _ _ _ Hs) as (P & HP & HR). destruct (R'_idle _ _ _ _ HR Hi) as [HR0 Hn].
  destruct (balance P HP) as [Hb _]. rewrite <-(R_seen _ _ _ HR0) in Hb. eapply no_leak; [done..|]. apply map_size_empty_inv. lia.
Qed.
End props.
Print Assumptions C115_same_behaviour.
Print Assumptions C115_same_idle.
Print Assumptions C115_defined.
Print Assumptions C115_no_leak.

(** Example: two threads with calls of Tasks and LazyTasks that wait, return and throw; the second thread wakes up first. *)
Definition leaf (n : nat) : fn nat := FObs n (FWait (λ o, match o with Val v => FObs v (FThrow (StdExn v)) | Exc e => FThrow e end)).
Definition middle (k : kind) (n : nat) : fn nat := FCall k (leaf n) (λ o, match o with Exc (StdExn v) => FCall KLazy (FRet (v + 1)) (λ o, match o with Val w => FRet w | Exc e => FThrow e end) | _ => FRet 0 end).
Definition outer (k k' : kind) (n : nat) : fn nat := FCall k (middle k' n) (λ o, match o with Val v => FObs (100 + v) (FRet v) | Exc _ => FRet 0 end).
Fixpoint drive (n : nat) (s : state nat) : state nat :=
  match n with 0 => s | S n => match step id 0 s with Next s' => drive n s' | _ => s end end.
Definition event_ (e : envev nat) (s : state nat) : state nat := match env_step id 0 e s with Next s' => drive 60 s' | _ => s end.
Lemma drive_execs n : ∀ s, execs id 0 s -> execs id 0 (drive n s).
Proof. induction n as [|n IH]; intros s H; [done|]. cbn. destruct (step id 0 s) eqn:E; try done. apply IH. by eapply execs_step. Qed.
Lemma start_execs p s : execs id 0 s -> execs id 0 (event_ (EvHandler (handler 0 p)) s).
Proof. intros H. unfold event_. destruct (env_step id 0 (EvHandler (handler 0 p)) s) eqn:E; try done. apply drive_execs. by eapply execs_start. Qed.
Lemma fire_execs f o s : execs id 0 s -> execs id 0 (event_ (EvFire f o) s).
Proof. intros H. unfold event_. destruct (env_step id 0 (EvFire f o) s) eqn:E; try done. apply drive_execs. by eapply execs_fire. Qed.
Definition ex115 : state nat :=
  event_ (EvFire 3 (Val 5)) (event_ (EvFire 7 (Val 8)) (event_ (EvHandler (handler 0 (outer KTask KLazy 20))) (event_ (EvHandler (handler 0 (outer KLazy KTask 10))) (init ∅)))).
Example ex_C115 : execs id 0 ex115 ∧ step id 0 ex115 = Idle ∧ heap ex115 = ∅ ∧
  reverse (seen (trace ex115)) = [LStart; LObs 10; LWait; LStart; LObs 20; LWait; LWake 1 (Val 8); LObs 8; LObs 109; LWake 0 (Val 5); LObs 5; LObs 106].
Proof. split; [exact (fire_execs _ _ _ (fire_execs _ _ _ (start_execs _ _ (start_execs _ _ (execs_init _ _ _)))))|]. split_and!; try (vm_compute; reflexivity). apply map_size_empty_inv. vm_compute. reflexivity. Qed.
