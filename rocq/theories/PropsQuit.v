(** * Property theorem C116: exactly when waitFor() is undefined because its event loop is quit from outside.

    Vocabulary: TaskModel.v, TaskSpec.v. [ub_next]: the next step of the machine, or the next event, is undefined.
    [EWaitCall w i f h]: the i-th call of waitFor(), by w, on a task of coroutine h; f is waitFor()'s own coroutine. *)
From stdpp Require Import gmap list.
From Verif Require Import TaskModel TaskInv TaskSpec TaskCtx TaskFacts2 TaskRun TaskLazy QuitFacts.

(** ** C116 *)

(** Reading an empty result: iff the innermost nested loop is one of a waitFor() with a result, entered, and its task has not been waited to its end. *)
Theorem C116_no_result {V : Type} (mv : V -> V) (dflt : V) q s : reach mv dflt q s ->
  ub_next mv dflt q s UEmptyOptional <->
  q = true ∧ ∃ w x i c st, stack s = WaitLoop w false x i true c :: st ∧ ∀ f hd o, EWaitCall w i f hd ∈ trace s -> EFinish f o ∉ trace s.
Proof. exact (empty_optional mv dflt q s). Qed.
Print Assumptions C116_no_result.

(** A waitFor() without a result returns instead, although its task has not finished. *)
Theorem C116_void_returns {V : Type} (mv : V -> V) (dflt : V) q s w x i c st : reach mv dflt q s -> stack s = WaitLoop w true x i true c :: st ->
  (∀ f hd o, EWaitCall w i f hd ∈ trace s -> EFinish f o ∉ trace s) ->
  ∃ s', env_step mv dflt EvQuit s = Next s' ∧ stack s' = Run w (CUser (c (Val dflt))) :: st ∧ trace s' = EWaitRet w i (Val dflt) :: trace s ∧ heap s' = heap s.
Proof. exact (quit_void mv dflt q s w x i c st). Qed.
Print Assumptions C116_void_returns.

(** Writing to a dead context: iff the task has just resumed the coroutine of a waitFor() that has returned. *)
Theorem C116_late_completion {V : Type} (mv : V -> V) (dflt : V) q s : reach mv dflt q s ->
  ub_next mv dflt q s UDanglingCtx <->
  ∃ f h o l w i w' o', trace s = EWake f h o :: l ∧ EWaitCall w i f (Some h) ∈ l ∧ EWaitRet w' i o' ∈ l.
Proof.
  intros H. pose proof (dangling mv dflt q s H) as Hd. split.
  - intros [Hu|(e & He & Hu)].
    + apply Hd in Hu as (f & h & o & l & w & i & Ht & Hc & w' & o' & Hr). by exists f, h, o, l, w, i, w', o'.
    + exfalso. unfold TaskModel.env_step in Hu. destruct (is_idle mv dflt s); [|done]. destruct e; try done; repeat (case_match; simplify_eq; try done).
  - intros (f & h & o & l & w & i & w' & o' & Ht & Hc & Hr). left. apply Hd. exists f, h, o, l, w, i. split_and!; [done..|]. by exists w', o'.
Qed.
Print Assumptions C116_late_completion.

Lemma forallb_forall_quit {V} (t : list (TaskModel.event V)) : forallb (λ e, match e with EFinish _ _ => false | _ => true end) t = true -> Forall (λ e, match e with EFinish _ _ => False | _ => True end) t.
Proof. induction t as [|e t IH]; cbn; [constructor|]. intros [He Ht]%andb_prop. constructor; [by destruct e|by apply IH]. Qed.
(** Both do happen; and waitFor() without a result does return early. *)
Example ex_C116 : (reach mv0 0 true (quit_run false [] 0) ∧ ub_next mv0 0 true (quit_run false [] 0) UEmptyOptional) ∧
  (∃ s w x i c st, reach mv0 0 true s ∧ stack s = WaitLoop w true x i true c :: st ∧ ∀ f hd o, EWaitCall w i f hd ∈ trace s -> EFinish f o ∉ trace s) ∧
  (reach mv0 0 true (quit_run true [EvQuit; EvFire 1 (Val 5)] 100) ∧ ub_next mv0 0 true (quit_run true [EvQuit; EvFire 1 (Val 5)] 100) UDanglingCtx).
Proof.
  split_and!.
  - by apply play_drive_reach.
  - right. exists EvQuit. split; [done|]. vm_compute. reflexivity.
  - exists (quit_run true [] 0), (Plain 0). do 4 eexists. split; [by apply play_drive_reach|]. split; [vm_compute; reflexivity|].
    intros f hd o _ Hin.
    assert (Hf : Forall (λ e, match e with EFinish _ _ => False | _ => True end) (trace (quit_run true [] 0))).
    { assert (Hb : forallb (λ e, match e with EFinish _ _ => false | _ => true end) (trace (quit_run true [] 0)) = true) by (vm_compute; reflexivity).
      apply forallb_forall_quit, Hb. }
    rewrite Forall_forall in Hf. exact (Hf _ Hin).
  - by apply play_drive_reach.
  - left. vm_compute. reflexivity.
Qed.
