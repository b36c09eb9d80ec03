(** * Property theorems C97-C99: the exact limits of awaiting tasks.
    Vocabulary: [awaitable], [awaits] in TaskAwait.v; the rest as in PropsTask.v. *)
From stdpp Require Import gmap list.
From Verif Require Import TaskModel TaskInv TaskSpec TaskFacts TaskRun TaskAwait.

(** ** C97: a co_await on a live task object, and waitFor() on it, are defined iff the object is a Task, or a LazyTask that
    has a coroutine which has not been started or has finished. *)
Theorem C97_await_defined_iff {V : Type} (mv : V -> V) (dflt : V) q s f x c ob st : reach mv dflt q s ->
  stack s = Run (Co f) (CUser (PAwait x c)) :: st -> objs s !! x = Some ob ->
  (∃ s', step mv dflt s = Next s') <->
  okind ob = KTask ∨ ∃ h, ohandle ob = Some h ∧ (EStart h ∉ trace s ∨ ∃ o, EFinish h o ∈ trace s).
Proof. exact (c97_await mv dflt q s f x c ob st). Qed.
Print Assumptions C97_await_defined_iff.
(** a LazyTask that was not started: defined; the second co_await of a started one: not defined *)
Example ex_C97_await_defined_iff :
  (∃ s f x c ob h st, reach mv0 0 false s ∧ stack s = Run (Co f) (CUser (PAwait x c)) :: st ∧ objs s !! x = Some ob ∧
    okind ob = KLazy ∧ ohandle ob = Some h ∧ EStart h ∉ trace s) ∧
  (∃ s f x c ob h st, reach mv0 0 false s ∧ stack s = Run (Co f) (CUser (PAwait x c)) :: st ∧ objs s !! x = Some ob ∧
    okind ob = KLazy ∧ ohandle ob = Some h ∧ EStart h ∈ trace s ∧ step mv0 0 s = UB ULazyReawait).
Proof.
  split.
  - exists (run1 lazy_await 2). do 6 eexists. split; [apply run1_reach|]. do 4 (split; [vm_compute; reflexivity|]). not_in (is_start 1).
  - exists (run1 lazy_twice 100). do 6 eexists. split; [apply run1_reach|]. do 4 (split; [vm_compute; reflexivity|]).
    split; [at_ 4|vm_compute; reflexivity].
Qed.

Theorem C97_waitfor_defined_iff {V : Type} (mv : V -> V) (dflt : V) q s w vd x c ob st : reach mv dflt q s ->
  stack s = Run w (CUser (PWaitFor vd x c)) :: st -> objs s !! x = Some ob ->
  (∃ s', step mv dflt s = Next s') <->
  okind ob = KTask ∨ ∃ h, ohandle ob = Some h ∧ (EStart h ∉ trace s ∨ ∃ o, EFinish h o ∈ trace s).
Proof. exact (c97_waitfor mv dflt q s w vd x c ob st). Qed.
Print Assumptions C97_waitfor_defined_iff.
Example ex_C97_waitfor_defined_iff : ∃ s w vd x c ob st, reach mv0 0 false s ∧
  stack s = Run w (CUser (PWaitFor vd x c)) :: st ∧ objs s !! x = Some ob.
Proof. exists (run1 (use_wait true leaf) 2). do 6 eexists. split; [apply run1_reach|]. split; vm_compute; reflexivity. Qed.

(** ** C98: a coroutine that no task object refers to (any more) is destroyed iff its body has ended. *)
Theorem C98_unowned_destroyed_iff_ended {V : Type} (mv : V -> V) (dflt : V) q s f k b w : reach mv dflt q s ->
  ECreate f k b w ∈ trace s -> f ∉ finals (stack s) -> (∀ x ob, objs s !! x = Some ob -> ohandle ob ≠ Some f) ->
  EDestroy f ∈ trace s <-> ∃ o, EFinish f o ∈ trace s.
Proof. exact (c98 mv dflt q s f k b w). Qed.
Print Assumptions C98_unowned_destroyed_iff_ended.
Example ex_C98_unowned_destroyed_iff_ended : ∃ s f k b w, reach mv0 0 false s ∧ ECreate f k b w ∈ trace s ∧
  f ∉ finals (stack s) ∧ (∀ x ob, objs s !! x = Some ob -> ohandle ob ≠ Some f) ∧ EDestroy f ∉ trace s.
Proof. exists (run1 lazy_drop 100), 1, KLazy, (CUser done5), (Plain 0). split; [apply run1_reach|]. split; [in_|]. split; [dec|].
  split; [apply no_owner; vm_compute; reflexivity|]. apply (notin (λ e : event nat, match e with EDestroy _ => true | _ => false end)); vm_compute; reflexivity. Qed.

(** ** C99: if nobody quits the nested loop of a waitFor(), the library adds only one undefined behaviour to those of the
    program itself (use of a destroyed task object; an exception that leaves a plain function; co_await outside a
    coroutine, which does not compile): awaiting a LazyTask that is not [awaitable] (see C97). *)
Theorem C99_all_undefined_behaviour {V : Type} (mv : V -> V) (dflt : V) s r : reach mv dflt false s ->
  ub_next mv dflt false s r ->
  r = UDeadTask ∨ r = UUncaught ∨ r = UNotCoroutine ∨
  ∃ w c st x ob, stack s = Run w c :: st ∧ awaits c = Some x ∧ objs s !! x = Some ob ∧
    okind ob = KLazy ∧ (ohandle ob = None ∨ ∃ h, ohandle ob = Some h ∧ EStart h ∈ trace s ∧ ∀ o, EFinish h o ∉ trace s).
Proof.
  intros H Hub. destruct (c99 mv dflt s r H Hub) as [?|[?|[?|(w & c & st & x & ob & ? & ? & ? & Hna)]]]; [by auto..|].
  do 3 right. exists w, c, st, x, ob. do 3 (split; [done|]). by eapply not_awaitable.
Qed.
Print Assumptions C99_all_undefined_behaviour.
Example ex_C99_all_undefined_behaviour : reach mv0 0 false (run1 lazy_twice 100) ∧ ub_next mv0 0 false (run1 lazy_twice 100) ULazyReawait.
Proof. split; [apply run1_reach|]. left. vm_compute. reflexivity. Qed.
