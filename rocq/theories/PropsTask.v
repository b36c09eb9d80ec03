(** * Property theorems C01-C22 (Task, LazyTask, then, connect, waitFor).

    Vocabulary: TaskModel.v (the machine), TaskSpec.v (trace vocabulary). [reach mv dflt q s]: [s] is reachable from a
    fresh program by any schedule; [q]: may the environment quit nested event loops. [finals (stack s)]: coroutines that
    are at this moment resuming their awaiters; [actors (stack s)]: activations on the C++ call stack (TaskInv.v). *)
From stdpp Require Import gmap list.
From Verif Require Import TaskModel TaskInv TaskSpec TaskSafe TaskTrace TaskLegal TaskMore TaskAlive TaskCtx TaskFacts
  TaskLoop TaskParams TaskFacts2 TaskRun TaskLazy.

(** ** C01 *)
Theorem C01_memory_safety {V : Type} (mv : V -> V) (dflt : V) q s : reach mv dflt q s ->
  ¬ ub_next mv dflt q s UFreedFrame ∧ ¬ ub_next mv dflt q s UBadResume ∧ ¬ ub_next mv dflt q s UNoResult ∧
  ¬ ub_next mv dflt q s URefUnderflow ∧ ¬ ub_next mv dflt q s UDestroyRunning.
Proof. exact (c01 mv dflt q s). Qed.
Print Assumptions C01_memory_safety.
Example ex_C01_memory_safety : reach mv0 0 false run_two ∧ length (trace run_two) = 24 ∧ EDestroy 2 ∈ trace run_two.
Proof. split; [exact run_two_reach|]. split; [vm_compute; reflexivity|in_]. Qed.

(** ** C02 *)
Theorem C02_exists_iff_not_destroyed {V : Type} (mv : V -> V) (dflt : V) q s f : reach mv dflt q s ->
  (∃ fr, heap s !! f = Some fr) <-> (∃ k b w, ECreate f k b w ∈ trace s) ∧ EDestroy f ∉ trace s.
Proof. exact (c02_exists mv dflt q s f). Qed.
Print Assumptions C02_exists_iff_not_destroyed.
Example ex_C02_exists_iff_not_destroyed : reach mv0 0 false run_two ∧ is_Some (heap run_two !! 1) ∧ heap run_two !! 2 = None.
Proof. split; [exact run_two_reach|]. split; [eexists|]; vm_compute; reflexivity. Qed.

Theorem C02_destroyed_only_when_done {V : Type} (mv : V -> V) (dflt : V) q s f : reach mv dflt q s -> EDestroy f ∈ trace s ->
  (∃ o, EFinish f o ∈ trace s) ∧ queue f (trace s) = [] ∧ ∀ x ob, objs s !! x = Some ob -> ohandle ob ≠ Some f.
Proof. exact (c02_after mv dflt q s f). Qed.
Print Assumptions C02_destroyed_only_when_done.
Example ex_C02_destroyed_only_when_done : reach mv0 0 false run_two ∧ EDestroy 2 ∈ trace run_two.
Proof. split; [exact run_two_reach|in_]. Qed.

Theorem C02_freed_when_done {V : Type} (mv : V -> V) (dflt : V) q s f o : reach mv dflt q s -> EFinish f o ∈ trace s -> f ∉ finals (stack s) ->
  (∀ x ob, objs s !! x = Some ob -> ohandle ob ≠ Some f) -> EDestroy f ∈ trace s.
Proof. exact (c02_freed mv dflt q s f o). Qed.
Print Assumptions C02_freed_when_done.
Example ex_C02_freed_when_done : ∃ s f o, reach mv0 0 false s ∧ EFinish f o ∈ trace s ∧ f ∉ finals (stack s) ∧ ∀ x ob, objs s !! x = Some ob -> ohandle ob ≠ Some f.
Proof. exists run_two, 2, (Val 5). split; [exact run_two_reach|]. split; [in_|]. split; [dec|].
  apply no_owner. vm_compute. reflexivity. Qed.

Theorem C02_destroyed_once {V : Type} (mv : V -> V) (dflt : V) q s f l1 l2 : reach mv dflt q s -> trace s = l1 ++ EDestroy f :: l2 ->
  EDestroy f ∉ l1 ∧ EDestroy f ∉ l2 ∧ (∃ o, EFinish f o ∈ l2) ∧ ∀ e, e ∈ l1 -> by_actor e ≠ Some (Co f).
Proof. exact (c02_once mv dflt q s f l1 l2). Qed.
Print Assumptions C02_destroyed_once.
Example ex_C02_destroyed_once : ∃ l1 l2, trace run_two = l1 ++ EDestroy 2 :: l2.
Proof. exists (take 4 (trace run_two)), (drop 5 (trace run_two)). vm_compute. reflexivity. Qed.

(** ** C03 *)
Theorem C03_no_lost_wakeup {V : Type} (mv : V -> V) (dflt : V) q s f h : reach mv dflt q s -> h ∉ finals (stack s) -> phase_of f (trace s) = PhWait h ->
  ∀ o, EFinish h o ∉ trace s.
Proof. exact (c03 mv dflt q s f h). Qed.
Print Assumptions C03_no_lost_wakeup.
Example ex_C03_no_lost_wakeup : ∃ s f h, reach mv0 0 false s ∧ h ∉ finals (stack s) ∧ phase_of f (trace s) = PhWait h.
Proof. exists (run1 two_awaiters 100), 2, 1. split; [apply run1_reach|]. split; [dec|vm_compute; reflexivity]. Qed.

(** ** C04 *)
Theorem C04_fifo {V : Type} (mv : V -> V) (dflt : V) q s h : reach mv dflt q s -> waits h (trace s) = wakes h (trace s) ++ queue h (trace s).
Proof. exact (c04_order mv dflt q s h). Qed.
Print Assumptions C04_fifo.
Example ex_C04_fifo : reach mv0 0 false run_two ∧ waits 1 (trace run_two) = [2; 3].
Proof. split; [exact run_two_reach|vm_compute; reflexivity]. Qed.

Theorem C04_not_before_finish {V : Type} (mv : V -> V) (dflt : V) q s f h o l1 l2 : reach mv dflt q s -> trace s = l1 ++ EWake f h o :: l2 ->
  ∃ o', EFinish h o' ∈ l2.
Proof. exact (c04_after mv dflt q s f h o l1 l2). Qed.
Print Assumptions C04_not_before_finish.
Example ex_C04_not_before_finish : ∃ l1 l2, trace run_two = l1 ++ EWake 3 1 (Val 0) :: l2.
Proof. exists (take 3 (trace run_two)), (drop 4 (trace run_two)). vm_compute. reflexivity. Qed.

Theorem C04_all_resumed {V : Type} (mv : V -> V) (dflt : V) q s h o : reach mv dflt q s -> EFinish h o ∈ trace s -> h ∉ finals (stack s) ->
  wakes h (trace s) = waits h (trace s).
Proof. exact (c04_all mv dflt q s h o). Qed.
Print Assumptions C04_all_resumed.
Example ex_C04_all_resumed : reach mv0 0 false run_two ∧ EFinish 1 (Val 5) ∈ trace run_two ∧ 1 ∉ finals (stack run_two).
Proof. split; [exact run_two_reach|]. split; [in_|dec]. Qed.

(** ** C05: the i-th consumer gets the co_returned value after i moves; so the first gets exactly it. *)
Theorem C05_value {V : Type} (mv : V -> V) (dflt : V) q s h : reach mv dflt q s -> ∀ v, EFinish h (Val v) ∈ trace s ->
  ∀ i x, deliveries h (trace s) !! i = Some x -> x = Val (Nat.iter i mv v).
Proof. intros H v Hv i x Hx. rewrite <- (iter_consumed_val mv i v). exact (c05 mv dflt q s h H _ Hv i x Hx). Qed.
Print Assumptions C05_value.
Example ex_C05_value : reach mv0 0 false run_two ∧ EFinish 1 (Val 5) ∈ trace run_two ∧ deliveries 1 (trace run_two) = [Val 5; Val 0].
Proof. split; [exact run_two_reach|]. split; [in_|vm_compute; reflexivity]. Qed.

Theorem C05_exception {V : Type} (mv : V -> V) (dflt : V) q s h : reach mv dflt q s -> ∀ e, EFinish h (Exc e) ∈ trace s ->
  ∀ x, x ∈ deliveries h (trace s) -> x = Exc e.
Proof.
  intros H e He x [i Hx]%elem_of_list_lookup. rewrite <- (iter_consumed_exc mv i e). exact (c05 mv dflt q s h H _ He i x Hx).
Qed.
Print Assumptions C05_exception.
Example ex_C05_exception : reach mv0 0 false run_two_exc ∧ EFinish 1 (Exc (StdExn 7)) ∈ trace run_two_exc ∧
  deliveries 1 (trace run_two_exc) = [Exc (StdExn 7); Exc (StdExn 7)].
Proof. split; [exact run_two_exc_reach|]. split; [in_|vm_compute; reflexivity]. Qed.

Theorem C05_nothing_before_finish {V : Type} (mv : V -> V) (dflt : V) q s h : reach mv dflt q s -> (∀ o, EFinish h o ∉ trace s) -> deliveries h (trace s) = [].
Proof. exact (c05_none mv dflt q s h). Qed.
Print Assumptions C05_nothing_before_finish.
Example ex_C05_nothing_before_finish : ∃ s, reach mv0 0 false s ∧ (∀ o, EFinish 1 o ∉ trace s) ∧ EStart 1 ∈ trace s.
Proof. exists (run1 two_awaiters 100). split; [apply run1_reach|]. split; [intros o; not_in (is_fin 1)|in_]. Qed.

(** ** C06, positive part: true for types whose move leaves the value unchanged *)
Theorem C06_same_value_partial {V : Type} (mv : V -> V) (dflt : V) q s h : (∀ v, mv v = v) -> reach mv dflt q s -> ∀ o, EFinish h o ∈ trace s ->
  ∀ x, x ∈ deliveries h (trace s) -> x = o.
Proof. exact (c06_copy mv dflt q s h). Qed.
Print Assumptions C06_same_value_partial.
Example ex_C06_same_value_partial : (∀ v : nat, id v = v) ∧ reach id 0 false (play id 0 100 [EvHandler two_awaiters; EvFire 1 (Val 5)] (init ∅)) ∧
  deliveries 1 (trace (play id 0 100 [EvHandler two_awaiters; EvFire 1 (Val 5)] (init ∅))) = [Val 5; Val 5].
Proof. split; [done|]. split; [apply play_reach; noq|vm_compute; reflexivity]. Qed.

(** ** C07 *)
Theorem C07_starts_at_once {V : Type} (mv : V -> V) (dflt : V) q s f b w : reach mv dflt q s -> ECreate f KTask b w ∈ trace s ->
  ∃ l1 l2, trace s = l1 ++ EStart f :: ECreate f KTask b w :: l2.
Proof. exact (c07_start mv dflt q s f b w). Qed.
Print Assumptions C07_starts_at_once.
Example ex_C07_starts_at_once : reach mv0 0 false run_two ∧ ECreate 1 KTask (CUser leaf) (Plain 0) ∈ trace run_two.
Proof. split; [exact run_two_reach|in_]. Qed.

Theorem C07_caller_waits {V : Type} (mv : V -> V) (dflt : V) q s f b w e l1 l2 : reach mv dflt q s -> trace s = l1 ++ e :: l2 ->
  ECreate f KTask b w ∈ l2 -> by_actor e = Some w -> ∃ e', e' ∈ l2 ∧ leaves f e'.
Proof. exact (c07_caller mv dflt q s f b w e l1 l2). Qed.
Print Assumptions C07_caller_waits.
Example ex_C07_caller_waits : ∃ e l1 l2, trace run_two = l1 ++ e :: l2 ∧ ECreate 1 KTask (CUser leaf) (Plain 0) ∈ l2 ∧ by_actor e = Some (Plain 0).
Proof. eexists _, (take 19 (trace run_two)), (drop 20 (trace run_two)). split; [vm_compute; reflexivity|]. split; [in_|reflexivity]. Qed.

(** ** C08 *)
Theorem C08_await_finished {V : Type} (mv : V -> V) (dflt : V) q s f x c h ob st o0 : reach mv dflt q s -> stack s = Run (Co f) (CUser (PAwait x c)) :: st ->
  objs s !! x = Some ob -> ohandle ob = Some h -> EFinish h o0 ∈ trace s ->
  ∃ s' o, step mv dflt s = Next s' ∧ stack s' = Run (Co f) (CUser (c o)) :: st ∧ trace s' = ENow f h o :: trace s ∧
    result_of mv h (trace s) = Some o.
Proof. exact (c08 mv dflt q s f x c h ob st o0). Qed.
Print Assumptions C08_await_finished.
Example ex_C08_await_finished : ∃ s f x c h ob st o, reach mv0 0 false s ∧ stack s = Run (Co f) (CUser (PAwait x c)) :: st ∧
  objs s !! x = Some ob ∧ ohandle ob = Some h ∧ EFinish h o ∈ trace s.
Proof. exists (run1 (await_in done5) 4). do 7 eexists. split; [apply run1_reach|]. split; [vm_compute; reflexivity|]. split; [vm_compute; reflexivity|].
  split; [vm_compute; reflexivity|]. in_. Qed.

(** ** C09 *)
Theorem C09_empty_task_hangs {V : Type} (mv : V -> V) (dflt : V) q s f x c ob st : reach mv dflt q s -> stack s = Run (Co f) (CUser (PAwait x c)) :: st ->
  objs s !! x = Some ob -> okind ob = KTask -> ohandle ob = None ->
  ∃ s', step mv dflt s = Next s' ∧ stack s' = st ∧ trace s' = EHang f :: trace s.
Proof. exact (c09_hang mv dflt q s f x c ob st). Qed.
Print Assumptions C09_empty_task_hangs.
Example ex_C09_empty_task_hangs : ∃ s f x c ob st, reach mv0 0 false s ∧ stack s = Run (Co f) (CUser (PAwait x c)) :: st ∧
  objs s !! x = Some ob ∧ okind ob = KTask ∧ ohandle ob = None.
Proof. exists (run1 (await_null KTask) 2). do 5 eexists. split; [apply run1_reach|]. repeat split; vm_compute; reflexivity. Qed.

Theorem C09_forever {V : Type} (mv : V -> V) (dflt : V) q s f l1 l2 : reach mv dflt q s -> trace s = l1 ++ EHang f :: l2 ->
  ∀ e, e ∈ l1 -> by_actor e ≠ Some (Co f) ∧ e ≠ EDestroy f.
Proof. exact (c09_forever mv dflt q s f l1 l2). Qed.
Print Assumptions C09_forever.
Example ex_C09_forever : ∃ s l1 l2, reach mv0 0 false s ∧ trace s = l1 ++ EHang 1 :: l2.
Proof. exists (run1 (await_null KTask) 3), []. eexists. split; [apply run1_reach|vm_compute; reflexivity]. Qed.

(** ** C10 *)
Theorem C10_move_construct {V : Type} (mv : V -> V) (dflt : V) q s w x c st ob : reach mv dflt q s -> stack s = Run w (CUser (PMove x c)) :: st -> objs s !! x = Some ob ->
  ∃ s' t, step mv dflt s = Next s' ∧ stack s' = Run w (CUser (c t)) :: st ∧ heap s' = heap s ∧ objs s !! t = None ∧
    objs s' !! t = Some ob ∧ objs s' !! x = Some (Obj (okind ob) None) ∧
    (∀ y, y ≠ x -> y ≠ t -> objs s' !! y = objs s !! y) ∧ ∀ f, refs (objs s') f = refs (objs s) f.
Proof. exact (c10_move' mv dflt q s w x c st ob). Qed.
Print Assumptions C10_move_construct.
Example ex_C10_move_construct : ∃ s w x c st ob, reach mv0 0 false s ∧ stack s = Run w (CUser (PMove x c)) :: st ∧ objs s !! x = Some ob ∧ is_Some (ohandle ob).
Proof. exists (run1 (with_task leaf (λ t, PMove t (λ _, PRet 0))) 2). do 5 eexists. split; [apply run1_reach|]. split; [vm_compute; reflexivity|].
  split; [vm_compute; reflexivity|]. eexists; reflexivity. Qed.

Theorem C10_self_assign {V : Type} (mv : V -> V) (dflt : V) s w x p st ob : stack s = Run w (CUser (PAssign x x p)) :: st -> objs s !! x = Some ob ->
  ∃ s', step mv dflt s = Next s' ∧ stack s' = Run w (CUser p) :: st ∧ heap s' = heap s ∧ objs s' = objs s.
Proof. exact (c10_self mv dflt s w x p st ob). Qed.
Print Assumptions C10_self_assign.
Example ex_C10_self_assign : ∃ s w x p st ob, reach mv0 0 false s ∧ stack s = Run w (CUser (PAssign x x p)) :: st ∧ objs s !! x = Some ob.
Proof. exists (run1 (with_task leaf (λ t, PAssign t t (PRet 0))) 2). do 5 eexists. split; [apply run1_reach|]. split; vm_compute; reflexivity. Qed.

(** Assignment when the target's old coroutine survives: only its owner count drops. *)
Theorem C10_assign_shared {V : Type} (mv : V -> V) (dflt : V) q s w x y p st ox oy : reach mv dflt q s -> stack s = Run w (CUser (PAssign x y p)) :: st -> x ≠ y ->
  objs s !! x = Some ox -> objs s !! y = Some oy ->
  (∀ h fr, ohandle ox = Some h -> heap s !! h = Some fr -> 2 <= frc fr) ->
  ∃ s', steps mv dflt s s' ∧ stack s' = Run w (CUser p) :: st ∧
     objs s' = <[x := oy]> (<[y := Obj (okind oy) None]> (objs s)) ∧
     trace s' = EAct w AAssign :: trace s ∧
     (∀ f, refs (objs s') f + (if decide (ohandle ox = Some f) then 1 else 0) = refs (objs s) f) ∧
     (∀ f fr, heap s !! f = Some fr -> ∃ fr', heap s' !! f = Some fr' ∧ fstatus fr' = fstatus fr ∧
        fresult fr' = fresult fr ∧ fawaiters fr' = fawaiters fr).
Proof. exact (c10_assign_simple mv dflt q s w x y p st ox oy). Qed.
Print Assumptions C10_assign_shared.
Example ex_C10_assign_shared : ∃ s w x y p st ox oy, reach mv0 0 false s ∧ stack s = Run w (CUser (PAssign x y p)) :: st ∧ x ≠ y ∧
  objs s !! x = Some ox ∧ objs s !! y = Some oy ∧ ∀ h fr, ohandle ox = Some h -> heap s !! h = Some fr -> 2 <= frc fr.
Proof. exists (run1 (with_task leaf (λ t, with_task leaf (λ t2, PAssign t t2 (PRet 0)))) 4). eexists _, 0, 1, _, _, _, _.
  split; [apply run1_reach|]. split; [vm_compute; reflexivity|]. split; [done|]. split; [vm_compute; reflexivity|].
  split; [vm_compute; reflexivity|]. intros h fr Hh. injection Hh as <-. intros Hf.
  assert (E : frc <$> heap (run1 (with_task leaf (λ t, with_task leaf (λ t2, PAssign t t2 (PRet 0)))) 4) !! 1 = Some 2) by (vm_compute; reflexivity).
  rewrite Hf in E. cbn in E. injection E as ->. auto. Qed.

(** Assignment in general: the old coroutine may be destroyed, and with it its parameter objects (which could, by a
    user error, include x or y: then a dead Task is touched). *)
Theorem C10_assign {V : Type} (mv : V -> V) (dflt : V) q s w x y p st ox oy : reach mv dflt q s -> stack s = Run w (CUser (PAssign x y p)) :: st -> x ≠ y ->
  objs s !! x = Some ox -> objs s !! y = Some oy ->
  ∃ s', steps mv dflt s s' ∧
   (step mv dflt s' = UB UDeadTask ∨
    (stack s' = Run w (CUser p) :: st ∧ objs s' !! x = Some oy ∧ objs s' !! y = Some (Obj (okind oy) None) ∧
     (∀ z, z ≠ x -> z ≠ y -> objs s' !! z = objs s !! z ∨ objs s' !! z = None))).
Proof. exact (c10_assign mv dflt q s w x y p st ox oy). Qed.
Print Assumptions C10_assign.
Example ex_C10_assign : ∃ s w x y p st ox oy, reach mv0 0 false s ∧ stack s = Run w (CUser (PAssign x y p)) :: st ∧ x ≠ y ∧
  objs s !! x = Some ox ∧ objs s !! y = Some oy.
Proof. exists (run1 (with_task done5 (λ t, with_task leaf (λ t2, PAssign t t2 (PRet 0)))) 5). eexists _, 0, 1, _, _, _, _.
  split; [apply run1_reach|]. split; [vm_compute; reflexivity|]. split; [done|]. split; vm_compute; reflexivity. Qed.

(** The reference count is always the number of owners. *)
Theorem C10_refcount_exact {V : Type} (mv : V -> V) (dflt : V) q s f fr : reach mv dflt q s -> heap s !! f = Some fr ->
  frc fr = refs (objs s) f + (if is_final fr then (if decide (f ∈ finals (stack s)) then 1 else 0) else 1).
Proof. exact (c10_owner mv dflt q s f fr). Qed.
Print Assumptions C10_refcount_exact.
Example ex_C10_refcount_exact : reach mv0 0 false run_two ∧ frc <$> heap run_two !! 1 = Some 1 ∧ frc <$> heap (run1 two_awaiters 100) !! 1 = Some 2.
Proof. split; [exact run_two_reach|]. split; vm_compute; reflexivity. Qed.

(** ** C11 *)
Theorem C11_is_ready {V : Type} (mv : V -> V) (dflt : V) q s w x c st ob : reach mv dflt q s -> stack s = Run w (CUser (PReady x c)) :: st -> objs s !! x = Some ob ->
  ∃ s' b, step mv dflt s = Next s' ∧ stack s' = Run w (CUser (c b)) :: st ∧
    (b = true <-> ohandle ob = None ∨ ∃ h o, ohandle ob = Some h ∧ EFinish h o ∈ trace s).
Proof. exact (c11 mv dflt q s w x c st ob). Qed.
Print Assumptions C11_is_ready.
Example ex_C11_is_ready : ∃ s w x c st ob, reach mv0 0 false s ∧ stack s = Run w (CUser (PReady x c)) :: st ∧ objs s !! x = Some ob ∧ is_Some (ohandle ob).
Proof. exists (run1 (with_task leaf (λ t, PReady t (λ _, PRet 0))) 2). do 5 eexists. split; [apply run1_reach|]. split; [vm_compute; reflexivity|].
  split; [vm_compute; reflexivity|]. eexists; reflexivity. Qed.

Theorem C11_stable {V : Type} (mv : V -> V) (dflt : V) q s s' h o : exec mv dflt q s s' -> EFinish h o ∈ trace s -> EFinish h o ∈ trace s'.
Proof. exact (c11_stable mv dflt q s s' h o). Qed.
Print Assumptions C11_stable.

(** ** C12 *)
Theorem C12_lazy_start {V : Type} (mv : V -> V) (dflt : V) q s f b w l1 l2 : reach mv dflt q s -> ECreate f KLazy b w ∈ trace s -> trace s = l1 ++ EStart f :: l2 ->
  (∃ g l3, l2 = EWait g f :: l3) ∧ EStart f ∉ l1 ∧ EStart f ∉ l2 ∧ ∀ e, e ∈ l2 -> by_actor e ≠ Some (Co f).
Proof. exact (c12 mv dflt q s f b w l1 l2). Qed.
Print Assumptions C12_lazy_start.
Example ex_C12_lazy_start : ∃ s f b w l1 l2, reach mv0 0 false s ∧ ECreate f KLazy b w ∈ trace s ∧ trace s = l1 ++ EStart f :: l2.
Proof. exists (run1 lazy_await 100), 1, (CUser leaf), (Plain 0), (take 1 (trace (run1 lazy_await 100))), (drop 2 (trace (run1 lazy_await 100))).
  split; [apply run1_reach|]. split; [in_|vm_compute; reflexivity]. Qed.

Theorem C12_first_await_starts {V : Type} (mv : V -> V) (dflt : V) q s f x c ob h b w st : reach mv dflt q s -> stack s = Run (Co f) (CUser (PAwait x c)) :: st ->
  objs s !! x = Some ob -> ohandle ob = Some h -> ECreate h KLazy b w ∈ trace s -> EStart h ∉ trace s ->
  ∃ s' p, b = CUser p ∧ step mv dflt s = Next s' ∧ stack s' = Run (Co h) (CUser p) :: st ∧
    trace s' = EStart h :: EWait f h :: trace s.
Proof. exact (c12_await mv dflt q s f x c ob h b w st). Qed.
Print Assumptions C12_first_await_starts.
Example ex_C12_first_await_starts : ∃ s f x c ob h b w st, reach mv0 0 false s ∧ stack s = Run (Co f) (CUser (PAwait x c)) :: st ∧
  objs s !! x = Some ob ∧ ohandle ob = Some h ∧ ECreate h KLazy b w ∈ trace s ∧ EStart h ∉ trace s.
Proof. exists (run1 lazy_await 2). do 8 eexists. split; [apply run1_reach|]. split; [vm_compute; reflexivity|]. split; [vm_compute; reflexivity|].
  split; [vm_compute; reflexivity|]. split; [in_|]. not_in (is_start 1). Qed.

(** ** C16 / C17 *)
Theorem C16_C17_then {V : Type} (mv : V -> V) (dflt : V) q s f k x cb err w : reach mv dflt q s -> ECreate f k (CUser (then_body dflt x cb err)) w ∈ trace s ->
  proj (Co f) (trace s) = [] ∨
  ∃ o l, proj (Co f) (trace s) = l ++ [LAwait o] ∧ then_run dflt cb err o l ∧ (Co f ∉ actors (stack s) -> l ≠ []).
Proof. exact (c16 mv dflt q s f k x cb err w). Qed.
Print Assumptions C16_C17_then.
Example ex_C16_C17_then : ∃ s f k x w, reach mv0 0 false s ∧ ECreate f k (CUser (then_body 0 x cb1 (Some err1))) w ∈ trace s ∧
  proj (Co f) (trace s) = [LFinish (Val 6); LObs (OUser 5); LObs (OThen 5); LAwait (Val 5)].
Proof. exists (run2 (use_then leaf) 1 (Val 5) 100), 2, KTask, 0, (Plain 0). split; [apply run2_reach|]. split; [in_|vm_compute; reflexivity]. Qed.

(** [LFinish o] among the local events is the coroutine's completion. *)
Theorem C16_completion {V : Type} f o (tr : list (event V)) : EFinish f o ∈ tr <-> LFinish o ∈ proj (Co f) tr.
Proof. exact (proj_finish f o tr). Qed.
Print Assumptions C16_completion.

Theorem C16_task_callback {V : Type} (cb : V -> prog V nat) v l : walk (task_cb cb v) l None ->
  (∃ e l', l = LFinish (Exc e) :: l') ∨ (∃ o t l', l = LFinish o :: LAct (ADrop t) :: LAwait o :: l').
Proof. exact (task_cb_result cb v l). Qed.
Print Assumptions C16_task_callback.

Theorem C16_already_finished {V : Type} (mv : V -> V) (dflt : V) q s w x cb err c st ob h v o0 : reach mv dflt q s ->
  stack s = Run w (CUser (then_ref dflt KTask x cb err c)) :: st ->
  objs s !! x = Some ob -> ohandle ob = Some h -> EFinish h o0 ∈ trace s -> result_of mv h (trace s) = Some (Val v) ->
  ∃ s' f t l, steps mv dflt s s' ∧ stack s' = Run (Co f) (CUser (cb v)) :: Run w (CUser (c t)) :: st ∧
    trace s' = EObs (Co f) (OThen v) :: ENow f h (Val v) :: l ++ trace s ∧
    (∀ e, e ∈ l -> by_actor e = Some w ∨ e = EStart f).
Proof. exact (then_now mv dflt q s w x cb err c st ob h v o0). Qed.
Print Assumptions C16_already_finished.
Example ex_C16_already_finished : ∃ s w x c st ob h v o0, reach mv0 0 false s ∧ stack s = Run w (CUser (then_ref 0 KTask x cb1 (Some err1) c)) :: st ∧
  objs s !! x = Some ob ∧ ohandle ob = Some h ∧ EFinish h o0 ∈ trace s ∧ result_of mv0 h (trace s) = Some (Val v).
Proof. exists (run1 (use_then done5) 3), (Plain 0), 0, (λ _, PRet 0). do 5 eexists. split; [apply run1_reach|]. split; [vm_compute; reflexivity|].
  split; [vm_compute; reflexivity|]. split; [vm_compute; reflexivity|]. split; [in_|]. vm_compute; reflexivity. Qed.

Theorem C16_not_yet_finished {V : Type} (mv : V -> V) (dflt : V) q s w x cb err c st ob h : reach mv dflt q s ->
  stack s = Run w (CUser (then_ref dflt KTask x cb err c)) :: st ->
  objs s !! x = Some ob -> okind ob = KTask -> ohandle ob = Some h -> (∀ o, EFinish h o ∉ trace s) ->
  ∃ s' f t l, steps mv dflt s s' ∧ stack s' = Run w (CUser (c t)) :: st ∧ trace s' = EWait f h :: l ++ trace s ∧
    ECreate f KTask (CUser (then_body dflt x cb err)) w ∈ l.
Proof. exact (then_later mv dflt q s w x cb err c st ob h). Qed.
Print Assumptions C16_not_yet_finished.
Example ex_C16_not_yet_finished : ∃ s w x c st ob h, reach mv0 0 false s ∧ stack s = Run w (CUser (then_ref 0 KTask x cb1 (Some err1) c)) :: st ∧
  objs s !! x = Some ob ∧ okind ob = KTask ∧ ohandle ob = Some h ∧ ∀ o, EFinish h o ∉ trace s.
Proof. exists (run1 (use_then leaf) 2), (Plain 0), 0, (λ _, PRet 0). do 3 eexists. split; [apply run1_reach|]. split; [vm_compute; reflexivity|].
  split; [vm_compute; reflexivity|]. split; [vm_compute; reflexivity|]. split; [vm_compute; reflexivity|]. intros o. not_in (is_fin 1). Qed.

Theorem C17_error_callback_result {V : Type} (dflt : V) (p : prog V unit) l : walk (pbind p (λ _, PRet dflt)) l None ->
  (∃ l', l = LFinish (Val dflt) :: l') ∨ (∃ e l', l = LFinish (Exc e) :: l').
Proof. exact (err_result dflt p l). Qed.
Print Assumptions C17_error_callback_result.

(** ** C18 *)
Theorem C18_param_alive {V : Type} (mv : V -> V) (dflt : V) q s w t f ps p : reach mv dflt q s -> EAct w (ACall t f ps) ∈ trace s -> p ∈ ps ->
  EDestroy f ∉ trace s -> (∀ w', EAct w' (ADrop p) ∉ trace s) -> is_Some (objs s !! p).
Proof. exact (c18_alive mv dflt q s w t f ps p). Qed.
Print Assumptions C18_param_alive.
Example ex_C18_param_alive : ∃ s w t f ps p, reach mv0 0 false s ∧ EAct w (ACall t f ps) ∈ trace s ∧ p ∈ ps ∧ EDestroy f ∉ trace s ∧ ∀ w', EAct w' (ADrop p) ∉ trace s.
Proof. exists (run1 (use_then_move leaf) 100), (Plain 0), 1, 2, [2], 2. split; [apply run1_reach|]. split; [in_|]. split; [left|].
  split; [not_in (is_destroy 2)|]. intros w. not_in (is_drop 2). Qed.

Theorem C18_param_released {V : Type} (mv : V -> V) (dflt : V) q s w t f ps p : reach mv dflt q s -> EAct w (ACall t f ps) ∈ trace s -> p ∈ ps ->
  EDestroy f ∈ trace s -> stack s = [] -> objs s !! p = None.
Proof. exact (c18_released mv dflt q s w t f ps p). Qed.
Print Assumptions C18_param_released.
Example ex_C18_param_released : ∃ s w t f ps p, reach mv0 0 false s ∧ EAct w (ACall t f ps) ∈ trace s ∧ p ∈ ps ∧ EDestroy f ∈ trace s ∧ stack s = [].
Proof. exists (run2 (use_then_move leaf) 1 (Val 5) 100), (Plain 0), 1, 2, [2], 2. split; [apply run2_reach|]. split; [in_|]. split; [left|].
  split; [in_|vm_compute; reflexivity]. Qed.

(** ** C19 *)
Theorem C19_connect {V : Type} (mv : V -> V) (dflt : V) q s f k x qo cb w : reach mv dflt q s -> ECreate f k (CUser (connect_body dflt x qo cb)) w ∈ trace s ->
  proj (Co f) (trace s) = [] ∨
  ∃ o l, proj (Co f) (trace s) = l ++ [LAwait o] ∧ connect_run dflt (Co f ∈ actors (stack s)) qo cb o l.
Proof. exact (c19 mv dflt q s f k x qo cb w). Qed.
Print Assumptions C19_connect.
Example ex_C19_connect : ∃ s f k x w, reach mv0 0 false s ∧ ECreate f k (CUser (connect_body 0 x 7 cb1)) w ∈ trace s ∧
  proj (Co f) (trace s) = [LFinish (Val 6); LObs (OUser 5); LObs (OConn 7 5); LAct (AAlive 7 true); LObs (OThen 5); LAwait (Val 5)].
Proof. exists (run2 (use_connect leaf) 1 (Val 5) 100), 2, KTask, 0, (Plain 0). split; [apply run2_reach|]. split; [in_|vm_compute; reflexivity]. Qed.

(** The QPointer check is truthful, and the callback is invoked only with the context alive. *)
Theorem C19_context {V : Type} (mv : V -> V) (dflt : V) q qs s : exec mv dflt q (init qs) s -> alive_trace qs (trace s).
Proof. exact (c19_alive mv dflt q qs s). Qed.
Print Assumptions C19_context.
Example ex_C19_context : ∃ s f, reach mv0 0 false s ∧ EKill 7 ∈ trace s ∧
  proj (Co f) (trace s) = [LFinish (Val 0); LAct (AAlive 7 false); LObs (OThen 5); LAwait (Val 5)].
Proof. exists (run3 (use_connect leaf) 1 (Val 5) 100), 2. split; [apply run3_reach|]. split; [in_|vm_compute; reflexivity]. Qed.

(** ** C20, C21 *)
Theorem C20_waitfor_outcome {V : Type} (mv : V -> V) (dflt : V) s w i o l1 l2 : reach mv dflt false s -> trace s = l1 ++ EWaitRet w i o :: l2 ->
  ∃ f h o' n, EWaitCall w i f (Some h) ∈ l2 ∧ EFinish h o' ∈ l2 ∧ deliveries h l2 !! n = Some o ∧
    o = Nat.iter n (consumed mv) o'.
Proof. exact (c20 mv dflt s w i o l1 l2). Qed.
Print Assumptions C20_waitfor_outcome.
Example ex_C20_waitfor_outcome : ∃ s l1 l2, reach mv0 0 false s ∧ trace s = l1 ++ EWaitRet (Plain 0) 0 (Val 5) :: l2.
Proof. exists (run2 (use_wait false leaf) 1 (Val 5) 100). eexists (take 1 (trace (run2 (use_wait false leaf) 1 (Val 5) 100))), _. split; [apply run2_reach|vm_compute; reflexivity]. Qed.

Theorem C20_waitfor_safe {V : Type} (mv : V -> V) (dflt : V) s r : reach mv dflt false s -> ub_next mv dflt false s r -> r ≠ UDanglingCtx ∧ r ≠ UEmptyOptional.
Proof. exact (no_quit_ub mv dflt s r). Qed.
Print Assumptions C20_waitfor_safe.

Theorem C21_no_loop_for_finished {V : Type} (mv : V -> V) (dflt : V) q s i l1 l2 : reach mv dflt q s -> trace s = l1 ++ ELoop i :: l2 ->
  ∃ w f hd, EWaitCall w i f hd ∈ l2 ∧ ∀ h o, hd = Some h -> EFinish h o ∉ l2.
Proof. exact (c21_loop mv dflt q s i l1 l2). Qed.
Print Assumptions C21_no_loop_for_finished.
Example ex_C21_no_loop_for_finished : ∃ s l1 l2, reach mv0 0 false s ∧ trace s = l1 ++ ELoop 0 :: l2.
Proof. exists (run1 (use_wait false leaf) 100). eexists [], _. split; [apply run1_reach|vm_compute; reflexivity]. Qed.

Theorem C21_synchronous {V : Type} (mv : V -> V) (dflt : V) q s w vd x c st ob h o0 : reach mv dflt q s -> stack s = Run w (CUser (PWaitFor vd x c)) :: st ->
  objs s !! x = Some ob -> ohandle ob = Some h -> EFinish h o0 ∈ trace s ->
  ∃ s' o l, steps mv dflt s s' ∧ stack s' = Run w (CUser (c o)) :: st ∧ trace s' = l ++ trace s ∧
    result_of mv h (trace s) = Some o ∧ ∀ i, ELoop i ∉ l.
Proof. exact (c21 mv dflt q s w vd x c st ob h o0). Qed.
Print Assumptions C21_synchronous.
Example ex_C21_synchronous : ∃ s w vd x c st ob h o0, reach mv0 0 false s ∧ stack s = Run w (CUser (PWaitFor vd x c)) :: st ∧
  objs s !! x = Some ob ∧ ohandle ob = Some h ∧ EFinish h o0 ∈ trace s.
Proof. exists (run1 (use_wait false done5) 3). do 8 eexists. split; [apply run1_reach|]. split; [vm_compute; reflexivity|].
  split; [vm_compute; reflexivity|]. split; [vm_compute; reflexivity|]. in_. Qed.

(** ** Violated properties: the code does not have them. Values are naturals, a moved-from value is 0. *)

(** C06: two awaiters of one task that co_returns 5 get 5 and 0. *)
Theorem C06_same_value_refuted : ¬ ∀ s h o x, reach mv0 0 false s -> EFinish h o ∈ trace s ->
  x ∈ deliveries h (trace s) -> x = o.
Proof. exact c06_refuted. Qed.
Print Assumptions C06_same_value_refuted.

(** C13: the only LazyTask object of a coroutine that was never awaited is destroyed; the program is idle; no Task object
    refers to the coroutine; its frame still exists and is never destroyed. *)
Theorem C13_lazy_drop_frees_refuted : ¬ ∀ s f b w, reach mv0 0 false s -> stack s = [] -> ECreate f KLazy b w ∈ trace s ->
  (∀ x ob, objs s !! x = Some ob -> ohandle ob ≠ Some f) -> EDestroy f ∈ trace s.
Proof. exact c13_refuted. Qed.
Print Assumptions C13_lazy_drop_frees_refuted.

(** Not only in that state: such a frame stays for ever, whatever happens later. *)
Theorem C13_leaks_forever {V} (mv : V -> V) (dflt : V) q s s' f : reach mv dflt q s ->
  phase_of f (trace s) = PhInit ->
  (∀ x ob, objs s !! x = Some ob -> ohandle ob ≠ Some f) -> exec mv dflt q s s' ->
  EDestroy f ∉ trace s' ∧ EStart f ∉ trace s'.
Proof. exact (c13_forever mv dflt q s s' f). Qed.
Print Assumptions C13_leaks_forever.

(** C14: awaiting an empty LazyTask is undefined behaviour (transfer to a null handle), not a warning and a hang. *)
Theorem C14_lazy_null_refuted : ¬ ∀ s f x c ob st, reach mv0 0 false s -> stack s = Run (Co f) (CUser (PAwait x c)) :: st ->
  objs s !! x = Some ob -> ohandle ob = None -> ∃ s', step mv0 0 s = Next s' ∧ stack s' = st ∧ trace s' = EHang f :: trace s.
Proof. exact c14_refuted. Qed.
Print Assumptions C14_lazy_null_refuted.

(** C15: a second co_await of a LazyTask that is started but not finished resumes it at the wrong place. *)
Theorem C15_lazy_reawait_refuted : ¬ ∀ s f x c ob h st, reach mv0 0 false s -> stack s = Run (Co f) (CUser (PAwait x c)) :: st ->
  objs s !! x = Some ob -> ohandle ob = Some h -> EStart h ∈ trace s -> (∀ o, EFinish h o ∉ trace s) ->
  ∃ s', step mv0 0 s = Next s' ∧ stack s' = st ∧ trace s' = EWait f h :: trace s.
Proof. exact c15_refuted. Qed.
Print Assumptions C15_lazy_reawait_refuted.

(** C22: quitting the nested loop of a waitFor() on a non-void task reads an empty optional; on a void task waitFor()
    returns although the task has not finished, and the later completion writes to a dead context. *)
Theorem C22_quit_refuted : ¬ ∀ s r, reach mv0 0 true s -> ub_next mv0 0 true s r -> r ≠ UEmptyOptional.
Proof. exact c22_refuted. Qed.
Print Assumptions C22_quit_refuted.

Theorem C22_quit_void_refuted : ¬ ∀ s r, reach mv0 0 true s -> ub_next mv0 0 true s r -> r ≠ UDanglingCtx.
Proof. exact c22_void_refuted. Qed.
Print Assumptions C22_quit_void_refuted.
