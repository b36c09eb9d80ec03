(** * Property theorems C18 and C19, second part: the calls of then() on an rvalue and of connect(), on tasks and on futures.

    Vocabulary: TaskModel.v, TaskSpec.v. [steps s s']: the machine runs from s to s' without any event of the event loop. *)
From stdpp Require Import gmap list.
From Verif Require Import TaskModel TaskInv TaskSpec TaskFacts TaskFacts2 TaskRun ConnectFacts.

(** ** C18 *)

(** std::move(task).then(...): the new coroutine has a by-value parameter p that takes over what the task referred to, and awaits p; the task is empty. *)
Theorem C18_then_move {V : Type} (mv : V -> V) (dflt : V) q s w k x ob cb err c st : reach mv dflt q s ->
  stack s = Run w (CUser (then_move dflt k x cb err c)) :: st -> objs s !! x = Some ob ->
  ∃ s' t f p, step mv dflt s = Next s' ∧ objs s' !! p = Some ob ∧ objs s' !! x = Some (Obj (okind ob) None) ∧ p ≠ x ∧
    objs s !! p = None ∧ objs s' !! t = Some (Obj k (Some f)) ∧ EAct w (ACall t f [p]) ∈ trace s' ∧
    ECreate f k (CUser (then_body dflt p cb err)) w ∈ trace s' ∧
    stack s' = match k with KTask => [Run (Co f) (CUser (then_body dflt p cb err))] | KLazy => [] end ++ Run w (CUser (c t)) :: st.
Proof. exact (then_moved mv dflt q s w k x ob cb err c st). Qed.
Print Assumptions C18_then_move.
Example ex_C18_then_move : ∃ s w x ob c st, reach mv0 0 false s ∧ stack s = Run w (CUser (then_move 0 KTask x cb1 None c)) :: st ∧
  objs s !! x = Some ob ∧ ohandle ob = Some 1.
Proof. exists (run1 (use_then_move leaf) 2), (Plain 0), 0. do 3 eexists. split; [apply run1_reach|]. split_and!; vm_compute; reflexivity. Qed.

(** ** C19 *)

(** connect() on an unfinished task: returns at once; a coroutine waits for the task; no Task refers to that coroutine. *)
Theorem C19_call_pending {V : Type} (mv : V -> V) (dflt : V) q s w x qo cb c st ob h : reach mv dflt q s ->
  stack s = Run w (CUser (connect dflt x qo cb c)) :: st ->
  objs s !! x = Some ob -> okind ob = KTask -> ohandle ob = Some h -> (∀ o, EFinish h o ∉ trace s) ->
  ∃ s' f t, steps mv dflt s s' ∧ stack s' = Run w (CUser c) :: st ∧ objs s' = objs s ∧
    trace s' = EAct w (ADrop t) :: EWait f h :: EStart f :: ECreate f KTask (CUser (connect_body dflt x qo cb)) w :: EAct w (ACall t f []) :: trace s.
Proof. exact (connect_later mv dflt q s w x qo cb c st ob h). Qed.
Print Assumptions C19_call_pending.
Example ex_C19_call_pending : ∃ s w x ob c st h, reach mv0 0 false s ∧ stack s = Run w (CUser (connect 0 x 7 cb1 c)) :: st ∧
  objs s !! x = Some ob ∧ okind ob = KTask ∧ ohandle ob = Some h ∧ ∀ o, EFinish h o ∉ trace s.
Proof. exists (run1 (use_connect leaf) 2), (Plain 0), 0. do 4 eexists. split; [apply run1_reach|]. split_and!; [vm_compute; reflexivity..|]. intros o. not_in (is_fin 1). Qed.

(** connect() on a task that has finished with a value, context alive: the callback is called within connect(), with that value. *)
Theorem C19_call_finished {V : Type} (mv : V -> V) (dflt : V) q s w x qo cb c st ob h v o0 : reach mv dflt q s ->
  stack s = Run w (CUser (connect dflt x qo cb c)) :: st ->
  objs s !! x = Some ob -> ohandle ob = Some h -> EFinish h o0 ∈ trace s -> result_of mv h (trace s) = Some (Val v) -> qo ∈ alive s ->
  ∃ s' f t, steps mv dflt s s' ∧ stack s' = Run (Co f) (CUser (cb v)) :: Run w (CUser (PDrop t c)) :: st ∧
    objs s' = <[t := Obj KTask (Some f)]> (objs s) ∧
    trace s' = EObs (Co f) (OConn qo v) :: EAct (Co f) (AAlive qo true) :: EObs (Co f) (OThen v) :: ENow f h (Val v) :: EStart f ::
      ECreate f KTask (CUser (connect_body dflt x qo cb)) w :: EAct w (ACall t f []) :: trace s.
Proof. exact (connect_now mv dflt q s w x qo cb c st ob h v o0). Qed.
Print Assumptions C19_call_finished.
Example ex_C19_call_finished : ∃ s w x ob c st h, reach mv0 0 false s ∧ stack s = Run w (CUser (connect 0 x 7 cb1 c)) :: st ∧
  objs s !! x = Some ob ∧ ohandle ob = Some h ∧ EFinish h (Val 5) ∈ trace s ∧ result_of mv0 h (trace s) = Some (Val 5) ∧ 7 ∈ alive s.
Proof. exists (run1 (use_connect done5) 3), (Plain 0), 0. do 4 eexists. split; [apply run1_reach|]. split_and!; [vm_compute; reflexivity..|in_|vm_compute; reflexivity|dec]. Qed.

(** connect() on a finished task whose context is dead, or that failed: connect() returns, nothing was called, nothing is left. *)
Theorem C19_call_nothing {V : Type} (mv : V -> V) (dflt : V) q s w x qo cb c st ob h o o0 : reach mv dflt q s ->
  stack s = Run w (CUser (connect dflt x qo cb c)) :: st ->
  objs s !! x = Some ob -> ohandle ob = Some h -> EFinish h o0 ∈ trace s -> result_of mv h (trace s) = Some o -> (∀ v, o = Val v -> qo ∉ alive s) ->
  ∃ s' l, steps mv dflt s s' ∧ stack s' = Run w (CUser c) :: st ∧ objs s' = objs s ∧ trace s' = l ++ trace s ∧ (∀ f v, EObs f (OConn qo v) ∉ l).
Proof. exact (connect_nothing mv dflt q s w x qo cb c st ob h o o0). Qed.
Print Assumptions C19_call_nothing.
Example ex_C19_call_nothing : ∃ s w x ob c st h, reach mv0 0 false s ∧ stack s = Run w (CUser (connect 0 x 7 cb1 c)) :: st ∧
  objs s !! x = Some ob ∧ ohandle ob = Some h ∧ EFinish h (Exc (StdExn 3)) ∈ trace s ∧ result_of mv0 h (trace s) = Some (Exc (StdExn 3)).
Proof. exists (run1 (use_connect (PThrow (StdExn 3))) 3), (Plain 0), 0. do 4 eexists. split; [apply run1_reach|]. split_and!; [vm_compute; reflexivity..|in_|vm_compute; reflexivity]. Qed.

(** connect() on a future that is not finished: returns at once; a coroutine waits for the future, a second one for the first; no Task refers to them. *)
Theorem C19_future_pending {V : Type} (mv : V -> V) (dflt : V) q s w qo cb c st : reach mv dflt q s ->
  stack s = Run w (CUser (connect_future dflt None qo cb c)) :: st ->
  ∃ s' f t g u, steps mv dflt s s' ∧ stack s' = Run w (CUser c) :: st ∧ objs s' = objs s ∧
    trace s' = EAct w (ADrop t) :: EAct w (ADrop u) ::
      EWait g f :: EStart g :: ECreate g KTask (CUser (connect_body dflt t qo cb)) w :: EAct w (ACall u g []) ::
      ELeafWait f :: EStart f :: ECreate f KTask (CUser (to_task_body None)) w :: EAct w (ACall t f []) :: trace s.
Proof. exact (future_later mv dflt q s w qo cb c st). Qed.
Print Assumptions C19_future_pending.

(** The first coroutine ends with what the future delivers: so does what C19_connect says about the second one. *)
Theorem C19_future_outcome {V : Type} (mv : V -> V) (dflt : V) q s f k w : reach mv dflt q s -> ECreate f k (CUser (to_task_body None)) w ∈ trace s ->
  proj (Co f) (trace s) = [] ∨ ∃ o, proj (Co f) (trace s) = [LFinish o; LLeaf o] ∨ proj (Co f) (trace s) = [LLeaf o] ∧ Co f ∈ actors (stack s).
Proof. exact (future_life mv dflt q s f k w). Qed.
Print Assumptions C19_future_outcome.
Definition use_future (now : option (outcome nat)) : prog nat nat := connect_future 0 now 7 cb1 (PObs (OUser 4) (PRet 0)).
Example ex_C19_future_pending : ∃ s s', reach mv0 0 false s ∧ stack s = [Run (Plain 0) (CUser (use_future None))] ∧
  reach mv0 0 false s' ∧ ECreate 1 KTask (CUser (to_task_body None)) (Plain 0) ∈ trace s' ∧ ECreate 2 KTask (CUser (connect_body 0 0 7 cb1)) (Plain 0) ∈ trace s' ∧
  proj (Co 1) (trace s') = [LFinish (Val 5); LLeaf (Val 5)] ∧
  proj (Co 2) (trace s') = [LFinish (Val 6); LObs (OUser 5); LObs (OConn 7 5); LAct (AAlive 7 true); LObs (OThen 5); LAwait (Val 5)] ∧
  heap s' = ∅ ∧ objs s' = ∅.
Proof.
  exists (run1 (use_future None) 0), (run2 (use_future None) 1 (Val 5) 100). split; [apply run1_reach|]. split; [vm_compute; reflexivity|].
  split; [apply run2_reach|]. split; [in_|]. split; [in_|]. split_and!; try (vm_compute; reflexivity); apply map_size_empty_inv; vm_compute; reflexivity.
Qed.

(** connect() on a finished future: the callback is called within connect(). *)
Theorem C19_future_ready {V : Type} (mv : V -> V) (dflt : V) q s w qo cb c st v : reach mv dflt q s ->
  stack s = Run w (CUser (connect_future dflt (Some (Val v)) qo cb c)) :: st -> qo ∈ alive s ->
  ∃ s' f t g u, steps mv dflt s s' ∧ stack s' = Run (Co g) (CUser (cb v)) :: Run w (CUser (PDrop u (PDrop t c))) :: st ∧
    objs s' = <[u := Obj KTask (Some g)]> (<[t := Obj KTask (Some f)]> (objs s)) ∧
    trace s' = EObs (Co g) (OConn qo v) :: EAct (Co g) (AAlive qo true) :: EObs (Co g) (OThen v) :: ENow g f (Val v) :: EStart g ::
      ECreate g KTask (CUser (connect_body dflt t qo cb)) w :: EAct w (ACall u g []) ::
      EFinish f (Val v) :: EStart f :: ECreate f KTask (CUser (to_task_body (Some (Val v)))) w :: EAct w (ACall t f []) :: trace s.
Proof. exact (future_now mv dflt q s w qo cb c st v). Qed.
Print Assumptions C19_future_ready.
Example ex_C19_future_ready : ∃ s s', reach mv0 0 false s ∧ stack s = [Run (Plain 0) (CUser (use_future (Some (Val 5))))] ∧ 7 ∈ alive s ∧
  reach mv0 0 false s' ∧ proj (Plain 0) (trace s') = [LObs (OUser 4); LAct (ADrop 0); LAct (ADrop 1); LAct (ACall 1 2 []); LAct (ACall 0 1 [])] ∧
  proj (Co 2) (trace s') = [LFinish (Val 6); LObs (OUser 5); LObs (OConn 7 5); LAct (AAlive 7 true); LObs (OThen 5); LAwait (Val 5)] ∧ heap s' = ∅ ∧ objs s' = ∅.
Proof.
  exists (run1 (use_future (Some (Val 5))) 0), (run1 (use_future (Some (Val 5))) 100). split; [apply run1_reach|]. split; [vm_compute; reflexivity|].
  split; [dec|]. split; [apply run1_reach|]. split_and!; try (vm_compute; reflexivity); apply map_size_empty_inv; vm_compute; reflexivity.
Qed.
