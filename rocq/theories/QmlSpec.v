(** * Vocabulary for QmlTask: functions on traces (newest event first). *)
From stdpp Require Import list option.
From Verif Require Import QmlModel.

(** The QmlTask objects that exist, with the data they share. *)
Fixpoint holders (tr : list qev) : list (nat * nat) :=
  match tr with
  | [] => []
  | QECreate h p :: tr | QEDefault h p :: tr | QECopy h p :: tr => (h, p) :: holders tr
  | QEDrop h :: tr => without h (holders tr)
  | _ :: tr => holders tr
  end.
(** [p] has a task. *)
Fixpoint has_task (p : nat) (tr : list qev) : bool :=
  match tr with [] => false | QECreate _ p' :: tr => bool_decide (p' = p) || has_task p tr | _ :: tr => has_task p tr end.
(** How the task of [p] ended: with a value, or an exception. *)
Fixpoint outcome (p : nat) (tr : list qev) : option (option nat) :=
  match tr with
  | [] => None
  | QEDone p' v :: tr => if decide (p' = p) then Some (Some v) else outcome p tr
  | QEFail p' :: tr => if decide (p' = p) then Some None else outcome p tr
  | _ :: tr => outcome p tr
  end.
(** The callbacks registered with [p] by then() and await(), oldest first. *)
Fixpoint callbacks (p : nat) (tr : list qev) : list nat :=
  match tr with [] => [] | QERegister p' c _ :: tr => if decide (p' = p) then callbacks p tr ++ [c] else callbacks p tr | _ :: tr => callbacks p tr end.
(** What callback [c] is. *)
Fixpoint owner (c : nat) (tr : list qev) : option (nat * ckind) :=
  match tr with [] => None | QERegister p c' k :: tr => if decide (c' = c) then Some (p, k) else owner c tr | _ :: tr => owner c tr end.
Fixpoint called (c : nat) (tr : list qev) : bool :=
  match tr with [] => false | QECall c' _ :: tr => bool_decide (c' = c) || called c tr | _ :: tr => called c tr end.
Definition uncalled (tr : list qev) (l : list nat) : list nat := List.filter (λ c, negb (called c tr)) l.
(** No callback of [p] has been called. *)
Definition fresh (p : nat) (tr : list qev) : bool := forallb (λ c, negb (called c tr)) (callbacks p tr).
Fixpoint killed (l : nat) (tr : list qev) : bool :=
  match tr with [] => false | QEKill l' :: tr => bool_decide (l' = l) || killed l tr | _ :: tr => killed l tr end.
(** Undefined behaviour has happened. *)
Fixpoint broken (tr : list qev) : bool := match tr with [] => false | QEBad _ :: _ => true | _ :: tr => broken tr end.
(** What is observed when callback [c], of kind [k], runs with value [v]: the JS function is called with it, or the listener's value set if it is alive. *)
Definition effect (c : nat) (k : ckind) (v : option nat) (tr : list qev) : list qev :=
  match k with
  | KJs => [QECall c v]
  | KListen l => if killed l tr then [QECall c v] else [QESet l v; QECall c v]
  end.

(** How often callback [c] has been called. *)
Fixpoint calls (c : nat) (tr : list qev) : nat :=
  match tr with [] => 0 | QECall c' _ :: tr => (if decide (c' = c) then 1 else 0) + calls c tr | _ :: tr => calls c tr end.
(** [l] has been mentioned. *)
Fixpoint known (l : nat) (tr : list qev) : bool :=
  match tr with
  | [] => false
  | QESet l' _ :: tr | QEKill l' :: tr => bool_decide (l' = l) || known l tr
  | QERegister _ _ (KListen l') :: tr => bool_decide (l' = l) || known l tr
  | _ :: tr => known l tr end.
(** Every callback that can run has run: the event loop is idle. *)
Definition settled (s : qst) : Prop := ∀ p, qperform (AQResume p) s = None.
