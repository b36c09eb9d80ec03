(** * Properties of the results of signals: C40, C41, C79. The model is ShapeModel.v. *)
From stdpp Require Import list option strings.
From Coq Require Import Ascii String.
From Verif Require Import ShapeModel ShapeFacts.
Open Scope list_scope.
Local Notation length := List.length (only parsing).

(** ** C41 *)

(** With each of the compilers a type is taken for a private signal if and only if its name ends in QPrivateSignal. *)
Theorem C41_private_by_name c type : is_private c type = true <-> ∃ p, type = p ++ T "QPrivateSignal".
Proof. apply is_private_spec. Qed.
(** Whatever a compiler makes of the function's name: what counts is what stands before the last bracket. *)
Definition bracket (c : compiler) : ascii := match c with Msvc => ">"%char | _ => "]"%char end.
Theorem C41_any_format c name : get_value c name = true <-> ∃ p rest, name = p ++ T "QPrivateSignal" ++ bracket c :: rest ∧ bracket c ∉ rest.
Proof.
  unfold get_value. fold (bracket c). split.
  - destruct (rfind (bracket c) name) as [n|] eqn:E; [|done]. apply rfind_some in E as (l & rest & -> & <- & Hr).
    destruct (_ <? _)%nat eqn:E; [done|]. apply Nat.ltb_ge in E. intros (p & ->)%same_tail_spec; [|done]. exists p, rest. split; [by rewrite <- (assoc_L (++))|done].
  - intros (p & rest & -> & Hr). rewrite (assoc_L (++)), rfind_last by done. destruct (_ <? _)%nat eqn:E.
    + apply Nat.ltb_lt in E. rewrite app_length in E. change (T "QPrivateSignal") with qprivatesignal in E. lia.
    + apply Nat.ltb_ge in E. apply same_tail_spec; [done|]. by exists p.
Qed.
Print Assumptions C41_private_by_name.
Print Assumptions C41_any_format.
Example ex41_any : get_value Gcc (T "no brackets, QPrivateSignal") = false ∧ get_value Gcc (T "Signal]") = false ∧ get_value Gcc (T "QPrivateSignal]") = true ∧ get_value Msvc (T "x<QPrivateSignal> y") = true ∧
  get_value Gcc (T "QPrivateSignal] []") = false.
Proof. split_and!; vm_compute; reflexivity. Qed.
Example ex41 : is_private Gcc (T "QTimer::QPrivateSignal") = true ∧ is_private Clang (T "QTimer::QPrivateSignal") = true ∧
  is_private Msvc (T "QTimer::QPrivateSignal") = true ∧ is_private Gcc (T "QString") = false ∧ is_private Gcc (T "PrivateSignal") = false ∧
  is_private Gcc (T "QList<QTimer::QPrivateSignal>") = false ∧ is_private Msvc (T "QList<QTimer::QPrivateSignal>") = false ∧
  is_private Clang (T "int[3]") = false.
Proof. split_and!; vm_compute; reflexivity. Qed.

(** ** C40 *)
Section props.
Context {V : Type}.
Notation arg := (text * V)%type.
(** An argument list as moc allows it: the private argument, if there is one, is the last. *)
Definition priv (a : arg) : Prop := ∃ p, a.1 = p ++ T "QPrivateSignal".
Definition moc (args : list arg) : Prop := ∀ l a b l', args = l ++ a :: b :: l' -> ¬ priv a.

Definition wrap (l : list arg) : result := match l with [a] => RBare a | _ => RTuple l end.

(** The result: the arguments without the private one, a single one as it is, else as a tuple. *)
Theorem C40_result c args : moc args ->
  ∃ l, stored c args = Some (wrap l) ∧
    ((args = l ∧ ∀ a, a ∈ l -> ¬ priv a) ∨ ∃ a, args = l ++ [a] ∧ priv a ∧ ∀ a, a ∈ l -> ¬ priv a).
Proof. apply stored_moc. Qed.

(** Only such signals can be awaited: others do not compile. *)
Theorem C40_others_rejected c args : ¬ moc args -> stored c args = None.
Proof. apply stored_other. Qed.
End props.
Print Assumptions C40_result.
Print Assumptions C40_others_rejected.
Example ex40 c : (moc [(T "QString", 1); (T "int", 2); (T "QTimer::QPrivateSignal", 0)] ∧
  stored c [(T "QString", 1); (T "int", 2); (T "QTimer::QPrivateSignal", 0)] = Some (RTuple [(T "QString", 1); (T "int", 2)])) ∧
  stored c [(T "int", 2); (T "QTimer::QPrivateSignal", 0)] = Some (RBare (T "int", 2)) ∧
  stored c [(T "QTimer::QPrivateSignal", 0)] = Some (RTuple []) ∧ stored c ([] : list (text * nat)) = Some (RTuple []) ∧
  ¬ moc [(T "QTimer::QPrivateSignal", 0); (T "int", 2)].
Proof.
  split_and!; try (destruct c; vm_compute; reflexivity).
  - intros l a b l' H [p Hp].
    assert (is_private c a.1 = true) as Hq by (apply C41_private_by_name; eauto).
    destruct l as [|x l]; cbn in H; [injection H as <- _ _; revert Hq; by destruct c; vm_compute|].
    destruct l as [|y l]; cbn in H; [injection H as _ <- _; revert Hq; by destruct c; vm_compute|].
    destruct l as [|z l]; cbn in H; [by injection H|]. by destruct l.
  - intros H. by apply (H [] (T "QTimer::QPrivateSignal", 0) (T "int", 2) []); [|exists (T "QTimer::")].
Qed.

(** ** C79 *)

(** Violated: an argument of a type of the user whose name ends in QPrivateSignal is dropped. *)
Theorem C79_user_type_dropped_refuted {V} c (p : text) (v : V) (l : list (text * V)) :
  (∀ a, a ∈ l -> ¬ priv a) -> stored c (l ++ [(p ++ T "QPrivateSignal", v)]) = Some (wrap l).
Proof. apply stored_drops. Qed.
Print Assumptions C79_user_type_dropped_refuted.
Example ex79 c : stored c [(T "int", 1); (T "NotQPrivateSignal", 2)] = Some (RBare (T "int", 1)).
Proof. destruct c; vm_compute; reflexivity. Qed.
