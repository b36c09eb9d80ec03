(** * The result of awaiting a signal: its type, and what is stored in it.

    Models /repo/qcoro/core/qcorosignal.h:38-93 (the types), 132-157 (storeResult), 222-231 and 312-323 (emplace), and
    /repo/qcoro/core/impl/isqprivatesignal.h:33-85 (is_qprivatesignal). No proofs in this file.

    Types are represented by their spelled names; an argument is a type (as deduced by the slot, that is without cv and reference, which
    remove_cvref_t strips, qcorosignal.h:74, isqprivatesignal.h:83) with a value. *)
From stdpp Require Import list option strings.
From Coq Require Import Ascii String.
Open Scope list_scope.
Local Notation length := List.length (only parsing).

(** Strings are lists of characters. *)
Notation text := (list ascii).
Definition T (s : string) : text := list_ascii_of_string s.

(** std::string_view::rfind(char): the last position, or npos. *)
Fixpoint rfind (c : ascii) (l : text) : option nat :=
  match l with
  | [] => None
  | x :: l => match rfind c l with Some n => Some (S n) | None => if decide (x = c) then Some 0 else None end
  end.

Inductive compiler := Clang | Gcc | Msvc.

(** is_qprivatesignal<type>::functionName(), isqprivatesignal.h:37-48, in the formats given there (52-54). *)
Definition function_name (c : compiler) (type : text) : text :=
  match c with
  | Clang => T "static auto QCoro::detail::is_qprivatesignal<" ++ type ++ T ">::functionName() [T = " ++ type ++ T "]"
  | Gcc => T "static consteval auto QCoro::detail::is_qprivatesignal<T>::functionName() [with T = " ++ type ++ T "]"
  | Msvc => T "const char *__cdecl QCoro::detail::is_qprivatesignal<" ++ type ++ T ">::functionName(void)"
  end.

(** isqprivatesignal.h:35. *)
Definition qprivatesignal : text := T "QPrivateSignal".

(** The loop, isqprivatesignal.h:68-72: from [pos] on, [n] iterations. *)
Fixpoint same_tail (name : text) (end_pos pos n : nat) : bool :=
  match n with
  | 0 => true
  | S n =>
      if decide (name !! (end_pos - pos) = qprivatesignal !! (length qprivatesignal - pos))
      then same_tail name end_pos (S pos) n else false
  end.

(** getValue(), isqprivatesignal.h:50-75. *)
Definition get_value (c : compiler) (name : text) : bool :=
  match rfind (match c with Msvc => ">"%char | _ => "]"%char end) name with
  | None => false
  | Some end_pos =>
      if (end_pos <? length qprivatesignal)%nat then false
      else same_tail name end_pos 1 (length qprivatesignal)
  end.

(** is_qprivatesignal_v<type>, isqprivatesignal.h:77-83. *)
Definition is_private (c : compiler) (type : text) : bool := get_value c (function_name c type).

(** ** The result type *)

(** filtered_tuple<Tuple, Args...>, qcorosignal.h:41-62 (concat_tuple appends). *)
Fixpoint filtered_tuple (c : compiler) (tuple args : list text) : list text :=
  match args with
  | [] => tuple
  | arg :: args =>
      if is_private c arg then filtered_tuple c tuple args
      else filtered_tuple c (tuple ++ [arg]) args
  end.

(** args_tuple, qcorosignal.h:64-75: of a signal given as a pointer to member function. *)
Definition args_tuple (c : compiler) (args : list text) : list text := filtered_tuple c [] args.

(** result_type without its std::optional, qcorosignal.h:77-98. *)
Inductive shape := Bare (type : text) | Tuple (types : list text).
Definition result_type_from_tuple (t : list text) : shape :=
  match t with [arg] => Bare arg | args => Tuple args end.
Definition result_type (c : compiler) (args : list text) : shape := result_type_from_tuple (args_tuple c args).

(** ** The stored value *)
Section store.
Context {V : Type}.
Notation arg := (text * V)%type.

(** storeResult(), qcorosignal.h:132-157: the arguments the callback is called with. Without arguments: the overload 154-157. *)
Definition store_result (c : compiler) (args : list arg) : list arg :=
  match last args with
  | None => []
  | Some a => if is_private c a.1 then take (length args - 1) args else args
  end.

(** mResult.emplace(args...) resp. mQueue.emplace_back(args...): a bare result is constructed from one argument, a tuple from its elements.
    Anything else does not compile ([None]). Simplification: no conversions between different types, and none from a tuple. *)
Inductive result := RBare (a : arg) | RTuple (l : list arg).
Definition emplace (s : shape) (args : list arg) : option result :=
  match s with
  | Bare t => match args with [a] => if decide (a.1 = t) then Some (RBare a) else None | _ => None end
  | Tuple ts => if decide (args.*1 = ts) then Some (RTuple args) else None
  end.

(** The slot: the emission with [args] of a signal of that type, qcorosignal.h:222-231, 312-323. *)
Definition stored (c : compiler) (args : list arg) : option result :=
  emplace (result_type c args.*1) (store_result c args).
End store.
