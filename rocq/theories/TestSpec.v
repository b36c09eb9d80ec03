(** * Vocabulary for the test macros. Traces are newest first. *)
From stdpp Require Import list option.
From Verif Require Import TestModel.

(** The failure that is expected: by the last QCORO_EXPECT_FAIL, unless a check was made since. *)
Fixpoint expected (tr : list tev) : option mode :=
  match tr with
  | [] => None
  | TExpect m :: _ => Some m
  | (TPass | TFail | TXPass | TXFail) :: _ => None
  | _ :: tr => expected tr
  end.
(** After this the test function must not go on. *)
Definition stops (e : tev) (tr : list tev) : Prop :=
  match e with
  | TFail | TSkip | TReturn | TUncaught _ => True
  | TXPass | TXFail => expected tr = Some Abort
  | _ => False
  end.
(** The body uses QTest only by the macros. *)
CoInductive macros : tprog -> Prop :=
  | M_end : macros PEnd
  | M_ret : macros PRet
  | M_throw e : macros (PThrow e)
  | M_eff n k : (∀ a, macros (k a)) -> macros (PEff n k)
  | M_seq p k : macros p -> macros k -> macros (PSeq p k)
  | M_try p h k : macros p -> (∀ e, macros (h e)) -> macros k -> macros (PTry p h k)
  | M_verify b k : macros k -> macros (qcoro_verify b k)
  | M_verify2 b k : macros k -> macros (qcoro_verify2 b k)
  | M_fail : macros qcoro_fail
  | M_skip : macros qcoro_skip
  | M_expect here m k : macros k -> macros (qcoro_expect_fail here m k)
  | M_throws ty body k : macros body -> macros k -> macros (qcoro_throws ty body k).
(** How a statement (run on its own) ends. *)
Inductive outcome := ONormal | OThrow (e : nat) | OReturn.
Definition ends (p : tprog) (x : option mode) (tr : list tev) (o : outcome) (x' : option mode) (tr' : list tev) : Prop :=
  tsteps (Tst (Some p) [] x tr) (Tst (Some match o with ONormal => PEnd | OThrow e => PThrow e | OReturn => PRet end) [] x' tr').
