(** * The macros for tests in coroutines.

    Models /repo/qcoro/test/qcorotest.h:18-86, 176-198 (QCORO_VERIFY, QCORO_FAIL, QCORO_VERIFY2, QCORO_COMPARE, QCORO_VERIFY_THROWS_EXCEPTION, QCORO_VERIFY_EXCEPTION_THROWN, QCORO_SKIP,
    QCORO_EXPECT_FAIL, QCORO_TEST). No proofs in this file.

    A test function is a coroutine whose body is an arbitrary program: effects (co_awaits among them) with arbitrary answers, blocks, try/catch, co_return, exceptions, and calls of QTest.

    Qt (trusted; qtestresult.cpp): qVerify(), qCompare(), qTest() and qFail() (with "false") report a pass or a failure; if a failure is expected, a failure counts as an expected one, a
    pass as a failure (XPASS), the expectation is used up, and they return whether its mode is Continue; qExpectFail() sets the expectation (if it is about this row of the test data), and
    fails if there is one.

    Simplifications: messages, file names and line numbers are left out; qVerify, qCompare and qTest only differ in how they compare. The macros QCORO_TRY_* (:97-160) use the macro QCORO_TRY_LOOP_IMPL,
    which is not defined anywhere, and do not compile. *)
From stdpp Require Import list option.

Inductive mode := Abort | Continue.
Inductive qtcall :=
  | QVerify (b : bool)                     (* QTest::qVerify, qCompare, qTest; b: the result of the comparison *)
  | QFail                                  (* QTest::qFail *)
  | QSkip                                  (* QTest::qSkip *)
  | QExpectFail (here : bool) (m : mode).  (* QTest::qExpectFail; here: the data index is that of the current row (or empty) *)

Inductive tev :=
  | TEff (n a : nat)                       (* the body does something, the answer is a *)
  | TPass | TFail | TXPass | TXFail        (* a check passes, fails, passes or fails although a failure is expected *)
  | TSkip
  | TExpect (m : mode)
  | TReturn                                (* the test function has returned *)
  | TUncaught (e : nat).                   (* ... or ended with an exception *)

(** The body of a test function. Exceptions are numbers; a catch clause of a type is a predicate on them. *)
CoInductive tprog :=
  | PEnd                                            (* the end of a block *)
  | PRet                                            (* co_return *)
  | PThrow (e : nat)
  | PEff (n : nat) (k : nat -> tprog)
  | PQt (c : qtcall) (k : bool -> tprog)
  | PSeq (p k : tprog)                              (* { p } k *)
  | PTry (p : tprog) (h : nat -> tprog) (k : tprog). (* try { p } catch (...) { h } k *)

Inductive tframe := FSeq (k : tprog) | FTry (h : nat -> tprog) (k : tprog).
Record tst := Tst { t_cur : option tprog; t_fr : list tframe; t_exp : option mode; t_tr : list tev }.

(** QTest: what is reported, what is returned, and the expectation from now on. *)
Definition check (b : bool) (x : option mode) : tev * bool :=
  match b, x with
  | true, None => (TPass, true)
  | true, Some m => (TXPass, match m with Continue => true | Abort => false end)
  | false, None => (TFail, false)
  | false, Some m => (TXFail, match m with Continue => true | Abort => false end)
  end.
Definition qtest (c : qtcall) (x : option mode) : list tev * bool * option mode :=
  match c with
  | QVerify b => ([(check b x).1], (check b x).2, None)
  | QFail => ([(check false x).1], (check false x).2, None)
  | QSkip => ([TSkip], true, x)
  | QExpectFail here m => if here then match x with None => ([TExpect m], true, Some m) | Some _ => ([TFail], false, None) end else ([], true, x)
  end.

(** [a]: the answer, if the body asks for one. *)
Definition tstep (a : nat) (s : tst) : option tst :=
  match t_cur s with
  | None => None
  | Some p =>
      match p with
      | PEff n k => Some (Tst (Some (k a)) (t_fr s) (t_exp s) (TEff n a :: t_tr s))
      | PQt c k => match qtest c (t_exp s) with (es, b, x) => Some (Tst (Some (k b)) (t_fr s) x (es ++ t_tr s)) end
      | PSeq p k => Some (Tst (Some p) (FSeq k :: t_fr s) (t_exp s) (t_tr s))
      | PTry p h k => Some (Tst (Some p) (FTry h k :: t_fr s) (t_exp s) (t_tr s))
      | PRet => Some (Tst None [] (t_exp s) (TReturn :: t_tr s))
      | PEnd => match t_fr s with
                | [] => Some (Tst None [] (t_exp s) (TReturn :: t_tr s))
                | FSeq k :: fr | FTry _ k :: fr => Some (Tst (Some k) fr (t_exp s) (t_tr s)) end
      | PThrow e => match t_fr s with
                | [] => Some (Tst None [] (t_exp s) (TUncaught e :: t_tr s))
                | FSeq _ :: fr => Some (Tst (Some (PThrow e)) fr (t_exp s) (t_tr s))
                | FTry h k :: fr => Some (Tst (Some (h e)) (FSeq k :: fr) (t_exp s) (t_tr s)) end
      end
  end.
Inductive tsteps : tst -> tst -> Prop :=
  | tsteps_0 s : tsteps s s
  | tsteps_S s s1 s2 a : tstep a s = Some s1 -> tsteps s1 s2 -> tsteps s s2.
Definition test0 (p : tprog) : tst := Tst (Some p) [] None [].

(** ** The macros, followed by [k] *)
(** QCORO_VERIFY :18-22, QCORO_COMPARE :51-55, QCORO_TEST :194-198 *)
Definition qcoro_verify (b : bool) (k : tprog) : tprog := PQt (QVerify b) (λ ok, if ok then k else PRet).
(** QCORO_FAIL :27-31 *)
Definition qcoro_fail : tprog := PQt QFail (λ _, PRet).
(** QCORO_VERIFY2 :36-46 *)
Definition qcoro_verify2 (b : bool) (k : tprog) : tprog :=
  if b then PQt (QVerify true) (λ ok, if ok then k else PRet) else PQt (QVerify false) (λ ok, if ok then k else PRet).
(** QCORO_VERIFY_THROWS_EXCEPTION :63-86, QCORO_VERIFY_EXCEPTION_THROWN :91-92. [ty]: exceptions of this type; [body]: the statement. The two outer catch clauses only
    differ in the message. *)
Definition qcoro_throws (ty : nat -> bool) (body k : tprog) : tprog :=
  PTry
    (PTry (PSeq body qcoro_fail)
       (λ e, if ty e then PEnd else PThrow e) PEnd)
    (λ e, qcoro_fail)
    k.
(** QCORO_SKIP :165-174 *)
Definition qcoro_skip : tprog := PQt QSkip (λ _, PRet).
(** QCORO_EXPECT_FAIL :179-183 *)
Definition qcoro_expect_fail (here : bool) (m : mode) (k : tprog) : tprog := PQt (QExpectFail here m) (λ ok, if ok then k else PRet).

Fixpoint tplay (l : list nat) (s : tst) : tst :=
  match l with [] => s | a :: l => match tstep a s with Some s' => tplay l s' | None => s end end.
