(** * Specification vocabulary for Generator: what may happen in a trace (newest event first). Independent of the
    machine's internals. *)
From stdpp Require Import gmap list.
From Verif Require Import GenModel.

(** Life of a generator coroutine. *)
Inductive gphase := QNone | QInit | QRun | QSusp | QFin | QGone.
Global Instance gphase_eq_dec : EqDecision gphase.
Proof. solve_decision. Defined.

Section spec.
Context {V E : Type}.
Notation event := (gevent V E). Notation prog := (gprog V E unit).

Definition gphase1 (f : nat) (e : event) (p : gphase) : gphase :=
  match e with
  | GENew g _ => if decide (f = g) then QInit else p
  | GEResume g _ => if decide (f = g) then QRun else p
  | GEYield g _ => if decide (f = g) then QSusp else p
  | GEFinish g _ => if decide (f = g) then QFin else p
  | GEDestroy g => if decide (f = g) then QGone else p
  | _ => p
  end.
Fixpoint gphase_of (f : nat) (tr : list event) : gphase :=
  match tr with [] => QNone | e :: l => gphase1 f e (gphase_of f l) end.

(** The value [*it] refers to: the last one co_yielded by [f], or what was last written through an iterator. *)
Fixpoint gcur (f : nat) (tr : list event) : option V :=
  match tr with
  | [] => None
  | GEYield g v :: l | GEAct _ (AWrite g v) :: l => if decide (f = g) then Some v else gcur f l
  | _ :: l => gcur f l
  end.

Definition gruns (w : gactor) (l : list event) : Prop :=
  match w with Gen f => gphase_of f l = QRun | Fun _ => True end.

Definition glegal (e : event) (l : list event) : Prop :=
  match e with
  | GENew f _ => gphase_of f l = QNone
  | GEResume f None => gphase_of f l = QInit
  | GEResume f (Some v) => gphase_of f l = QSusp ∧ gcur f l = Some v
  | GEYield f _ | GEFinish f _ => gphase_of f l = QRun
  | GEDestroy f => gphase_of f l = QInit ∨ gphase_of f l = QSusp ∨ gphase_of f l = QFin
  | GEObs w _ => gruns w l
  | GEAct w a => gruns w l ∧
      match a with
      | ADeref f v => gphase_of f l = QSusp ∧ gcur f l = Some v
      | AWrite f _ => gphase_of f l = QSusp
      | _ => True
      end
  end.
Fixpoint glegal_trace (tr : list event) : Prop :=
  match tr with [] => True | e :: l => glegal e l ∧ glegal_trace l end.

(** Which generator body executes an event. *)
Definition by_gen (e : event) : option nat :=
  match e with
  | GEYield f _ | GEFinish f _ => Some f
  | GEObs (Gen f) _ | GEAct (Gen f) _ => Some f
  | _ => None
  end.

(** Counting. *)
Definition is_resume (f : nat) (e : event) : nat := match e with GEResume g _ => if decide (f = g) then 1 else 0 | _ => 0 end.
Definition is_stop (f : nat) (e : event) : nat :=
  match e with GEYield g _ | GEFinish g _ => if decide (f = g) then 1 else 0 | _ => 0 end.
Fixpoint gsum (h : event -> nat) (tr : list event) : nat := match tr with [] => 0 | e :: l => h e + gsum h l end.

(** Values co_yielded by [f]; values a user [w] recorded; both oldest first. *)
Fixpoint yielded (f : nat) (tr : list event) : list V :=
  match tr with
  | [] => []
  | GEYield g v :: l => if decide (f = g) then yielded f l ++ [v] else yielded f l
  | _ :: l => yielded f l
  end.
Fixpoint got (w : gactor) (tr : list event) : list V :=
  match tr with
  | [] => []
  | GEObs w' (GGot v) :: l => if decide (w = w') then got w l ++ [v] else got w l
  | _ :: l => got w l
  end.

(** ** Runs of a body *)
Inductive glev :=
  | GLResume (v : option V) | GLYield (v : V) | GLFinish (r : option E) | GLObs (o : gobs V) | GLAct (a : gact V E).

(** Where a body is. *)
Inductive gpos := CStart (b : prog) | CRun (p : prog) | CSusp (c : V -> prog) | CEnd.

Inductive gadv : gpos -> glev -> gpos -> Prop :=
  | gadv_start b : gadv (CStart b) (GLResume None) (CRun b)
  | gadv_yield v ls c : gadv (CRun (GYield v ls c)) (GLYield v) (CSusp c)
  | gadv_back c v : gadv (CSusp c) (GLResume (Some v)) (CRun (c v))
  | gadv_ret u : gadv (CRun (GRet u)) (GLFinish None) CEnd
  | gadv_throw e : gadv (CRun (GThrow e)) (GLFinish (Some e)) CEnd
  | gadv_obs o p : gadv (CRun (GObs o p)) (GLObs o) (CRun p)
  | gadv_new b c g f : gadv (CRun (GNew b c)) (GLAct (ANew g f)) (CRun (c g))
  | gadv_null c g : gadv (CRun (GNull c)) (GLAct (ANull g)) (CRun (c g))
  | gadv_move g c g' : gadv (CRun (GMove g c)) (GLAct (AMove g')) (CRun (c g'))
  | gadv_assign g h p o : gadv (CRun (GAssign g h p)) (GLAct (AAssign o)) (CRun p)
  | gadv_drop g p : gadv (CRun (GDrop g p)) (GLAct (ADrop g)) (CRun p)
  | gadv_begin g c r : gadv (CRun (GBegin g c)) (GLAct (ABegin r)) (CRun (c r))
  | gadv_end c i : gadv (CRun (GEnd c)) (GLAct (AEnd i)) (CRun (c i))
  | gadv_copy i c j : gadv (CRun (GCopy i c)) (GLAct (ACopy j)) (CRun (c j))
  | gadv_inc i c r : gadv (CRun (GInc i c)) (GLAct (AInc r)) (CRun (c r))
  | gadv_deref i c f v : gadv (CRun (GDeref i c)) (GLAct (ADeref f v)) (CRun (c v))
  | gadv_write i v p f : gadv (CRun (GWrite i v p)) (GLAct (AWrite f v)) (CRun p)
  | gadv_eq i j c b : gadv (CRun (GEq i j c)) (GLAct (AEq b)) (CRun (c b)).

Inductive gwalk (b : prog) : list glev -> gpos -> Prop :=
  | gwalk_nil : gwalk b [] (CStart b)
  | gwalk_cons l x e y : gwalk b l x -> gadv x e y -> gwalk b (e :: l) y.

Definition gproj1 (f : nat) (e : event) : list glev :=
  match e with
  | GEResume g v => if decide (f = g) then [GLResume v] else []
  | GEYield g v => if decide (f = g) then [GLYield v] else []
  | GEFinish g r => if decide (f = g) then [GLFinish r] else []
  | GEObs w o => if decide (Gen f = w) then [GLObs o] else []
  | GEAct w a => if decide (Gen f = w) then [GLAct a] else []
  | _ => []
  end.
Definition gproj (f : nat) (tr : list event) : list glev := flat_map (gproj1 f) tr.

(** ** A plain description of simple bodies: [yields b vs r]: body [b] has effects of its own, co_yields exactly [vs] (and
    gets them back unmodified) and then ends, with exception e if r = Some e. [yields_prefix b vs]: it co_yields [vs] first. *)
Inductive yields : prog -> list V -> option E -> Prop :=
  | y_ret u : yields (GRet u) [] None
  | y_throw e : yields (GThrow e) [] (Some e)
  | y_obs n p vs r : yields p vs r -> yields (GObs (GUser n) p) vs r
  | y_yield v ls c vs r : yields (c v) vs r -> yields (GYield v ls c) (v :: vs) r.
Inductive yields_prefix : prog -> list V -> Prop :=
  | yp_nil p : yields_prefix p []
  | yp_obs n p vs : yields_prefix p vs -> yields_prefix (GObs (GUser n) p) vs
  | yp_yield v ls c vs : yields_prefix (c v) vs -> yields_prefix (GYield v ls c) (v :: vs).

Inductive gsteps : gstate V E -> gstate V E -> Prop :=
  | gsteps_refl s : gsteps s s
  | gsteps_cons s s1 s2 : gstep s = GNext s1 -> gsteps s1 s2 -> gsteps s s2.
End spec.
Arguments glev : clear implicits.
Arguments gpos : clear implicits.

(** [gduring base s s']: execution from s to s' as long as control has not returned to the call stack [base]. *)
Inductive gduring {V E} (base : list (gitem V E)) : gstate V E -> gstate V E -> Prop :=
  | gd_refl s : gduring base s s
  | gd_step s s1 s2 : gduring base s s1 -> gstack s1 ≠ base -> gstep s1 = GNext s2 -> gduring base s s2.
