(** * Specification vocabulary for AsyncGenerator: what may happen in a trace (newest event first). Independent of the
    machine's internals. *)
From stdpp Require Import gmap list.
From Verif Require Import AGenModel.

(** Life of a coroutine. [QWait g i]: suspended in co_await of g's begin() (i = None) or of ++i. *)
Inductive aphase (V : Type) :=
  QNone | QInit | QRun | QYield (v : V) | QLeaf | QWait (g : nat) (i : option nat) | QFin | QGone.
Arguments QNone {V}. Arguments QInit {V}. Arguments QRun {V}. Arguments QYield {V}. Arguments QLeaf {V}. Arguments QWait {V}.
Arguments QFin {V}. Arguments QGone {V}.

Section spec.
Context {V E : Type}.
Notation event := (aevent V E). Notation prog := (aprog V E).

Definition aphase1 (f : nat) (e : event) (p : aphase V) : aphase V :=
  match e with
  | AENew g _ => if decide (f = g) then QInit else p
  | AESpawn g _ => if decide (f = g) then QRun else p
  | AEAdv c g i => if decide (f = c) then QWait g i else if decide (f = g) then QRun else p
  | AEBack c _ _ _ => if decide (f = c) then QRun else p
  | AEYield g v => if decide (f = g) then QYield v else p
  | AEFinish g _ => if decide (f = g) then QFin else p
  | AEEnd g _ => if decide (f = g) then QGone else p
  | AELeaf g _ => if decide (f = g) then QLeaf else p
  | AEFire g _ => if decide (f = g) then QRun else p
  | AEDestroy g => if decide (f = g) then QGone else p
  | AEObs _ _ | AEAct _ _ => p
  end.
Fixpoint aphase_of (f : nat) (tr : list event) : aphase V :=
  match tr with [] => QNone | e :: l => aphase1 f e (aphase_of f l) end.

(** The coroutine whose begin()/++ resumed [f] last. *)
Fixpoint last_adv (f : nat) (tr : list event) : option nat :=
  match tr with
  | [] => None
  | AEAdv c g _ :: l => if decide (f = g) then Some c else last_adv f l
  | _ :: l => last_adv f l
  end.

(** [f] was made by calling an async generator. *)
Fixpoint made (f : nat) (tr : list event) : bool :=
  match tr with
  | [] => false
  | AENew g _ :: l => if decide (f = g) then true else made f l
  | _ :: l => made f l
  end.

(** A body that was resumed and has not reached its next co_yield or end: running, or suspended in a co_await of its own. *)
Definition active (p : aphase V) : Prop := match p with QRun | QLeaf | QWait _ _ => True | _ => False end.
Global Instance active_dec p : Decision (active p).
Proof. destruct p; cbn; apply _. Defined.

(** A coroutine that may be destroyed: suspended somewhere. *)
Definition suspended (p : aphase V) : Prop := match p with QInit | QYield _ | QLeaf | QWait _ _ | QFin => True | _ => False end.

Definition aruns (w : aactor) (l : list event) : Prop :=
  match w with Co f => aphase_of f l = QRun | Fun _ => True end.

(** The result of the co_await of begin()/++ that a stop of the producer completes. *)
Definition out_of (f : nat) (e : event) : option (aout E) :=
  match e with
  | AEYield g _ => if decide (f = g) then Some OValue else None
  | AEFinish g r => if decide (f = g) then Some (match r with Some x => OExc x | None => OEnd end) else None
  | _ => None
  end.
Definition is_stop_event (e : event) : Prop := match e with AEYield _ _ | AEFinish _ _ => True | _ => False end.

Definition alegal (e : event) (l : list event) : Prop :=
  (* the co_await that waits for a producer continues directly after the producer's co_yield or end *)
  match l with
  | x :: _ => is_stop_event x -> ∃ c f i o, e = AEBack c f i o
  | [] => True
  end ∧
  match e with
  | AENew f _ | AESpawn f _ => aphase_of f l = QNone
  | AEAdv c f _ => c ≠ f ∧ aphase_of c l = QRun ∧ (aphase_of f l = QInit ∨ ∃ v, aphase_of f l = QYield v)
  | AEBack c f i o => last_adv f l = Some c ∧ (∃ j, aphase_of c l = QWait f j ∧ (j = None ∨ j = Some i)) ∧
      ∃ x l', l = x :: l' ∧ out_of f x = Some o
  | AEYield f _ | AEFinish f _ => aphase_of f l = QRun ∧ made f l = true
  | AEEnd c _ => aphase_of c l = QRun ∧ made c l = false
  | AELeaf f _ => aphase_of f l = QRun
  | AEFire f _ => aphase_of f l = QLeaf
  | AEDestroy f => suspended (aphase_of f l) ∧ made f l = true
  | AEObs w _ => aruns w l
  | AEAct w a => aruns w l ∧ match a with XDeref f v => aphase_of f l = QYield v | _ => True end
  end.
Fixpoint alegal_trace (tr : list event) : Prop :=
  match tr with [] => True | e :: l => alegal e l ∧ alegal_trace l end.

(** The coroutine that executes an event. *)
Definition by_co (e : event) : option nat :=
  match e with
  | AEYield f _ | AEFinish f _ | AEEnd f _ | AELeaf f _ | AEAdv f _ _ => Some f
  | AEObs (Co f) _ | AEAct (Co f) _ => Some f
  | _ => None
  end.

(** Counting. *)
Definition is_adv (f : nat) (e : event) : nat := match e with AEAdv _ g _ => if decide (f = g) then 1 else 0 | _ => 0 end.
Definition is_stop (f : nat) (e : event) : nat :=
  match e with AEYield g _ | AEFinish g _ => if decide (f = g) then 1 else 0 | _ => 0 end.
Fixpoint asum (h : event -> nat) (tr : list event) : nat := match tr with [] => 0 | e :: l => h e + asum h l end.

(** Values co_yielded by [f]; values consumer [w] recorded; both oldest first. *)
Fixpoint ayielded (f : nat) (tr : list event) : list V :=
  match tr with
  | [] => []
  | AEYield g v :: l => if decide (f = g) then ayielded f l ++ [v] else ayielded f l
  | _ :: l => ayielded f l
  end.
Fixpoint agot (w : aactor) (tr : list event) : list V :=
  match tr with
  | [] => []
  | AEObs w' (AGot v) :: l => if decide (w = w') then agot w l ++ [v] else agot w l
  | _ :: l => agot w l
  end.
(** ** Runs of a body as written (independent of the machine): position in the code and local events. *)
Inductive apos :=
  | CStart (b : prog) | CRun (p : prog) | CSusp (p : prog) | CLeafW (c : V -> prog)
  | CBeginW (c : nat + E -> prog) | CIncW (i : nat) (c : option E -> prog) | CEnd.
Inductive alev :=
  | LResume                       (* resumed by a begin()/++ on it *)
  | LYield (v : V) | LEnd (r : option E) | LObs (o : aobs V) | LAct (a : aact V)
  | LLeaf (safe : bool) | LFire (v : V)
  | LWait (i : option nat)        (* awaits begin() / ++i of another generator *)
  | LBack (i : nat) (o : aout E).
Inductive aadv : apos -> alev -> apos -> Prop :=
  | aadv_start b : aadv (CStart b) LResume (CRun b)
  | aadv_yield v ls p : aadv (CRun (AYield v ls p)) (LYield v) (CSusp p)
  | aadv_resume p : aadv (CSusp p) LResume (CRun p)
  | aadv_ret : aadv (CRun ARet) (LEnd None) CEnd
  | aadv_throw e : aadv (CRun (AThrow e)) (LEnd (Some e)) CEnd
  | aadv_obs o p : aadv (CRun (AObs o p)) (LObs o) (CRun p)
  | aadv_leaf x ls c : aadv (CRun (ALeaf x ls c)) (LLeaf x) (CLeafW c)
  | aadv_fire c v : aadv (CLeafW c) (LFire v) (CRun (c v))
  | aadv_spawn b p f : aadv (CRun (ASpawn b p)) (LAct (XSpawn f)) (CRun p)
  | aadv_new b c g f : aadv (CRun (ANew b c)) (LAct (XNew g f)) (CRun (c g))
  | aadv_null c g : aadv (CRun (ANull c)) (LAct (XNull g)) (CRun (c g))
  | aadv_move g c g' : aadv (CRun (AMove g c)) (LAct (XMove g')) (CRun (c g'))
  | aadv_assign g h p o : aadv (CRun (AAssign g h p)) (LAct (XAssign o)) (CRun p)
  | aadv_swap g h p : aadv (CRun (ASwap g h p)) (LAct XSwap) (CRun p)
  | aadv_drop g p : aadv (CRun (ADrop g p)) (LAct (XDrop g)) (CRun p)
  | aadv_begin_empty g ls c i : aadv (CRun (ABegin g ls c)) (LAct (XBeginEmpty i)) (CRun (c (inl i)))
  | aadv_begin g ls c : aadv (CRun (ABegin g ls c)) (LWait None) (CBeginW c)
  | aadv_begin_back c i o : aadv (CBeginW c) (LBack i o) (CRun (c (match o with OExc e => inr e | _ => inl i end)))
  | aadv_inc i ls c : aadv (CRun (AInc i ls c)) (LWait (Some i)) (CIncW i c)
  | aadv_inc_back i c o : aadv (CIncW i c) (LBack i o) (CRun (c (match o with OExc e => Some e | _ => None end)))
  | aadv_end c i : aadv (CRun (AEnd c)) (LAct (XEnd i)) (CRun (c i))
  | aadv_copy i c j : aadv (CRun (ACopy i c)) (LAct (XCopy j)) (CRun (c j))
  | aadv_deref i c f v : aadv (CRun (ADeref i c)) (LAct (XDeref f v)) (CRun (c v))
  | aadv_eq i j c b : aadv (CRun (AEq i j c)) (LAct (XEq b)) (CRun (c b)).
Inductive awalk (x0 : apos) : list alev -> apos -> Prop :=
  | awalk_nil : awalk x0 [] x0
  | awalk_cons l x e y : awalk x0 l x -> aadv x e y -> awalk x0 (e :: l) y.
Definition aproj1 (f : nat) (e : event) : list alev :=
  match e with
  | AEAdv c g i => (if decide (f = c) then [LWait i] else []) ++ if decide (f = g) then [LResume] else []
  | AEBack c _ i o => if decide (f = c) then [LBack i o] else []
  | AEYield g v => if decide (f = g) then [LYield v] else []
  | AEFinish g r | AEEnd g r => if decide (f = g) then [LEnd r] else []
  | AELeaf g x => if decide (f = g) then [LLeaf x] else []
  | AEFire g v => if decide (f = g) then [LFire v] else []
  | AEObs w o => if decide (Co f = w) then [LObs o] else []
  | AEAct w a => if decide (Co f = w) then [LAct a] else []
  | _ => []
  end.
Definition aproj (f : nat) (tr : list event) : list alev := flat_map (aproj1 f) tr.

(** A plain description of producer bodies that only co_yield, co_await external things and have visible effects:
    [ayields b vs r]: whatever the external completions deliver, [b] co_yields exactly [vs] and ends with [r]. *)
Inductive ayields : prog -> list V -> option E -> Prop :=
  | ay_ret : ayields ARet [] None
  | ay_throw e : ayields (AThrow e) [] (Some e)
  | ay_obs o p vs r : ayields p vs r -> ayields (AObs o p) vs r
  | ay_leaf x ls c vs r : (∀ v, ayields (c v) vs r) -> ayields (ALeaf x ls c) vs r
  | ay_yield v ls p vs r : ayields p vs r -> ayields (AYield v ls p) (v :: vs) r.
End spec.
Arguments apos : clear implicits.
Arguments alev : clear implicits.
