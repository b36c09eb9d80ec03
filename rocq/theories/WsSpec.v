(** * Vocabulary for the frame generators' properties: functions on traces (newest event first). *)
From stdpp Require Import list option.
From Verif Require Import ListenModel WsModel.

Section spec.
Context {F : Type}.
Implicit Types tr : list (wev F).

(** Did the user call begin()? *)
Definition begun tr : bool := existsb (λ e, match e with YAsk => true | _ => false end) tr.
(** What the socket reported since begin(), oldest first: frames (Some), changes to a state other than connected (None). *)
Fixpoint stream tr : list (option F) :=
  match tr with
  | [] => []
  | e :: tr => stream tr ++ if begun tr then match e with YFrame f => [Some f] | YState false => [None] | _ => [] end else []
  end.
(** All frames, oldest first. The frames the user got. *)
Definition arrived tr : list F := reverse (omap (λ e, match e with YFrame f => Some f | _ => None end) tr).
Definition yields tr : list F := reverse (omap (λ e, match e with YGot f => Some f | _ => None end) tr).
(** How many of the reports have been delivered by the event loop. *)
Definition ndelivered tr : nat := length (omap (λ e, match e with YDeliver => Some tt | _ => None end) tr).

Fixpoint wparked tr : bool :=
  match tr with
  | [] => false
  | e :: tr => match e with
      | YPark => true
      | YAsk | YGot _ | YEnd | YLeave | YBack | YEarly | YFin => false
      | _ => wparked tr end
  end.
Fixpoint waway tr : bool :=
  match tr with
  | [] => false
  | e :: tr => match e with
      | YLeave => true
      | YPark | YAsk | YGot _ | YEnd | YBack | YEarly | YFin => false
      | _ => waway tr end
  end.
Definition wparks tr : nat := length (omap (λ e, match e with YPark => Some tt | _ => None end) tr).
Definition wticks tr : nat := length (omap (λ e, match e with YTick => Some tt | _ => None end) tr).

Definition walways (P : wev F -> list (wev F) -> Prop) tr : Prop := ∀ t2 e t1, tr = t2 ++ e :: t1 -> P e t1.

(** Once the user was suspended on the generator, nothing is delivered but while the user is suspended there. *)
Definition wcalm tr : Prop := walways (λ e t, match e with YDeliver => wparked t = true ∨ wparks t = 0 | _ => True end) tr.
(** The user awaits nothing but the generator, and destroys it at the end at the latest. *)
Definition wplain tr : Prop :=
  walways (λ e t, match e with YLeave => False | YFin => YDropped ∈ t | YDropped => wparked t = false | _ => True end) tr.
Definition wsilent tr : Prop := ∀ e, e ∈ tr -> match e with YFrame _ | YState _ | YTick => True | _ => False end.
End spec.
