(** * ImageProvider.

    Models /repo/qcoro/quick/qcoroimageprovider.cpp:24-35 (requestImageResponse), 37-44 (QCoroImageResponse). No proofs in this file.

    Any number of requests; a history is a sequence of the actions below. asyncRequestImage() is the user's coroutine: it ends inside requestImageResponse() or later, with an
    image or an exception, or never. Of Task (see its models) the following is used: then()'s callback runs when the task ends with a result, immediately if it has ended; with
    an exception it does not run, and the exception is lost with the Task returned by then(), which nobody keeps. The engine (QQuickPixmapReader; not modelled) may call
    textureFactory() and delete the response at any time. An image is a number; [None] is the null image. *)
From stdpp Require Import list option.

Inductive iev :=
  | IECreate (i : nat)                     (* the response of request i is created, :27 *)
  | IEReturn (i : nat)                     (* requestImageResponse() returns it, :33 *)
  | IEEnd (i v : nat)                      (* the coroutine of request i ends with image v *)
  | IEThrow (i : nat)                      (* ... with an exception *)
  | IEFinished (i : nat)                   (* the response emits finished(), :43 *)
  | IETexture (i : nat) (v : option nat)   (* textureFactory() returns image v *)
  | IEDelete (i : nat)                     (* the engine deletes the response *)
  | IEBad (i : nat).                       (* a deleted response is used *)

Record ist := Ist {
  i_next : nat;                            (* requests so far *)
  i_wait : nat -> bool;                    (* the coroutine has not ended *)
  i_dead : nat -> bool;                    (* the response has been deleted *)
  i_img : nat -> option nat;               (* m_image *)
  i_bad : bool;
  i_tr : list iev }.
Definition ist0 : ist := Ist 0 (λ _, false) (λ _, false) (λ _, None) false [].
Definition upd {A} (f : nat -> A) (i : nat) (x : A) : nat -> A := λ n, if decide (n = i) then x else f n.
Definition isay (e : iev) (s : ist) : ist := Ist (i_next s) (i_wait s) (i_dead s) (i_img s) (i_bad s) (e :: i_tr s).

(** The callback passed to then(), :29-31, calls reportFinished(), :41-44. *)
Definition report (i v : nat) (s : ist) : ist :=
  if i_dead s i then Ist (i_next s) (i_wait s) (i_dead s) (i_img s) true (IEBad i :: i_tr s)
  else isay (IEFinished i) (Ist (i_next s) (i_wait s) (i_dead s) (upd (i_img s) i (Some v)) (i_bad s) (i_tr s)).
Definition ended (i : nat) (s : ist) : ist := Ist (i_next s) (upd (i_wait s) i false) (i_dead s) (i_img s) (i_bad s) (i_tr s).

(** How far the coroutine gets before requestImageResponse() calls then(). *)
Inductive early := NotYet | WithImage (v : nat) | WithException.
Inductive iact :=
  | AIRequest (r : early)                  (* requestImageResponse() *)
  | AIDone (i v : nat) | AIThrow (i : nat) (* a coroutine ends later *)
  | AITexture (i : nat) | AIDelete (i : nat).

Definition iperform (a : iact) (s : ist) : option ist :=
  if i_bad s then None else
  match a with
  | AIRequest r =>
      let i := i_next s in
      let s := Ist (S i) (upd (i_wait s) i match r with NotYet => true | _ => false end) (i_dead s) (i_img s) (i_bad s) (i_tr s) in
      let s := match r with NotYet => s | WithImage v => isay (IEEnd i v) s | WithException => isay (IEThrow i) s end in     (* :25 *)
      let s := isay (IECreate i) s in                                                                                       (* :27 *)
      let s := match r with WithImage v => report i v s | _ => s end in                                                     (* :29 *)
      Some (isay (IEReturn i) s)                                                                                            (* :33 *)
  | AIDone i v => if i_wait s i then Some (report i v (isay (IEEnd i v) (ended i s))) else None
  | AIThrow i => if i_wait s i then Some (isay (IEThrow i) (ended i s)) else None
  | AITexture i => if decide (i < i_next s) then if i_dead s i then None else Some (isay (IETexture i (i_img s i)) s) else None                       (* :37-39 *)
  | AIDelete i => if decide (i < i_next s) then if i_dead s i then None else Some (isay (IEDelete i) (Ist (i_next s) (i_wait s) (upd (i_dead s) i true) (i_img s) (i_bad s) (i_tr s))) else None
  end.

Inductive ireach : ist -> Prop :=
  | ireach_0 : ireach ist0
  | ireach_S s s' a : ireach s -> iperform a s = Some s' -> ireach s'.
(** What can happen from a state on. *)
Inductive isteps : ist -> ist -> Prop :=
  | isteps_0 s : isteps s s
  | isteps_S s s1 s2 a : isteps s s1 -> iperform a s1 = Some s2 -> isteps s s2.
Fixpoint iplay (l : list iact) (s : ist) : ist :=
  match l with [] => s | a :: l => match iperform a s with Some s' => iplay l s' | None => s end end.
