(** * C108: when the image provider reports, and when it uses a deleted response, exactly (see C96 for the violation). *)
From stdpp Require Import list option.
From Verif Require Import ImageModel ImageSpec PropsImage.

(** The image provider uses a deleted response iff the coroutine ends with an image after the response was deleted. *)
Theorem C108_undefined_iff s s' a : ireach s -> ibroken (i_tr s) = false -> iperform a s = Some s' ->
  ibroken (i_tr s') = true <-> ∃ i v, a = AIDone i v ∧ deleted i (i_tr s) = true.
Proof.
  intros Hr Hb Ha. split.
  - intros Hx. destruct (C96_partial s s' a Hr Hb Ha Hx) as (i & v & ? & ? & _). eauto.
  - intros (i & v & -> & Hd). destruct (ireach_inv s Hr) as [Eb Hi]. destruct (Hi i) as [_ _ H3 H4 _ _ _ _]. unfold iperform in Ha. rewrite Eb, Hb in Ha.
    destruct (i_wait s i); [|done]. injection Ha as <-. unfold report. cbn [isay ended i_dead]. by rewrite H4, Hd.
Qed.
(** finished() is emitted iff the coroutine ends with an image and the response has not been deleted: in that step, and in no other one. *)
Theorem C108_finished_iff s s' a i : ireach s -> ibroken (i_tr s) = false -> iperform a s = Some s' ->
  finishes i (i_tr s') ≠ finishes i (i_tr s) <->
  (∃ v, a = AIDone i v ∧ deleted i (i_tr s) = false) ∨ (∃ v, a = AIRequest (WithImage v) ∧ i_tr s' = IEReturn i :: IEFinished i :: IECreate i :: IEEnd i v :: i_tr s).
Proof.
  intros Hr Hb Ha. pose proof Hr as Hr0. destruct (ireach_inv s Hr) as [Eb Hi]. unfold iperform in Ha. rewrite Eb, Hb in Ha. destruct a as [r|j v|j|j|j].
  - injection Ha as <-. pose proof (Hi (i_next s)) as [H1 _ _ H4 _ _ _ _]. destruct H1 as (_ & _ & _ & N4 & _); [lia|]. destruct r as [|v|]; unfold report; cbn [isay i_dead i_tr]; rewrite ?H4, ?N4; cbn [i_tr isay finishes].
    + split; [done|]. intros [(? & ? & _)|(? & [= ] & _)]. done.
    + split.
      * intros Hx. right. exists v. split; [done|]. destruct (decide (i_next s = i)) as [<-|Hne]; [done|]. by destruct Hx.
      * intros [(? & ? & _)|(w & [= <-] & He)]; [done|]. injection He as -> _. rewrite decide_True by done. lia.
    + split; [done|]. intros [(? & ? & _)|(? & [= ] & _)]. done.
  - destruct (Hi j) as [_ _ _ H4 _ _ _ _]. destruct (i_wait s j); [|done]. injection Ha as <-. unfold report. cbn [isay ended i_dead]. rewrite H4. destruct (deleted j (i_tr s)) eqn:Ed; cbn [i_tr isay finishes].
    + split; [done|]. intros [(w & [= -> ->] & Hx)|(? & [=] & _)]. congruence.
    + split.
      * intros Hx. left. exists v. destruct (decide (j = i)) as [->|]; [done|]. by destruct Hx.
      * intros [(w & [= -> ->] & Hx)|(? & [=] & _)]. rewrite decide_True by done. cbn. lia.
  - destruct (i_wait s j); [|done]. injection Ha as <-. cbn. split; [done|]. intros [(? & ? & _)|(? & ? & _)]; done.
  - destruct (decide _); [|done]. destruct (i_dead s j); [done|]. injection Ha as <-. cbn. split; [done|]. intros [(? & ? & _)|(? & ? & _)]; done.
  - destruct (decide _); [|done]. destruct (i_dead s j); [done|]. injection Ha as <-. cbn. split; [done|]. intros [(? & ? & _)|(? & ? & _)]; done.
Qed.
Print Assumptions C108_undefined_iff.
Print Assumptions C108_finished_iff.
Example ex_C108 : let s := iplay [AIRequest NotYet; AIRequest NotYet; AIDelete 0] ist0 in ireach s ∧ ibroken (i_tr s) = false ∧ deleted 0 (i_tr s) = true ∧ deleted 1 (i_tr s) = false ∧
  i_tr (iplay [AIDone 1 5; AIDone 0 6] s) = [IEBad 0; IEEnd 0 6; IEFinished 1; IEEnd 1 5] ++ i_tr s.
Proof. cbn zeta. split; [apply iplay_reach; constructor|]. split_and!; vm_compute; reflexivity. Qed.
