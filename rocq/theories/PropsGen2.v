(** * Property theorems C100-C101: exactly when the iterator operations of Generator and AsyncGenerator are defined.
    Vocabulary as in PropsGen.v and PropsAGen.v. *)
From stdpp Require Import gmap list.
From Verif Require Import GenModel GenSpec GenInv GenFacts GenLoop GenFacts2 GenCall GenRun TaskRun PropsGen.

(** ** C100 *)

(** begin() is defined iff the Generator object has a coroutine that is suspended before its first statement or at a
    co_yield. *)
Theorem C100_begin_defined_iff {V E} (s : gstate V E) w g c st h : greach s -> gstack s = GRun w (GBegin g c) :: st -> gens s !! g = Some h ->
  (∃ s', gstep s = GNext s') <-> ∃ f, h = Some f ∧ (gphase_of f (gtrace s) = QInit ∨ gphase_of f (gtrace s) = QSusp).
Proof. exact (C28_begin_defined_iff s w g c st h). Qed.
Print Assumptions C100_begin_defined_iff.
Example ex_C100_begin_defined_iff : ∃ s w g c st f, greach s ∧ gstack (V:=nat) (E:=nat) s = GRun w (GBegin g c) :: st ∧
  gens s !! g = Some (Some f) ∧ gphase_of f (gtrace s) = QInit.
Proof. exists (grun begin_done 1). do 5 eexists. split; [apply grun_reach|]. split_and!; vm_compute; reflexivity. Qed.

(** ++ is defined iff the iterator is an end iterator, or its coroutine exists and is suspended and has not ended. *)
Theorem C100_increment_defined_iff {V E} (s : gstate V E) w i c st h : greach s -> gstack s = GRun w (GInc i c) :: st -> iters s !! i = Some h ->
  (∃ s', gstep s = GNext s') <->
  h = None ∨ ∃ f, h = Some f ∧ (gphase_of f (gtrace s) = QInit ∨ gphase_of f (gtrace s) = QSusp).
Proof.
  intros HR Hst Hi. destruct (inv_reach _ HR) as [HH HO]. unfold gstep. rewrite Hst. cbn. rewrite Hi. destruct h as [f|].
  - unfold gresume. cbn. destruct (gheap s !! f) as [fr|] eqn:Hf.
    + pose proof (h_some _ _ _ _ HH f fr Hf) as Hp.
      destruct (gstat fr) eqn:Hs; cbn in Hp; split; try (by eauto); try (by intros [? ?]);
        try (by intros _; right; exists f; auto); intros [?|(f' & [= <-] & Hx)]; try done; rewrite Hp in Hx; naive_solver.
    + split; [by intros [? ?]|]. destruct (h_none _ _ _ _ HH f Hf) as [Hp|Hp];
      intros [?|(f' & [= <-] & Hx)]; try done; rewrite Hp in Hx; naive_solver.
  - split; [by left|eauto].
Qed.
Print Assumptions C100_increment_defined_iff.
Example ex_C100_increment_defined_iff : ∃ s w i c st f, greach s ∧ gstack (V:=nat) (E:=nat) s = GRun w (GInc i c) :: st ∧
  iters s !! i = Some (Some f) ∧ gphase_of f (gtrace s) = QSusp.
Proof. exists (grun (iterate two_throw) 8). do 5 eexists. split; [apply grun_reach|]. split_and!; vm_compute; reflexivity. Qed.

(** * is defined, for reading and for writing, iff the iterator has a coroutine that is suspended at a co_yield. *)
Theorem C100_deref_defined_iff {V E} (s : gstate V E) w i c st h : greach s -> gstack s = GRun w (GDeref i c) :: st -> iters s !! i = Some h ->
  (∃ s', gstep s = GNext s') <-> ∃ f, h = Some f ∧ gphase_of f (gtrace s) = QSusp.
Proof.
  intros HR Hst Hi. destruct (inv_reach _ HR) as [HH HO]. unfold gstep. rewrite Hst. cbn. rewrite Hi. destruct h as [f|].
  - unfold gvalue. cbn. destruct (gheap s !! f) as [fr|] eqn:Hf.
    + pose proof (h_some _ _ _ _ HH f fr Hf) as Hp. pose proof (h_val _ _ _ _ HH f fr Hf) as Hv. unfold val_ok in Hv.
      destruct (gstat fr) eqn:Hs; cbn in Hp; destruct (gnonnull fr) eqn:Hn; split; try (by intros [? ?]); try (by eauto);
        try (intros (f' & [= <-] & Hx); congruence); try (destruct Hv; congruence).
    + split; [by intros [? ?]|]. destruct (h_none _ _ _ _ HH f Hf) as [Hp|Hp]; intros (f' & [= <-] & Hx); congruence.
  - split; [by intros [? ?]|by intros (? & ? & _)].
Qed.
Print Assumptions C100_deref_defined_iff.
Theorem C100_write_defined_iff {V E} (s : gstate V E) w i v p st h : greach s -> gstack s = GRun w (GWrite i v p) :: st -> iters s !! i = Some h ->
  (∃ s', gstep s = GNext s') <-> ∃ f, h = Some f ∧ gphase_of f (gtrace s) = QSusp.
Proof.
  intros HR Hst Hi. destruct (inv_reach _ HR) as [HH HO]. unfold gstep. rewrite Hst. cbn. rewrite Hi. destruct h as [f|].
  - destruct (gheap s !! f) as [fr|] eqn:Hf.
    + pose proof (h_some _ _ _ _ HH f fr Hf) as Hp. pose proof (h_val _ _ _ _ HH f fr Hf) as Hv. unfold val_ok in Hv.
      destruct (gstat fr) eqn:Hs; cbn in Hp; destruct (gnonnull fr) eqn:Hn; split; try (by intros [? ?]); try (by eauto);
        try (intros (f' & [= <-] & Hx); congruence); try (destruct Hv; congruence).
    + split; [by intros [? ?]|]. destruct (h_none _ _ _ _ HH f Hf) as [Hp|Hp]; intros (f' & [= <-] & Hx); congruence.
  - split; [by intros [? ?]|by intros (? & ? & _)].
Qed.
Print Assumptions C100_write_defined_iff.
