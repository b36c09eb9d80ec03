(** * Properties of ImageProvider: C60, C95, C96. The model is ImageModel.v, the vocabulary ImageSpec.v. *)
From stdpp Require Import list option.
From Verif Require Import ImageModel ImageSpec.

Record req_ok (s : ist) (i : nat) : Prop := {
  o_new : i_next s <= i -> created i (i_tr s) = false ∧ returned i (i_tr s) = false ∧ result i (i_tr s) = None ∧ deleted i (i_tr s) = false ∧ finishes i (i_tr s) = 0;
  o_old : i < i_next s -> created i (i_tr s) = true ∧ returned i (i_tr s) = true;
  o_wait : i_wait s i = bool_decide (i < i_next s) && bool_decide (result i (i_tr s) = None);
  o_dead : i_dead s i = deleted i (i_tr s);
  o_img : i_img s i = (if decide (finishes i (i_tr s) = 0) then None else match result i (i_tr s) with Some r => r | None => None end);
  o_le : finishes i (i_tr s) <= 1;
  o_res : finishes i (i_tr s) ≠ 0 -> ∃ v, result i (i_tr s) = Some (Some v);
  o_fin : i_bad s = false -> ∀ v, result i (i_tr s) = Some (Some v) -> finishes i (i_tr s) = 1 }.
Definition iinv (s : ist) : Prop := i_bad s = ibroken (i_tr s) ∧ ∀ i, req_ok s i.
(** An event about another request. *)
Definition about (e : iev) : nat := match e with IECreate i | IEReturn i | IEEnd i _ | IEThrow i | IEFinished i | IETexture i _ | IEDelete i | IEBad i => i end.
Lemma other_event i e tr : about e ≠ i -> created i (e :: tr) = created i tr ∧ returned i (e :: tr) = returned i tr ∧ result i (e :: tr) = result i tr ∧ deleted i (e :: tr) = deleted i tr ∧ finishes i (e :: tr) = finishes i tr.
Proof. destruct e; cbn; intros Hne; rewrite ?decide_False, ?bool_decide_eq_false_2 by done; done. Qed.
Lemma other_events i new tr : (∀ e, e ∈ new -> about e ≠ i) ->
  created i (new ++ tr) = created i tr ∧ returned i (new ++ tr) = returned i tr ∧ result i (new ++ tr) = result i tr ∧ deleted i (new ++ tr) = deleted i tr ∧ finishes i (new ++ tr) = finishes i tr.
Proof.
  induction new as [|e new IH]; [done|]. intros H. destruct (other_event i e (new ++ tr)) as (E1 & E2 & E3 & E4 & E5); [apply H; left|]. cbn [app]. rewrite E1, E2, E3, E4, E5. apply IH. intros e' He'. apply H. by right.
Qed.
Lemma other_ok s s' i new : req_ok s i -> i_tr s' = new ++ i_tr s -> (∀ e, e ∈ new -> about e ≠ i) -> (i < i_next s' <-> i < i_next s) -> i_wait s' i = i_wait s i -> i_dead s' i = i_dead s i -> i_img s' i = i_img s i ->
  (i_bad s' = false -> i_bad s = false) -> req_ok s' i.
Proof.
  intros [H1 H2 H3 H4 H5 H6 H7 H8] Ht Hn Hx Hw Hd Hi Hb. destruct (other_events i new (i_tr s) Hn) as (E1 & E2 & E3 & E4 & E5). split; rewrite ?Ht, ?E1, ?E2, ?E3, ?E4, ?E5, ?Hw, ?Hd, ?Hi; try done.
  - intros Hge. apply H1. lia.
  - intros Hlt. apply H2. lia.
  - rewrite H3. f_equal. by apply bool_decide_ext.
  - intros Hbb. apply H8. auto.
Qed.
Lemma upd_same {A} (f : nat -> A) i x : upd f i x i = x. Proof. unfold upd. by rewrite decide_True. Qed.
Lemma upd_other {A} (f : nat -> A) i j x : j ≠ i -> upd f i x j = f j. Proof. intros. unfold upd. by rewrite decide_False. Qed.
Lemma dec_refl {A} (n : nat) (x y : A) : (if decide (n = n) then x else y) = x. Proof. by rewrite decide_True. Qed.
Lemma bdec_refl (n : nat) : bool_decide (n = n) = true. Proof. by rewrite bool_decide_eq_true_2. Qed.
#[local] Ltac here := rewrite ?upd_same, ?dec_refl, ?bdec_refl.
#[local] Ltac others := intros e; rewrite ?elem_of_cons; intros He Ha; repeat destruct He as [->|He]; cbn in Ha; try congruence; by apply elem_of_nil in He.

Lemma iinv_step s s' a : iinv s -> iperform a s = Some s' -> iinv s'.
Proof.
  intros [Hb Hi]. unfold iperform. destruct (i_bad s) eqn:Eb; [done|]. symmetry in Hb. destruct a as [r|i v|i|i|i].
  - intros [= <-]. set (i := i_next s). pose proof (Hi i) as [H1 _ _ H4 _ _ _ _]. destruct (H1 ltac:(lia)) as (N1 & N2 & N3 & N4 & N5).
    assert (i_dead s i = false) as Hd by congruence. destruct r as [|v|].
    + split; [by cbn|]. intros j. destruct (decide (j = i)) as [->|Hne].
      * split; cbn; here; rewrite ?N3, ?N4, ?N5, ?upd_same; try done; try lia. { unfold i. rewrite !bool_decide_eq_true_2 by (done || lia). done. }
        { destruct (Hi i) as [_ _ _ _ H5 _ _ _]. rewrite H5, N5. done. }
      * apply (other_ok s _ j [IEReturn i; IECreate i]); cbn; try done; [others|unfold i in *; lia|by apply upd_other].
    + unfold report. cbn [isay i_dead]. rewrite Hd. split; [by cbn|]. intros j. destruct (decide (j = i)) as [->|Hne].
      * split; cbn; here; rewrite ?N4, ?N5; try done; try lia. { by rewrite andb_false_r. } { intros _. by exists v. }
      * apply (other_ok s _ j [IEReturn i; IEFinished i; IECreate i; IEEnd i v]); cbn; try done; [others|unfold i in *; lia|by apply upd_other|by apply upd_other].
    + split; [by cbn|]. intros j. destruct (decide (j = i)) as [->|Hne].
      * split; cbn; here; rewrite ?N4, ?N5; try done; try lia. { by rewrite andb_false_r. }
        { destruct (Hi i) as [_ _ _ _ H5 _ _ _]. rewrite H5, N5. done. }
      * apply (other_ok s _ j [IEReturn i; IECreate i; IEThrow i]); cbn; try done; [others|unfold i in *; lia|by apply upd_other].
  - destruct (i_wait s i) eqn:Ew; [|done]. intros [= <-]. pose proof (Hi i) as [H1 H2 H3 H4 H5 H6 H7 H8]. rewrite Ew in H3. symmetry in H3. apply andb_true_iff in H3 as [Hlt%bool_decide_eq_true Hres%bool_decide_eq_true].
    assert (finishes i (i_tr s) = 0) as Hf0. { destruct (finishes i (i_tr s)) eqn:E; [done|]. destruct H7 as [v' Hv]; [lia|congruence]. }
    unfold report. cbn [isay ended i_dead]. destruct (i_dead s i) eqn:Ed.
    + split; [cbn; congruence|]. intros j. destruct (decide (j = i)) as [->|Hne].
      * split; cbn; here; rewrite ?Hf0; try done; try lia. { by rewrite andb_false_r. } { congruence. } { rewrite H5, Hf0. done. }
      * apply (other_ok s _ j [IEBad i; IEEnd i v]); cbn; try done; [others|by apply upd_other].
    + split; [cbn; congruence|]. intros j. destruct (decide (j = i)) as [->|Hne].
      * split; cbn; here; rewrite ?Hf0; try done; try lia. { by rewrite andb_false_r. } { congruence. } { intros _. by exists v. }
      * apply (other_ok s _ j [IEFinished i; IEEnd i v]); cbn; try done; [others|by apply upd_other|by apply upd_other].
  - destruct (i_wait s i) eqn:Ew; [|done]. intros [= <-]. pose proof (Hi i) as [H1 H2 H3 H4 H5 H6 H7 H8]. rewrite Ew in H3. symmetry in H3. apply andb_true_iff in H3 as [Hlt%bool_decide_eq_true Hres%bool_decide_eq_true].
    assert (finishes i (i_tr s) = 0) as Hf0. { destruct (finishes i (i_tr s)) eqn:E; [done|]. destruct H7 as [v' Hv]; [lia|congruence]. }
    split; [cbn; congruence|]. intros j. destruct (decide (j = i)) as [->|Hne].
    + split; cbn; here; rewrite ?Hf0; try done; try lia. { by rewrite andb_false_r. } { rewrite H5, Hf0. done. }
    + apply (other_ok s _ j [IEThrow i]); cbn; try done; [others|by apply upd_other].
  - destruct (decide (i < i_next s)) as [Hlt|]; [|done]. destruct (i_dead s i) eqn:Ed; [done|]. intros [= <-]. split; [cbn; congruence|]. intros j. by destruct (Hi j) as [H1 H2 H3 H4 H5 H6 H7 H8].
  - destruct (decide (i < i_next s)) as [Hlt|]; [|done]. destruct (i_dead s i) eqn:Ed; [done|]. intros [= <-]. split; [cbn; congruence|]. intros j. destruct (decide (j = i)) as [->|Hne].
    + destruct (Hi i) as [H1 H2 H3 H4 H5 H6 H7 H8]. split; cbn; here; try done. { intros Hge. lia. } intros _. by apply H8.
    + apply (other_ok s _ j [IEDelete i]); cbn; try done; [others|by apply upd_other].
Qed.
Lemma ireach_inv s : ireach s -> iinv s.
Proof. induction 1 as [|s s' a Hr IH Ha]; [|by eapply iinv_step]. split; [done|]. intros i. split; cbn; try done; lia. Qed.
Lemma isteps_reach s s' : ireach s -> isteps s s' -> ireach s'.
Proof. intros Hr Hs. revert Hr. induction Hs as [|s s1 s2 a Hs IH Ha]; intros Hr; [done|]. by apply (ireach_S s1 s2 a); [apply IH|]. Qed.
Lemma bad_of s : ireach s -> i_bad s = ibroken (i_tr s).
Proof. intros Hr. apply (ireach_inv s Hr). Qed.

(** ** C95: finished() *)
(** finished() of a response is emitted at most once; exactly once if the coroutine ended with an image, and not otherwise. *)
Theorem C95_once s i : ireach s -> ibroken (i_tr s) = false -> finishes i (i_tr s) = match result i (i_tr s) with Some (Some _) => 1 | _ => 0 end.
Proof.
  intros Hr Hb. destruct (ireach_inv s Hr) as [Eb Hi]. destruct (Hi i) as [_ _ _ _ _ _ H7 H8]. rewrite Eb in H8. destruct (result i (i_tr s)) as [[v|]|] eqn:E; [by eapply H8| |];
    (destruct (finishes i (i_tr s)) eqn:E1; [done|]; destruct H7 as [v Hv]; [lia|congruence]).
Qed.
Theorem C95_at_most_once s i : ireach s -> finishes i (i_tr s) <= 1.
Proof. intros Hr. destruct (ireach_inv s Hr) as [_ Hi]. by destruct (Hi i). Qed.
(** When the coroutine of a request ends, while the response exists, finished() is emitted then and there; if that happens in requestImageResponse(), before the response is returned. *)
Theorem C95_done s i v : ireach s -> ibroken (i_tr s) = false -> returned i (i_tr s) = true -> result i (i_tr s) = None -> deleted i (i_tr s) = false ->
  ∃ s', iperform (AIDone i v) s = Some s' ∧ i_tr s' = IEFinished i :: IEEnd i v :: i_tr s.
Proof.
  intros Hr Hb Hret Hres Hdel. destruct (ireach_inv s Hr) as [Eb Hi]. destruct (Hi i) as [H1 _ H3 H4 _ _ _ _]. unfold iperform. rewrite Eb, Hb.
  assert (i < i_next s) as Hlt. { destruct (decide (i < i_next s)) as [|Hge]; [done|]. destruct H1 as (_ & Hx & _); [lia|congruence]. }
  rewrite H3, Hres, !bool_decide_eq_true_2 by done. cbn [andb]. eexists. split; [done|]. unfold report. cbn [isay ended i_dead]. by rewrite H4, Hdel.
Qed.
Theorem C95_at_once s v : ireach s -> ibroken (i_tr s) = false -> ∃ s' i, iperform (AIRequest (WithImage v)) s = Some s' ∧ created i (i_tr s) = false ∧
  i_tr s' = IEReturn i :: IEFinished i :: IECreate i :: IEEnd i v :: i_tr s.
Proof.
  intros Hr Hb. destruct (ireach_inv s Hr) as [Eb Hi]. destruct (Hi (i_next s)) as [H1 _ _ H4 _ _ _ _]. destruct H1 as (N1 & _ & _ & N4 & _); [lia|].
  unfold iperform. rewrite Eb, Hb. eexists _, (i_next s). split; [done|]. split; [done|]. unfold report. cbn [isay i_dead]. by rewrite H4, N4.
Qed.
(** What textureFactory() returns: the image of the coroutine once finished() has been emitted, nothing before. *)
Definition seen_right (tr : list iev) : Prop := ∀ post pre i v, tr = post ++ IETexture i v :: pre ->
  v = (if decide (finishes i pre = 0) then None else match result i pre with Some r => r | None => None end) ∧ (finishes i pre = 1 -> ∃ w, v = Some w ∧ result i pre = Some (Some w)).
Lemma seen_cons e tr : seen_right tr -> (∀ i v, e = IETexture i v -> v = (if decide (finishes i tr = 0) then None else match result i tr with Some r => r | None => None end) ∧ (finishes i tr = 1 -> ∃ w, v = Some w ∧ result i tr = Some (Some w))) -> seen_right (e :: tr).
Proof. intros H He [|x post] pre i v Heq; injection Heq as -> Heq; [subst; by apply He|by eapply H]. Qed.
Lemma seen_other e tr : seen_right tr -> (∀ i v, e ≠ IETexture i v) -> seen_right (e :: tr).
Proof. intros H He. apply seen_cons; [done|]. intros i v Hx. by apply He in Hx. Qed.
Theorem C95_texture s : ireach s -> seen_right (i_tr s).
Proof.
  induction 1 as [|s s' a Hr IH Ha]; [intros [|x post] pre i v Heq; done|]. destruct (ireach_inv s Hr) as [_ Hi]. unfold iperform in Ha. destruct (i_bad s); [done|]. destruct a as [r|i v|i|i|i].
  - injection Ha as <-. unfold report. destruct r as [|v|]; cbn [isay i_dead i_tr]; [| |]; try destruct (i_dead s (i_next s)); cbn [i_tr]; by repeat apply seen_other.
  - destruct (i_wait s i); [|done]. injection Ha as <-. unfold report. cbn [isay ended i_dead i_tr]. destruct (i_dead s i); cbn [i_tr]; by repeat apply seen_other.
  - destruct (i_wait s i); [|done]. injection Ha as <-. by apply seen_other.
  - destruct (decide (i < i_next s)); [|done]. destruct (i_dead s i); [done|]. injection Ha as <-. apply seen_cons; [done|]. intros j v [= <- <-]. destruct (Hi i) as [_ _ _ _ H5 _ H7 _]. split; [done|].
    intros H1. destruct H7 as [w Hw]; [lia|]. exists w. split; [|done]. by rewrite H5, H1, Hw.
  - destruct (decide (i < i_next s)); [|done]. destruct (i_dead s i); [done|]. injection Ha as <-. by apply seen_other.
Qed.

(** ** C60: does every response finish? Violated: if the coroutine throws, never *)
Lemma result_grows s s' i x : isteps s s' -> ireach s -> result i (i_tr s) = Some x -> result i (i_tr s') = Some x.
Proof.
  induction 1 as [|s s1 s2 a Hs IH Ha]; [done|]. intros Hr Hx. specialize (IH Hr Hx). destruct (ireach_inv s1 (isteps_reach _ _ Hr Hs)) as [_ Hi]. destruct (Hi i) as [H1 _ H3 _ _ _ _ _].
  assert (∀ v, iperform (AIDone i v) s1 = None ∧ iperform (AIThrow i) s1 = None) as Hno. { intros v. unfold iperform. rewrite H3, IH. rewrite (bool_decide_eq_false_2 (Some x = None)) by done. rewrite andb_false_r. by destruct (i_bad s1). }
  assert (i < i_next s1) as Hlt. { destruct (decide (i < i_next s1)) as [|Hge]; [done|]. destruct H1 as (_ & _ & Hy & _); [lia|congruence]. }
  unfold iperform in Ha. destruct (i_bad s1) eqn:Eb; [done|]. destruct a as [r|j v|j|j|j].
  - injection Ha as <-. unfold report. destruct r as [|v|]; cbn [isay i_dead i_tr]; try destruct (i_dead s1 (i_next s1)); cbn [isay i_tr result]; rewrite ?decide_False by lia; done.
  - destruct (decide (j = i)) as [->|]; [destruct (Hno v) as [Hno1 _]; unfold iperform in Hno1; rewrite Eb in Hno1; congruence|]. destruct (i_wait s1 j); [|done]. injection Ha as <-. unfold report. cbn [isay ended i_dead i_tr].
    destruct (i_dead s1 j); cbn [isay i_tr result]; by rewrite decide_False.
  - destruct (decide (j = i)) as [->|]; [destruct (Hno 0) as [_ Hno1]; unfold iperform in Hno1; rewrite Eb in Hno1; congruence|]. destruct (i_wait s1 j); [|done]. injection Ha as <-. cbn. by rewrite decide_False.
  - destruct (decide (j < i_next s1)); [|done]. destruct (i_dead s1 j); [done|]. by injection Ha as <-.
  - destruct (decide (j < i_next s1)); [|done]. destruct (i_dead s1 j); [done|]. by injection Ha as <-.
Qed.
Theorem C60_exception_refuted s s' i : ireach s -> result i (i_tr s) = Some None -> isteps s s' -> finishes i (i_tr s') = 0.
Proof.
  intros Hr Hx Hs. pose proof (result_grows _ _ _ _ Hs Hr Hx) as Hx'. destruct (ireach_inv s' (isteps_reach _ _ Hr Hs)) as [_ Hi]. destruct (Hi i) as [_ _ _ _ _ _ H7 _].
  destruct (finishes i (i_tr s')); [done|]. destruct H7 as [v Hv]; [lia|congruence].
Qed.
(** ** C96: can the engine delete a response at any time? Violated: if the coroutine then ends with an image, the deleted response is used, always *)
Theorem C96_refuted s i v : ireach s -> ibroken (i_tr s) = false -> returned i (i_tr s) = true -> result i (i_tr s) = None -> deleted i (i_tr s) = true ->
  ∃ s', iperform (AIDone i v) s = Some s' ∧ ibroken (i_tr s') = true.
Proof.
  intros Hr Hb Hret Hres Hdel. destruct (ireach_inv s Hr) as [Eb Hi]. destruct (Hi i) as [H1 _ H3 H4 _ _ _ _]. unfold iperform. rewrite Eb, Hb.
  assert (i < i_next s) as Hlt. { destruct (decide (i < i_next s)) as [|Hge]; [done|]. destruct H1 as (_ & Hx & _); [lia|congruence]. }
  rewrite H3, Hres, !bool_decide_eq_true_2 by done. cbn [andb]. eexists. split; [done|]. unfold report. cbn [isay ended i_dead]. by rewrite H4, Hdel.
Qed.
(** ... and that is the only way: *)
Theorem C96_partial s s' a : ireach s -> ibroken (i_tr s) = false -> iperform a s = Some s' -> ibroken (i_tr s') = true -> ∃ i v, a = AIDone i v ∧ deleted i (i_tr s) = true ∧ result i (i_tr s) = None.
Proof.
  intros Hr Hb Ha Hb'. destruct (ireach_inv s Hr) as [Eb Hi]. unfold iperform in Ha. rewrite Eb, Hb in Ha. destruct a as [r|i v|i|i|i].
  - injection Ha as <-. exfalso. destruct (Hi (i_next s)) as [H1 _ _ H4 _ _ _ _]. destruct H1 as (_ & _ & _ & N4 & _); [lia|]. unfold report in Hb'. destruct r as [|v|]; cbn [isay i_dead i_tr ibroken] in Hb'; [congruence| |congruence].
    rewrite H4, N4 in Hb'. cbn in Hb'. congruence.
  - destruct (Hi i) as [_ _ H3 H4 _ _ _ _]. destruct (i_wait s i); [|done]. injection Ha as <-. exists i, v. split; [done|]. unfold report in Hb'. cbn [isay ended i_dead] in Hb'. symmetry in H3. apply andb_true_iff in H3 as [_ Hn%bool_decide_eq_true].
    rewrite H4 in Hb'. destruct (deleted i (i_tr s)); [done|]. cbn in Hb'. congruence.
  - destruct (i_wait s i); [|done]. injection Ha as <-. cbn in Hb'. congruence.
  - destruct (decide (i < i_next s)); [|done]. destruct (i_dead s i); [done|]. injection Ha as <-. cbn in Hb'. congruence.
  - destruct (decide (i < i_next s)); [|done]. destruct (i_dead s i); [done|]. injection Ha as <-. cbn in Hb'. congruence.
Qed.

(** ** Examples *)
Lemma iplay_reach l s : ireach s -> ireach (iplay l s).
Proof. revert s. induction l as [|x l IH]; [done|]. intros s Hr. cbn. destruct (iperform x s) as [s'|] eqn:E; [|done]. apply IH. by eapply ireach_S. Qed.
Definition ex_images := [AIRequest NotYet; AIRequest (WithImage 5); AIRequest NotYet; AITexture 0; AIDone 0 8; AITexture 0; AIThrow 2; AIRequest NotYet; AIDelete 3].
Example C95_ex : ireach (iplay ex_images ist0) ∧ i_tr (iplay ex_images ist0) =
  [IEDelete 3; IEReturn 3; IECreate 3; IEThrow 2; IETexture 0 (Some 8); IEFinished 0; IEEnd 0 8; IETexture 0 None; IEReturn 2; IECreate 2; IEReturn 1; IEFinished 1; IECreate 1; IEEnd 1 5; IEReturn 0; IECreate 0].
Proof. split; [apply iplay_reach; constructor|vm_compute; reflexivity]. Qed.
(** A request whose coroutine threw (request 2), and one whose response was deleted (request 3): the hypotheses of C60 and C96 are met. *)
Example C60_ex : let tr := i_tr (iplay ex_images ist0) in result 2 tr = Some None ∧ finishes 2 tr = 0 ∧ ibroken tr = false ∧ returned 3 tr = true ∧ result 3 tr = None ∧ deleted 3 tr = true ∧
  i_tr (iplay [AIDone 3 1] (iplay ex_images ist0)) = IEBad 3 :: IEEnd 3 1 :: tr.
Proof. cbn zeta. split_and!; vm_compute; reflexivity. Qed.
Theorem C60_refuted : ¬ ∀ s i, ireach s -> ibroken (i_tr s) = false -> result i (i_tr s) ≠ None -> finishes i (i_tr s) = 1.
Proof. intros H. specialize (H (iplay ex_images ist0) 2 (proj1 C95_ex) eq_refl). vm_compute in H. by specialize (H ltac:(done)). Qed.

Print Assumptions C95_once.
Print Assumptions C95_at_most_once.
Print Assumptions C95_done.
Print Assumptions C95_at_once.
Print Assumptions C95_texture.
Print Assumptions C60_exception_refuted.
Print Assumptions C60_refuted.
Print Assumptions C96_refuted.
Print Assumptions C96_partial.
