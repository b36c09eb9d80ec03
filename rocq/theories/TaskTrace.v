(** * Every trace of the Task machine satisfies the specification of TaskSpec.v. *)
From stdpp Require Import gmap list.
From Verif Require Import TaskModel TaskInv TaskSafe TaskView TaskSpec.

Section trace.
Context {V : Type} (mv : V -> V) (dflt : V).
Notation state := (state V). Notation item := (item V). Notation frame := (frame V).
Notation event := (event V).
Notation legal_trace := (legal_trace mv). Notation result_of := (result_of mv).
Notation astep := (astep mv dflt).

Definition sphase (st : status V) : phase :=
  match st with
  | Initial _ => PhInit
  | Running => PhRun
  | AwaitTask h _ => PhWait h
  | AwaitNull => PhHung
  | AwaitLeaf _ => PhLeaf
  | Final => PhFin
  end.

(** What the trace says about coroutine [f] agrees with its frame. *)
Definition RL (tr : list event) (f : nat) (ofr : option frame) : Prop :=
  match ofr with
  | Some fr => phase_of f tr = sphase (fstatus fr) ∧ result_of f tr = fresult fr ∧
               ∃ b w, ECreate f (fkind fr) b w ∈ tr
  | None => (phase_of f tr = PhNone ∧ result_of f tr = None) ∨ phase_of f tr = PhGone
  end.

Definition concerns (e : event) : list nat :=
  match e with
  | ECreate f _ _ _ | EStart f | EFinish f _ | EDestroy f | EHang f | ELeafWait f | ELeafWake f _ => [f]
  | EWait f h | EWake f h _ | ENow f h _ => [f; h]
  | _ => []
  end.

Lemma RL_skip e tr f o : f ∉ concerns e -> RL tr f o -> RL (e :: tr) f o.
Proof.
  intros Hf. unfold RL. destruct o as [fr|].
  - intros (H1 & H2 & b & w & H3).
    assert (E : phase_of f (e :: tr) = phase_of f tr ∧ result_of f (e :: tr) = result_of f tr).
    { destruct e; cbn in *; rewrite ?decide_False by set_solver; done. }
    destruct E as [-> ->]. split_and!; try done. exists b, w. by right.
  - assert (E : phase_of f (e :: tr) = phase_of f tr ∧ result_of f (e :: tr) = result_of f tr).
    { destruct e; cbn in *; rewrite ?decide_False by set_solver; done. }
    by destruct E as [-> ->].
Qed.

(** Call stack against heap; [xa]: activations in transit. *)
Record SI (xa : list actor) (hp : gmap nat frame) (st : list item) (n : nat) : Prop := {
  si_act : ∀ f, Co f ∈ xa ++ actors st -> ∃ fr, hp !! f = Some fr ∧ fstatus fr = Running;
  si_nd : NoDup (xa ++ actors st);
  si_plain : ∀ m, Plain m ∈ xa ++ actors st -> m < n;
  si_fin : ∀ h, h ∈ finals st -> ∃ fr, hp !! h = Some fr ∧ is_final fr = true;
  si_bound : ∀ f, n <= f -> hp !! f = None;
}.

Record RC (xa : list actor) (hp : gmap nat frame) (st : list item) (tr : list event) (n : nat) : Prop := {
  r_loc : ∀ f, RL tr f (hp !! f);
  r_fresh : ∀ f, n <= f -> phase_of f tr = PhNone ∧ queue f tr = [];
  r_queue : ∀ h, queue h tr = pending h hp st;
  r_legal : legal_trace tr;
  r_si : SI xa hp st n;
}.
Definition R (s : state) : Prop := RC [] (heap s) (stack s) (trace s) (nf s).

(** ** Stack-only changes *)
Lemma rc_stack xa xa' hp st st' tr n :
  RC xa hp st tr n ->
  xa ++ actors st = xa' ++ actors st' -> finals st' = finals st -> (∀ h, fin_list h st' = fin_list h st) ->
  RC xa' hp st' tr n.
Proof.
  intros [H1 H2 H3 H4 [S1 S2 S3 S4 S5]] Ha Hf Hl. split; try done.
  - intros h. rewrite H3. unfold pending. destruct (hp !! h); [|done]. by rewrite Hl.
  - split; rewrite <- ?Ha, ?Hf; try done.
Qed.

Lemma rc_pop hp w c st tr n : RC [] hp (Run w c :: st) tr n -> RC [w] hp st tr n.
Proof. intros H. eapply rc_stack; [exact H|..]; rewrite ?actors_cons, ?finals_cons; try done. Qed.
Lemma rc_push hp w c st tr n : RC [w] hp st tr n -> RC [] hp (Run w c :: st) tr n.
Proof. intros H. eapply rc_stack; [exact H|..]; rewrite ?actors_cons, ?finals_cons; try done. Qed.
Lemma rc_push2 hp w w' c st tr n : RC [w'; w] hp st tr n -> RC [w'] hp (Run w c :: st) tr n.
Proof. intros H. eapply rc_stack; [exact H|..]; rewrite ?actors_cons, ?finals_cons; try done. Qed.
Lemma rc_popl hp w vd x i en c st tr n : RC [] hp (WaitLoop w vd x i en c :: st) tr n -> RC [w] hp st tr n.
Proof. intros H. eapply rc_stack; [exact H|..]; rewrite ?actors_cons, ?finals_cons; try done. Qed.
Lemma rc_pushl hp w vd x i en c st tr n : RC [w] hp st tr n -> RC [] hp (WaitLoop w vd x i en c :: st) tr n.
Proof. intros H. eapply rc_stack; [exact H|..]; rewrite ?actors_cons, ?finals_cons; try done. Qed.
Lemma rc_pushl2 hp w w' vd x i en c st tr n :
  RC [w'; w] hp st tr n -> RC [w'] hp (WaitLoop w vd x i en c :: st) tr n.
Proof. intros H. eapply rc_stack; [exact H|..]; rewrite ?actors_cons, ?finals_cons; try done. Qed.

(** Forget an activation. *)
Lemma rc_forget w xa hp st tr n : RC (w :: xa) hp st tr n -> RC xa hp st tr n.
Proof.
  intros [H1 H2 H3 H4 [S1 S2 S3 S4 S5]]. split; try done. split; try done.
  - intros f Hf. apply S1. cbn. by right.
  - cbn in S2. by apply NoDup_cons in S2 as [? ?].
  - intros m Hm. apply S3. cbn. by right.
Qed.

(** The actor in transit is running. *)
Lemma rc_runs w xa hp st tr n : RC (w :: xa) hp st tr n -> actor_runs w tr.
Proof.
  intros [H1 H2 H3 H4 S]. destruct w as [f|m]; [|done]. cbn.
  destruct (si_act _ _ _ _ S f) as (fr & Hf & Hr); [left|].
  specialize (H1 f). rewrite Hf in H1. cbn in H1. destruct H1 as [-> _]. by rewrite Hr.
Qed.

(** ** Events without effect on frames *)
Definition quiet (e : event) : Prop :=
  match e with EObs _ _ | EAct _ _ | EKill _ | EWaitCall _ _ _ _ | ELoop _ | EWaitRet _ _ _ => True | _ => False end.

Lemma rc_quiet e xa hp st tr n : quiet e -> legal mv e tr -> RC xa hp st tr n -> RC xa hp st (e :: tr) n.
Proof.
  intros Hq Hl [H1 H2 H3 H4 S]. split; try done.
  - intros f. apply RL_skip; [|done]. destruct e; try done; cbn; apply not_elem_of_nil.
  - intros f Hf. destruct (H2 f Hf). destruct e; done.
  - intros h. rewrite <- H3. destruct e; done.
Qed.

(** Creation of a started or lazy coroutine. *)
Lemma rc_create_lazy w xa hp st tr n p b :
  RC (w :: xa) hp st tr n ->
  RC (w :: xa) (<[n := vframe KLazy (Initial p)]> hp) st (ECreate n KLazy b w :: tr) (S n).
Proof.
  intros HR. pose proof HR as [H1 H2 H3 H4 S]. destruct (H2 n) as [Hn1 Hn2]; [done|].
  pose proof (si_bound _ _ _ _ S n (le_n n)) as Hn.
  assert (Hnr : result_of n tr = None).
  { specialize (H1 n). rewrite Hn in H1. destruct H1 as [[_ H1]|H1]; [done|congruence]. }
  split.
  - intros f. destruct (decide (f = n)) as [->|Hne].
    + rewrite lookup_insert. cbn. rewrite decide_True by done. split_and!; try done. exists b, w. left.
    + rewrite lookup_insert_ne by done. apply RL_skip; [set_solver|done].
  - intros f Hf. cbn. rewrite decide_False by lia. apply H2. lia.
  - intros h. cbn. destruct (decide (h = n)) as [->|Hne].
    + rewrite Hn2. unfold pending. by rewrite lookup_insert.
    + rewrite H3. unfold pending. by rewrite lookup_insert_ne.
  - split; [|done]. split; [done|]. by eapply rc_runs.
  - destruct S as [S1 S2 S3 S4 S5]. split; try done.
    + intros f Hf. destruct (S1 f Hf) as (fr & Hfr & ?). exists fr. rewrite lookup_insert_ne; [done|]. congruence.
    + intros m Hm. specialize (S3 m Hm). lia.
    + intros f Hf. destruct (S4 f Hf) as (fr & Hfr & ?). exists fr. rewrite lookup_insert_ne; [done|]. congruence.
    + intros f Hf. rewrite lookup_insert_ne by lia. apply S5. lia.
Qed.

Lemma rc_create w xa hp st tr n b :
  RC (w :: xa) hp st tr n ->
  RC (Co n :: w :: xa) (<[n := vframe KTask Running]> hp) st (EStart n :: ECreate n KTask b w :: tr) (S n).
Proof.
  intros HR. pose proof HR as [H1 H2 H3 H4 S]. destruct (H2 n) as [Hn1 Hn2]; [done|].
  pose proof (si_bound _ _ _ _ S n (le_n n)) as Hn.
  assert (Hnr : result_of n tr = None).
  { specialize (H1 n). rewrite Hn in H1. destruct H1 as [[_ H1]|H1]; [done|congruence]. }
  split.
  - intros f. destruct (decide (f = n)) as [->|Hne].
    + rewrite lookup_insert. cbn. rewrite !decide_True by done. split_and!; try done. exists b, w. right. left.
    + rewrite lookup_insert_ne by done. apply RL_skip; [set_solver|]. apply RL_skip; [set_solver|done].
  - intros f Hf. cbn. rewrite !decide_False by lia. apply H2. lia.
  - intros h. cbn. destruct (decide (h = n)) as [->|Hne].
    + rewrite Hn2. unfold pending. by rewrite lookup_insert.
    + rewrite H3. unfold pending. by rewrite lookup_insert_ne.
  - split; [|split; [|done]].
    + split; [cbn; by rewrite decide_True|]. left. eauto.
    + split; [done|]. by eapply rc_runs.
  - destruct S as [S1 S2 S3 S4 S5]. split; try done.
    + intros f Hf. cbn in Hf. apply elem_of_cons in Hf as [[= ->]|Hf].
      * rewrite lookup_insert. eauto.
      * destruct (S1 f Hf) as (fr & Hfr & ?). exists fr. rewrite lookup_insert_ne; [done|]. congruence.
    + cbn. apply NoDup_cons. split; [|done]. intros Hin. destruct (S1 n Hin) as (fr & Hfr & ?). congruence.
    + intros m Hm. cbn in Hm. apply elem_of_cons in Hm as [?|Hm]; [done|]. specialize (S3 m Hm). lia.
    + intros f Hf. destruct (S4 f Hf) as (fr & Hfr & ?). exists fr. rewrite lookup_insert_ne; [done|]. congruence.
    + intros f Hf. rewrite lookup_insert_ne by lia. apply S5. lia.
Qed.

(** Facts about the running coroutine in transit. *)
Lemma rc_co f xa hp st tr n : RC (Co f :: xa) hp st tr n ->
  ∃ fr, hp !! f = Some fr ∧ fstatus fr = Running ∧ phase_of f tr = PhRun ∧ f ∉ finals st ∧
    Co f ∉ xa ++ actors st ∧ f < n.
Proof.
  intros HR. pose proof (rc_runs _ _ _ _ _ _ HR) as Hp. destruct HR as [H1 H2 H3 H4 [S1 S2 S3 S4 S5]].
  destruct (S1 f) as (fr & Hf & Hr); [left|]. exists fr. split_and!; try done.
  - intros Hin. destruct (S4 f Hin) as (fr' & Hf' & Hfin). assert (fr' = fr) as -> by congruence.
    unfold is_final in Hfin. by rewrite Hr in Hfin.
  - cbn in S2. by apply NoDup_cons in S2 as [? ?].
  - destruct (decide (n <= f)) as [Hle|]; [|lia]. rewrite S5 in Hf; done.
Qed.

Lemma alter_insert_frame (g : frame -> frame) f (hp : gmap nat frame) fr :
  hp !! f = Some fr -> alter g f hp = <[f := g fr]> hp.
Proof.
  intros H. apply map_eq. intros x. destruct (decide (x = f)) as [->|].
  - by rewrite lookup_alter, lookup_insert, H.
  - by rewrite lookup_alter_ne, lookup_insert_ne.
Qed.

(** Stack invariant after updating one frame that is neither running nor being finalised. *)
Lemma si_upd xa hp st n f fr fr' :
  SI xa hp st n -> hp !! f = Some fr ->
  (Co f ∈ xa ++ actors st -> fstatus fr' = Running) ->
  (f ∈ finals st -> is_final fr' = true) ->
  SI xa (<[f := fr']> hp) st n.
Proof.
  intros [S1 S2 S3 S4 S5] Hf Ha Hb. split; try done.
  - intros g Hg. destruct (decide (g = f)) as [->|Hne].
    + rewrite lookup_insert. eauto.
    + rewrite lookup_insert_ne by done. eauto.
  - intros g Hg. destruct (decide (g = f)) as [->|Hne].
    + rewrite lookup_insert. eauto.
    + rewrite lookup_insert_ne by done. eauto.
  - intros g Hg. destruct (decide (g = f)) as [->|Hne].
    + rewrite S5 in Hf; done.
    + rewrite lookup_insert_ne by done. eauto.
Qed.

Lemma si_drop w xa hp st n : SI (w :: xa) hp st n -> SI xa hp st n.
Proof.
  intros [S1 S2 S3 S4 S5]. split; try done.
  - intros f Hf. apply S1. cbn. by right.
  - cbn in S2. by apply NoDup_cons in S2 as [? ?].
  - intros m Hm. apply S3. cbn. by right.
Qed.

Lemma si_add f xa hp st n fr : SI xa hp st n -> hp !! f = Some fr -> fstatus fr = Running ->
  Co f ∉ xa ++ actors st -> SI (Co f :: xa) hp st n.
Proof.
  intros [S1 S2 S3 S4 S5] Hf Hr Hn. split; try done.
  - intros g Hg. cbn in Hg. apply elem_of_cons in Hg as [[= ->]|Hg]; eauto.
  - cbn. by apply NoDup_cons.
  - intros m Hm. apply S3. cbn in Hm. by apply elem_of_cons in Hm as [?|?].
Qed.

Lemma rl_at tr f (hp : gmap nat frame) fr : RL tr f (hp !! f) -> hp !! f = Some fr ->
  phase_of f tr = sphase (fstatus fr) ∧ result_of f tr = fresult fr ∧ ∃ b w, ECreate f (fkind fr) b w ∈ tr.
Proof. intros H E. by rewrite E in H. Qed.

(** Simple suspension: EHang, ELeafWait. *)
Lemma rc_suspend f x e xa hp st tr n :
  RC (Co f :: xa) hp st tr n ->
  (e = EHang f ∧ x = AwaitNull) ∨ (∃ c, e = ELeafWait f ∧ x = AwaitLeaf c) ->
  RC xa (alter (fr_status x) f hp) st (e :: tr) n.
Proof.
  intros HR He. destruct (rc_co _ _ _ _ _ _ HR) as (fr & Hf & Hr & Hp & Hnf & Hna & Hlt).
  rewrite (alter_insert_frame _ _ _ fr) by done.
  destruct HR as [H1 H2 H3 H4 S].
  destruct (rl_at _ _ _ _ (H1 f) Hf) as (E1 & E2 & b & w & E3).
  split.
  - intros g. destruct (decide (g = f)) as [->|Hne].
    + rewrite lookup_insert. cbn. destruct He as [[-> ->]|(c & -> & ->)]; cbn; rewrite decide_True by done;
        (split_and!; [done|done|exists b, w; by right]).
    + rewrite lookup_insert_ne by done. apply RL_skip; [|done].
      destruct He as [[-> ->]|(c & -> & ->)]; set_solver.
  - intros g Hg. destruct (H2 g Hg). destruct He as [[-> ->]|(c & -> & ->)]; cbn; rewrite decide_False by lia; done.
  - intros h. assert (queue h (e :: tr) = queue h tr) as ->.
    { by destruct He as [[-> ->]|(c & -> & ->)]. }
    rewrite H3. unfold pending. destruct (decide (h = f)) as [->|Hne].
    + rewrite lookup_insert, Hf. unfold is_final. cbn. rewrite Hr. by destruct He as [[-> ->]|(c & -> & ->)].
    + by rewrite lookup_insert_ne.
  - split; [|done]. by destruct He as [[-> ->]|(c & -> & ->)].
  - eapply si_upd; [by eapply si_drop|done|..].
    + intros Hin. by destruct Hna.
    + done.
Qed.

(** A finished task is consumed without suspension. *)
Lemma rc_now f h fr o xa hp st tr n :
  RC (Co f :: xa) hp st tr n -> hp !! h = Some fr -> is_final fr = true -> fresult fr = Some o ->
  RC (Co f :: xa) (alter (fr_result (Some (consumed mv o))) h hp) st (ENow f h o :: tr) n.
Proof.
  intros HR Hh Hfin Hres. destruct (rc_co _ _ _ _ _ _ HR) as (ff & Hf & Hr & Hp & Hnf & Hna & Hlt).
  rewrite (alter_insert_frame _ _ _ fr) by done.
  assert (Hne : f ≠ h). { intros ->. assert (ff = fr) as -> by congruence. unfold is_final in Hfin. by rewrite Hr in Hfin. }
  destruct HR as [H1 H2 H3 H4 S].
  destruct (rl_at _ _ _ _ (H1 h) Hh) as (E1 & E2 & b & w & E3).
  destruct (rl_at _ _ _ _ (H1 f) Hf) as (F1 & F2 & b' & w' & F3).
  assert (Hst : fstatus fr = Final) by (unfold is_final in Hfin; by destruct (fstatus fr)).
  split.
  - intros g. destruct (decide (g = h)) as [->|Hgh].
    + rewrite lookup_insert. cbn. rewrite decide_True by done. rewrite E2, Hres.
      split_and!; [done|done|exists b, w; by right].
    + rewrite lookup_insert_ne by done. destruct (decide (g = f)) as [->|Hgf].
      * rewrite Hf. cbn. rewrite decide_False by done. split_and!; [done|done|exists b', w'; by right].
      * apply RL_skip; [set_solver|done].
  - intros g Hg. by apply H2.
  - intros g. cbn. rewrite H3. unfold pending. destruct (decide (g = h)) as [->|Hgh].
    + rewrite lookup_insert, Hh. unfold is_final. cbn. done.
    + by rewrite lookup_insert_ne.
  - split; [|done]. split_and!; [done|by rewrite E1, Hst|by rewrite E2].
  - eapply si_upd; [done|done|..].
    + intros Hin. destruct (si_act _ _ _ _ S h Hin) as (fr' & Hf' & Hr'). congruence.
    + done.
Qed.

(** Registration as awaiter. *)
Lemma rc_wait f h fr k xa hp st tr n :
  RC (Co f :: xa) hp st tr n -> hp !! h = Some fr -> is_final fr = false ->
  RC xa (alter (fr_status (AwaitTask h k)) f (alter (fun fr => fr_awaiters (fawaiters fr ++ [f]) fr) h hp)) st
    (EWait f h :: tr) n.
Proof.
  intros HR Hh Hfin. destruct (rc_co _ _ _ _ _ _ HR) as (ff & Hf & Hr & Hp & Hnf & Hna & Hlt).
  destruct HR as [H1 H2 H3 H4 S].
  destruct (rl_at _ _ _ _ (H1 h) Hh) as (E1 & E2 & b & w & E3).
  destruct (rl_at _ _ _ _ (H1 f) Hf) as (F1 & F2 & b' & w' & F3).
  set (hp1 := alter _ h hp). set (hp2 := alter _ f hp1).
  assert (L : ∀ g, ∃ og, hp2 !! g = og ∧
    match hp !! g, og with
    | None, None => True
    | Some a, Some c => fkind a = fkind c ∧ fresult a = fresult c ∧
        fstatus c = (if decide (g = f) then AwaitTask h k else fstatus a) ∧
        fawaiters c = (if decide (g = h) then fawaiters a ++ [f] else fawaiters a)
    | _, _ => False end).
  { intros g. eexists. split; [done|]. unfold hp2, hp1.
    destruct (decide (g = f)) as [->|Hgf].
    - rewrite lookup_alter. destruct (decide (f = h)) as [->|Hfh].
      + rewrite lookup_alter, Hf. cbn. done.
      + rewrite lookup_alter_ne by done. rewrite Hf. cbn. done.
    - rewrite lookup_alter_ne by done. destruct (decide (g = h)) as [->|Hgh].
      + rewrite lookup_alter, Hh. cbn. done.
      + rewrite lookup_alter_ne by done. by destruct (hp !! g). }
  split.
  - intros g. destruct (L g) as (og & -> & Hg). specialize (H1 g).
    destruct (hp !! g) as [a|] eqn:Ea, og as [c|]; try done.
    + destruct Hg as (G1 & G2 & G3 & G4). destruct H1 as (K1 & K2 & bb & ww & K3). cbn.
      rewrite <- G1, <- G2, G3. destruct (decide (g = f)); split_and!; try done; exists bb, ww; by right.
    + cbn. rewrite decide_False; [done|]. intros ->. congruence.
  - intros g Hg. destruct (H2 g Hg). cbn. rewrite decide_False by lia.
    rewrite decide_False; [done|]. intros ->. rewrite (si_bound _ _ _ _ S h Hg) in Hh. done.
  - intros g. cbn. unfold pending. destruct (L g) as (og & -> & Hg).
    rewrite H3. unfold pending. destruct (decide (g = h)) as [->|Hgh].
    + rewrite Hh in Hg |- *. destruct og as [c|]; [|done]. destruct Hg as (G1 & G2 & G3 & G4).
      rewrite Hfin. assert (is_final c = false) as ->.
      { unfold is_final in *. rewrite G3. destruct (decide (h = f)); done. }
      done.
    + destruct (hp !! g) as [a|] eqn:Ea, og as [c|]; try done. destruct Hg as (G1 & G2 & G3 & G4).
      rewrite G4. unfold is_final. rewrite G3. destruct (decide (g = f)) as [->|]; [|done].
      assert (a = ff) as -> by congruence. by rewrite Hr.
  - split; [|done]. split; [done|]. rewrite E1. unfold is_final in Hfin. by destruct (fstatus fr).
  - apply si_drop in S. destruct S as [S1 S2 S3 S4 S5]. split; try done.
    + intros g Hg. destruct (S1 g Hg) as (a & Ha & Hra). destruct (L g) as (og & -> & Hgg).
      rewrite Ha in Hgg. destruct og as [c|]; [|done]. destruct Hgg as (G1 & G2 & G3 & G4).
      exists c. split; [done|]. rewrite G3. destruct (decide (g = f)) as [->|]; [|done]. by destruct Hna.
    + intros g Hg. destruct (S4 g Hg) as (a & Ha & Hra). destruct (L g) as (og & -> & Hgg).
      rewrite Ha in Hgg. destruct og as [c|]; [|done]. destruct Hgg as (G1 & G2 & G3 & G4).
      exists c. split; [done|]. unfold is_final in *. rewrite G3. destruct (decide (g = f)) as [->|]; [|done].
      by destruct Hnf.
    + intros g Hg. specialize (S5 g Hg). destruct (L g) as (og & -> & Hgg). rewrite S5 in Hgg. by destruct og.
Qed.

(** A lazy coroutine starts. *)
Lemma rc_start_lazy f h fr p xa hp st tr n :
  RC xa hp st (EWait f h :: tr) n -> hp !! h = Some fr -> fstatus fr = Initial p -> fkind fr = KLazy ->
  RC (Co h :: xa) (alter (fr_status Running) h hp) st (EStart h :: EWait f h :: tr) n.
Proof.
  intros HR Hh Hs Hk. rewrite (alter_insert_frame _ _ _ fr) by done.
  destruct HR as [H1 H2 H3 H4 S].
  destruct (rl_at _ _ _ _ (H1 h) Hh) as (E1 & E2 & b & w & E3).
  assert (Hnf : h ∉ finals st).
  { intros Hin. destruct (si_fin _ _ _ _ S h Hin) as (fr' & Hf' & Hfin). assert (fr' = fr) as -> by congruence.
    unfold is_final in Hfin. by rewrite Hs in Hfin. }
  assert (Hna : Co h ∉ xa ++ actors st).
  { intros Hin. destruct (si_act _ _ _ _ S h Hin) as (fr' & Hf' & Hr). congruence. }
  split.
  - intros g. destruct (decide (g = h)) as [->|Hne].
    + rewrite lookup_insert. unfold RL. cbn [phase_of phase1 TaskSpec.result_of]. rewrite decide_True by done.
      split_and!; [done|exact E2|exists b, w; by right].
    + rewrite lookup_insert_ne by done. apply RL_skip; [set_solver|done].
  - intros g Hg. destruct (H2 g Hg). cbn [phase_of phase1 queue]. rewrite decide_False; [done|].
    intros ->. rewrite (si_bound _ _ _ _ S h Hg) in Hh. done.
  - intros g. change (queue g (EStart h :: EWait f h :: tr)) with (queue g (EWait f h :: tr)).
    rewrite H3. unfold pending. destruct (decide (g = h)) as [->|Hne].
    + rewrite lookup_insert, Hh. unfold is_final. cbn. by rewrite Hs.
    + by rewrite lookup_insert_ne.
  - split; [|done]. split; [by rewrite E1, Hs|]. right. exists f, tr. split; [done|]. exists b, w.
    rewrite Hk in E3. apply elem_of_cons in E3 as [?|?]; done.
  - eapply si_add; [|by rewrite lookup_insert|done|done].
    eapply si_upd; [done|done|done|]. by intros Hin.
Qed.

(** The body ends. *)
Lemma rc_finish f o xa hp st tr n fr :
  RC (Co f :: xa) hp st tr n -> hp !! f = Some fr ->
  RC xa (alter (fun fr => fr_result (Some o) (fr_status Final fr)) f hp) (FinalSusp f (fawaiters fr) :: st)
    (EFinish f o :: tr) n.
Proof.
  intros HR Hfr. destruct (rc_co _ _ _ _ _ _ HR) as (ff & Hf & Hr & Hp & Hnf & Hna & Hlt).
  assert (ff = fr) as -> by congruence.
  rewrite (alter_insert_frame _ _ _ fr) by done.
  destruct HR as [H1 H2 H3 H4 S].
  destruct (rl_at _ _ _ _ (H1 f) Hf) as (E1 & E2 & b & w & E3).
  split.
  - intros g. destruct (decide (g = f)) as [->|Hne].
    + rewrite lookup_insert. cbn. rewrite !decide_True by done. split_and!; [done|done|exists b, w; by right].
    + rewrite lookup_insert_ne by done. apply RL_skip; [set_solver|done].
  - intros g Hg. destruct (H2 g Hg). cbn. rewrite decide_False by lia. done.
  - intros g. cbn. rewrite H3. unfold pending. destruct (decide (g = f)) as [->|Hne].
    + rewrite lookup_insert, Hf. cbn. rewrite fin_list_cons. cbn. rewrite decide_True by done.
      rewrite fin_list_notin by done. rewrite app_nil_r. unfold is_final. by rewrite Hr.
    + rewrite lookup_insert_ne by done. rewrite fin_list_cons. cbn. by rewrite decide_False.
  - split; [|done]. done.
  - assert (S' : SI xa (<[f := fr_result (Some o) (fr_status Final fr)]> hp) st n).
    { eapply si_upd; [by eapply si_drop|done|..]; done. }
    destruct S' as [S1 S2 S3 S4 S5]. split; rewrite ?actors_cons, ?finals_cons; try done.
    intros g Hg. cbn in Hg. apply elem_of_cons in Hg as [->|Hg]; [|eauto].
    rewrite lookup_insert. eauto.
Qed.

(** Resumption of an awaiter. *)
Lemma rc_wake h a l fa k fh o hp st tr n :
  RC [] hp (FinalSusp h (a :: l) :: st) tr n -> h ∉ finals st ->
  hp !! a = Some fa -> fstatus fa = AwaitTask h k ->
  hp !! h = Some fh -> is_final fh = true -> fresult fh = Some o -> a ≠ h ->
  RC [Co a] (alter (fr_result (Some (consumed mv o))) h (alter (fr_status Running) a hp))
    (FinalSusp h l :: st) (EWake a h o :: tr) n.
Proof.
  intros HR Hnfin Ha Hsa Hh Hfin Hres Hne.
  assert (Hst : fstatus fh = Final) by (unfold is_final in Hfin; by destruct (fstatus fh)).
  destruct HR as [H1 H2 H3 H4 S].
  destruct (rl_at _ _ _ _ (H1 a) Ha) as (E1 & E2 & b & w & E3).
  destruct (rl_at _ _ _ _ (H1 h) Hh) as (F1 & F2 & b' & w' & F3).
  assert (Hq : queue h tr = a :: l).
  { rewrite H3. unfold pending. rewrite Hh, Hfin, fin_list_cons. cbn. rewrite decide_True by done.
    rewrite fin_list_notin by done. by rewrite app_nil_r. }
  rewrite (alter_insert_frame (fr_status Running) a _ fa) by done.
  rewrite (alter_insert_frame _ h _ fh) by (by rewrite lookup_insert_ne).
  split.
  - intros g. destruct (decide (g = h)) as [->|Hgh].
    + rewrite lookup_insert. cbn. rewrite decide_False by done. rewrite decide_True by done.
      rewrite F2, Hres. split_and!; [done|done|exists b', w'; by right].
    + rewrite lookup_insert_ne by done. destruct (decide (g = a)) as [->|Hga].
      * rewrite lookup_insert. cbn. rewrite decide_True by done. rewrite decide_False by done.
        split_and!; [done|done|exists b, w; by right].
      * rewrite lookup_insert_ne by done. apply RL_skip; [set_solver|done].
  - intros g Hg. destruct (H2 g Hg). cbn. rewrite decide_False.
    + rewrite decide_False; [done|]. intros ->. rewrite (si_bound _ _ _ _ S h Hg) in Hh. done.
    + intros ->. rewrite (si_bound _ _ _ _ S a Hg) in Ha. done.
  - intros g. cbn. destruct (decide (g = h)) as [->|Hgh].
    + rewrite Hq. unfold pending. rewrite lookup_insert. unfold is_final. cbn. rewrite Hst.
      rewrite fin_list_cons. cbn. rewrite decide_True by done. rewrite fin_list_notin by done. by rewrite app_nil_r.
    + rewrite H3. unfold pending. rewrite lookup_insert_ne by done. destruct (decide (g = a)) as [->|Hga].
      * rewrite lookup_insert, Ha. unfold is_final. cbn. by rewrite Hsa.
      * rewrite lookup_insert_ne by done. destruct (hp !! g) as [fg|]; [|done]. destruct (is_final fg); [|done].
        rewrite !fin_list_cons. cbn. destruct (decide (g = h)); done.
  - split; [|done]. split_and!; [by rewrite E1, Hsa|by rewrite F1, Hst|by rewrite Hq|by rewrite F2].
  - assert (Hna : Co a ∉ actors st).
    { intros Hin. destruct (si_act _ _ _ _ S a) as (fr' & Hf' & Hr); [by rewrite actors_cons|]. congruence. }
    assert (Hnh : Co h ∉ actors st).
    { intros Hin. destruct (si_act _ _ _ _ S h) as (fr' & Hf' & Hr); [by rewrite actors_cons|]. congruence. }
    assert (Hnaf : a ∉ finals st).
    { intros Hin. destruct (si_fin _ _ _ _ S a) as (fr' & Hf' & Hr).
      { rewrite finals_cons. cbn. by right. }
      assert (fr' = fa) as -> by congruence. unfold is_final in Hr. by rewrite Hsa in Hr. }
    eapply si_add; [|rewrite lookup_insert_ne by done; by rewrite lookup_insert|done|done].
    eapply si_upd; [|by rewrite lookup_insert_ne|..].
    + eapply si_upd; [|done|..].
      * destruct S as [S1 S2 S3 S4 S5]. split; rewrite ?actors_cons, ?finals_cons in *; try done.
      * intros Hin. done.
      * rewrite finals_cons. cbn. intros Hin. apply elem_of_cons in Hin as [?|?]; done.
    + intros Hin. done.
    + done.
Qed.

Lemma rc_finalpop h hp st tr n : RC [] hp (FinalSusp h [] :: st) tr n -> h ∉ finals st -> RC [] hp st tr n.
Proof.
  intros [H1 H2 H3 H4 [S1 S2 S3 S4 S5]] Hn. split; try done.
  - intros g. rewrite H3. unfold pending. destruct (hp !! g) as [fr|]; [|done]. destruct (is_final fr); [|done].
    rewrite fin_list_cons. cbn. by destruct (decide (g = h)).
  - split; rewrite ?actors_cons, ?finals_cons in *; try done.
    intros g Hg. apply S4. cbn. by right.
Qed.

Lemma rc_destroy h fr xa hp st tr n :
  RC xa hp st tr n -> hp !! h = Some fr -> is_final fr = true -> h ∉ finals st ->
  RC xa (delete h hp) st (EDestroy h :: tr) n.
Proof.
  intros [H1 H2 H3 H4 S] Hh Hfin Hn.
  destruct (rl_at _ _ _ _ (H1 h) Hh) as (F1 & F2 & b' & w' & F3).
  assert (Hst : fstatus fr = Final) by (unfold is_final in Hfin; by destruct (fstatus fr)).
  assert (Hq : queue h tr = []).
  { rewrite H3. unfold pending. rewrite Hh, Hfin. by apply fin_list_notin. }
  split.
  - intros g. destruct (decide (g = h)) as [->|Hgh].
    + rewrite lookup_delete. cbn. rewrite decide_True by done. by right.
    + rewrite lookup_delete_ne by done. apply RL_skip; [set_solver|done].
  - intros g Hg. destruct (H2 g Hg). cbn. rewrite decide_False; [done|].
    intros ->. rewrite (si_bound _ _ _ _ S h Hg) in Hh. done.
  - intros g. cbn. destruct (decide (g = h)) as [->|Hgh].
    + rewrite Hq. unfold pending. by rewrite lookup_delete.
    + rewrite H3. unfold pending. by rewrite lookup_delete_ne.
  - split; [|done]. split; [by rewrite F1, Hst|done].
  - destruct S as [S1 S2 S3 S4 S5]. split; try done.
    + intros f Hf. destruct (S1 f Hf) as (a & Ha & Hr). exists a. rewrite lookup_delete_ne; [done|].
      intros ->. congruence.
    + intros f Hf. destruct (S4 f Hf) as (a & Ha & Hr). exists a. rewrite lookup_delete_ne; [done|].
      intros ->. done.
    + intros f Hf. destruct (decide (f = h)) as [->|]; [by rewrite lookup_delete|].
      rewrite lookup_delete_ne by done. auto.
Qed.

Lemma rc_fire f fr c o hp st tr n :
  RC [] hp st tr n -> hp !! f = Some fr -> fstatus fr = AwaitLeaf c ->
  RC [Co f] (alter (fr_status Running) f hp) st (ELeafWake f o :: tr) n.
Proof.
  intros [H1 H2 H3 H4 S] Hh Hs. rewrite (alter_insert_frame _ _ _ fr) by done.
  destruct (rl_at _ _ _ _ (H1 f) Hh) as (E1 & E2 & b & w & E3).
  assert (Hnf : f ∉ finals st).
  { intros Hin. destruct (si_fin _ _ _ _ S f Hin) as (fr' & Hf' & Hfin). assert (fr' = fr) as -> by congruence.
    unfold is_final in Hfin. by rewrite Hs in Hfin. }
  assert (Hna : Co f ∉ actors st).
  { intros Hin. destruct (si_act _ _ _ _ S f Hin) as (fr' & Hf' & Hr). congruence. }
  split.
  - intros g. destruct (decide (g = f)) as [->|Hne].
    + rewrite lookup_insert. cbn. rewrite decide_True by done.
      split_and!; [done|exact E2|exists b, w; by right].
    + rewrite lookup_insert_ne by done. apply RL_skip; [set_solver|done].
  - intros g Hg. destruct (H2 g Hg). cbn. rewrite decide_False; [done|].
    intros ->. rewrite (si_bound _ _ _ _ S f Hg) in Hh. done.
  - intros g. cbn. rewrite H3. unfold pending. destruct (decide (g = f)) as [->|Hne].
    + rewrite lookup_insert, Hh. unfold is_final. cbn. by rewrite Hs.
    + by rewrite lookup_insert_ne.
  - split; [|done]. cbn. by rewrite E1, Hs.
  - eapply si_add; [|by rewrite lookup_insert|done|done].
    eapply si_upd; [done|done|done|]. by intros Hin.
Qed.

Lemma rc_handler hp st tr n : RC [] hp st tr n -> RC [Plain n] hp st tr (S n).
Proof.
  intros [H1 H2 H3 H4 [S1 S2 S3 S4 S5]]. split; try done.
  - intros f Hf. apply H2. lia.
  - split; try done.
    + intros f Hf. cbn in Hf. apply elem_of_cons in Hf as [?|Hf]; [done|]. by apply S1.
    + cbn. apply NoDup_cons. split; [|done]. intros Hin. specialize (S3 _ Hin). lia.
    + intros m Hm. cbn in Hm. apply elem_of_cons in Hm as [[= ->]|Hm]; [lia|]. specialize (S3 _ Hm). lia.
    + intros f Hf. apply S5. lia.
Qed.

Theorem r_step q s s' : R s -> astep q s s' -> R s'.
Proof.
  unfold R. intros HR Hs. destruct Hs; cbn [heap stack trace nf push emit set_stack set_heap set_alive set_ctxs upd] in *;
    try match goal with H : stack s = _ |- _ => rewrite H in * end.
  - apply rc_pop in HR. apply rc_push. apply rc_quiet; [by destruct H0| |done].
    apply rc_runs in HR. by destruct H0.
  - apply rc_pop in HR. apply rc_push. apply rc_quiet; [done| |done]. by apply rc_runs in HR.
  - apply rc_pop in HR. apply rc_push. apply rc_quiet; [done|done|]. apply rc_quiet; [done| |done].
    by apply rc_runs in HR.
  - apply rc_pop in HR. apply rc_push, rc_push2. apply rc_create. apply rc_quiet; [done| |done].
    by apply rc_runs in HR.
  - apply rc_pop in HR. apply rc_push. apply rc_create_lazy. apply rc_quiet; [done| |done].
    by apply rc_runs in HR.
  - apply rc_pop in HR. apply rc_push, rc_pushl2. apply rc_create. apply rc_quiet; [done| |done].
    by apply rc_runs in HR.
  - apply rc_pop in HR. by eapply rc_forget.
  - apply rc_pop in HR. by apply rc_finish.
  - apply rc_pop in HR. by apply rc_finish.
  - apply rc_pop in HR. eapply rc_suspend; [done|]. by left.
  - apply rc_pop in HR. apply rc_push. by eapply rc_now.
  - apply rc_pop in HR. by eapply rc_wait.
  - apply rc_pop in HR. apply rc_push. eapply (rc_start_lazy f h (fr_awaiters (fawaiters fr ++ [f]) fr)).
    + eapply rc_wait; [done|done|]. unfold is_final. by rewrite H3.
    + rewrite lookup_alter_ne by done. by rewrite lookup_alter, H2.
    + exact H3.
    + done.
  - apply rc_pop in HR. eapply rc_suspend; [done|]. right. eauto.
  - apply rc_push. by eapply rc_wake.
  - by eapply rc_finalpop.
  - by eapply rc_destroy.
  - apply rc_popl in HR. apply rc_pushl. by apply rc_quiet.
  - apply rc_popl in HR. apply rc_push. apply rc_quiet; [done| |done]. by apply rc_runs in HR.
  - apply rc_push. by apply rc_handler.
  - apply rc_push. by eapply rc_fire.
  - by apply rc_quiet.
  - apply rc_popl in HR. apply rc_push. apply rc_quiet; [done| |done]. by apply rc_runs in HR.
Qed.

Lemma r_init qs : R (init qs).
Proof.
  split.
  - intros f. cbn. rewrite lookup_empty. left. done.
  - done.
  - intros h. cbn. unfold pending. by rewrite lookup_empty.
  - done.
  - split; cbn; try done; intros; try by apply elem_of_nil in H. constructor.
Qed.

Theorem r_reach q s : reach mv dflt q s -> R (view s).
Proof. apply view_invariant; [apply r_init|apply r_step]. Qed.

(** Every reachable trace is legal. *)
Theorem trace_legal q s : reach mv dflt q s -> legal_trace (trace s).
Proof. intros H. apply r_reach in H. apply (r_legal _ _ _ _ _ H). Qed.

End trace.
