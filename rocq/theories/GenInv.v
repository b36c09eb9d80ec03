(** * Invariants of the Generator machine. *)
From stdpp Require Import gmap list.
From Verif Require Import GenModel GenSpec.

Section inv.
Context {V E : Type}.
Notation state := (gstate V E). Notation item := (gitem V E). Notation frame := (gframe V E).
Notation event := (gevent V E). Notation prog := (gprog V E unit).

Definition item_actor (i : item) : option gactor :=
  match i with GRun w _ | GAfterBegin w _ _ | GAfterInc w _ _ => Some w | GDrops _ => None end.
Definition gactors (st : list item) : list gactor := omap item_actor st.

Definition sphase (x : gstatus V E) : gphase :=
  match x with GInit _ => QInit | GRunning => QRun | GSusp _ _ _ => QSusp | GFinal => QFin end.

Definition val_ok (f : nat) (fr : frame) (tr : list event) : Prop :=
  match gstat fr with
  | GInit _ => gnonnull fr = false ∧ gexc fr = None
  | GSusp v _ _ => gnonnull fr = true ∧ gexc fr = None ∧ gcur f tr = Some v
  | GRunning => gexc fr = None
  | GFinal => gnonnull fr = false ∧ GEFinish f (gexc fr) ∈ tr
  end.

Record HI (hp : gmap nat frame) (st : list item) (tr : list event) (nf : nat) : Prop := {
  h_nf : ∀ f, is_Some (hp !! f) -> f < nf;
  h_fresh : ∀ f, nf <= f -> gphase_of f tr = QNone;
  h_some : ∀ f fr, hp !! f = Some fr -> gphase_of f tr = sphase (gstat fr);
  h_none : ∀ f, hp !! f = None -> gphase_of f tr = QNone ∨ gphase_of f tr = QGone;
  h_run : ∀ f fr, hp !! f = Some fr -> gstat fr = GRunning -> Gen f ∈ gactors st;
  h_act : ∀ f, Gen f ∈ gactors st -> ∃ fr, hp !! f = Some fr ∧ gstat fr = GRunning;
  h_nd : NoDup (gactors st);
  h_val : ∀ f fr, hp !! f = Some fr -> val_ok f fr tr;
  h_legal : glegal_trace tr;
}.

Lemma actors_cons i st : gactors (i :: st) = match item_actor i with Some w => w :: gactors st | None => gactors st end.
Proof. done. Qed.

Lemma hi_top hp it it' st tr nf : item_actor it' = item_actor it -> HI hp (it :: st) tr nf -> HI hp (it' :: st) tr nf.
Proof. intros Hi []. split; try done; intros; rewrite !actors_cons in *; rewrite Hi in *; eauto. Qed.

Lemma hi_drops hp l st tr nf : HI hp st tr nf <-> HI hp (GDrops l :: st) tr nf.
Proof. split; intros []; split; done. Qed.

Lemma hi_runs hp st tr nf w : HI hp st tr nf -> w ∈ gactors st -> gruns w tr.
Proof.
  intros HH Hw. destruct w as [f|]; [|done]. cbn. destruct (h_act _ _ _ _ HH f Hw) as (fr & Hf & Hr).
  rewrite (h_some _ _ _ _ HH f fr Hf). by rewrite Hr.
Qed.

(** An event that concerns no coroutine's state. *)
Definition quiet (e : event) : Prop :=
  match e with GEObs _ _ => True | GEAct _ (AWrite _ _) => False | GEAct _ _ => True | _ => False end.

Lemma quiet_phase f e tr : quiet e -> gphase_of f (e :: tr) = gphase_of f tr.
Proof. by destruct e. Qed.
Lemma quiet_cur f e tr : quiet e -> gcur f (e :: tr) = gcur f tr.
Proof. destruct e as [| | | | | |w []]; done. Qed.

Lemma val_quiet f fr e tr : quiet e -> val_ok f fr tr -> val_ok f fr (e :: tr).
Proof.
  intros Hq. unfold val_ok. destruct (gstat fr); try done.
  - by rewrite quiet_cur.
  - intros [? ?]. split; [done|]. by right.
Qed.

Lemma hi_quiet hp st tr nf e : quiet e -> glegal e tr -> HI hp st tr nf -> HI hp st (e :: tr) nf.
Proof.
  intros Hq Hl []. split; try done; intros; rewrite ?quiet_phase by done; eauto.
  by apply val_quiet; [|eauto].
Qed.

Lemma hi_pop hp n p st tr nf : HI hp (GRun (Fun n) p :: st) tr nf -> HI hp st tr nf.
Proof.
  intros []. split; try done.
  - intros f fr Hf Hr. specialize (h_run0 f fr Hf Hr). rewrite actors_cons in h_run0. by apply elem_of_cons in h_run0 as [?|?].
  - intros f Hf. apply h_act0. rewrite actors_cons. by right.
  - rewrite actors_cons in h_nd0. by inversion h_nd0.
Qed.

Lemma hi_call hp p tr nf : HI hp [] tr nf -> HI hp [GRun (Fun nf) p] tr (S nf).
Proof.
  intros []. split; try done.
  - intros f Hf. specialize (h_nf0 f Hf). lia.
  - intros f Hf. apply h_fresh0. lia.
  - intros f fr Hf Hr. specialize (h_run0 f fr Hf Hr). by apply elem_of_nil in h_run0.
  - intros f Hf. rewrite actors_cons in Hf. apply elem_of_cons in Hf as [?|Hf]; [done|]. by apply elem_of_nil in Hf.
  - apply NoDup_singleton.
Qed.

Lemma hi_new hp st tr nf b : HI hp st tr nf -> HI (<[nf := GFrame (GInit b) false None]> hp) st (GENew nf b :: tr) (S nf).
Proof.
  intros HH. destruct (HH). assert (Hn : hp !! nf = None).
  { destruct (hp !! nf) eqn:Hx; [|done]. assert (nf < nf) by eauto. lia. }
  split; try done.
  - intros f [fr [[<- _]|[? Hf]]%lookup_insert_Some]; [lia|]. assert (f < nf) by eauto. lia.
  - intros f Hf. cbn. rewrite decide_False by lia. apply h_fresh0. lia.
  - intros f fr [[<- <-]|[? Hf]]%lookup_insert_Some; cbn; [by rewrite decide_True|]. rewrite decide_False by done. eauto.
  - intros f [Hf ?]%lookup_insert_None. cbn. rewrite decide_False by done. eauto.
  - intros f fr [[<- <-]|[? Hf]]%lookup_insert_Some; cbn; [done|eauto].
  - intros f Hf. destruct (h_act0 f Hf) as (fr & ? & ?). exists fr. split; [|done]. rewrite lookup_insert_ne; [done|]. congruence.
  - intros f fr [[<- <-]|[? Hf]]%lookup_insert_Some; [done|]. specialize (h_val0 f fr Hf).
    unfold val_ok in *. destruct (gstat fr); try done. split; [apply h_val0|]. right. apply h_val0.
  - split; [|done]. cbn. by apply h_fresh0.
Qed.

Lemma hi_resume hp st tr nf f fr v p : HI hp st tr nf -> hp !! f = Some fr ->
  match v with None => gstat fr = GInit p | Some v => ∃ ls c, gstat fr = GSusp v ls c ∧ p = c v end ->
  HI (<[f := GFrame GRunning (gnonnull fr) (gexc fr)]> hp) (GRun (Gen f) p :: st) (GEResume f v :: tr) nf.
Proof.
  intros HH Hf Hv. destruct (HH).
  assert (Hnr : gstat fr ≠ GRunning) by (destruct v as [v|]; [destruct Hv as (? & ? & ? & ?)|]; congruence).
  assert (Hna : Gen f ∉ gactors st) by (intros Hin; destruct (h_act0 f Hin) as (fr' & ? & ?); congruence).
  assert (Hex : gexc fr = None).
  { specialize (h_val0 f fr Hf). unfold val_ok in h_val0. destruct v as [v|]; [destruct Hv as (? & ? & Hs & ?)|rename Hv into Hs];
      rewrite Hs in h_val0; apply h_val0. }
  split.
  - intros g [fr' [[<- _]|[? Hg]]%lookup_insert_Some]; eauto.
  - intros g Hg. cbn. assert (f < nf) by eauto. rewrite decide_False by lia. auto.
  - intros g fr' [[<- <-]|[? Hg]]%lookup_insert_Some; cbn; [by rewrite decide_True|]. rewrite decide_False by done. eauto.
  - intros g [Hg ?]%lookup_insert_None. cbn. rewrite decide_False by done. eauto.
  - intros g fr' [[<- <-]|[? Hg]]%lookup_insert_Some Hr; rewrite actors_cons; cbn; [left|]. right. eauto.
  - intros g Hg. rewrite actors_cons in Hg. cbn in Hg. apply elem_of_cons in Hg as [[= ->]|Hg].
    + eexists. by rewrite lookup_insert.
    + destruct (h_act0 g Hg) as (fr' & ? & ?). exists fr'. split; [|done]. rewrite lookup_insert_ne; [done|]. by intros ->.
  - rewrite actors_cons. cbn. by constructor.
  - intros g fr' [[<- <-]|[? Hg]]%lookup_insert_Some; [done|]. specialize (h_val0 g fr' Hg).
    unfold val_ok in *. destruct (gstat fr'); try done. split; [apply h_val0|]. right. apply h_val0.
  - split; [|done]. destruct v as [v|]; cbn.
    + destruct Hv as (ls & c & Hs & ->). rewrite (h_some0 f fr Hf), Hs. split; [done|].
      specialize (h_val0 f fr Hf). unfold val_ok in h_val0. rewrite Hs in h_val0. apply h_val0.
    + by rewrite (h_some0 f fr Hf), Hv.
Qed.

(** The running body [f] suspends or ends. *)
Lemma hi_stop hp st tr nf f fr p fr' e : HI hp (GRun (Gen f) p :: st) tr nf -> hp !! f = Some fr ->
  (∃ v ls c, e = GEYield f v ∧ fr' = GFrame (GSusp v ls c) true (gexc fr)) ∨
  (∃ r, e = GEFinish f r ∧ fr' = GFrame GFinal false r) ->
  HI (<[f := fr']> hp) st (e :: tr) nf.
Proof.
  intros HH Hf He. destruct (HH).
  destruct (h_act0 f) as (fr0 & Hf0 & Hrun); [rewrite actors_cons; left|]. assert (fr0 = fr) as -> by congruence.
  assert (Hph : ∀ g, g ≠ f -> gphase_of g (e :: tr) = gphase_of g tr).
  { intros g Hg. destruct He as [(v & ls & c & -> & _)|(r & -> & _)]; cbn; by rewrite decide_False. }
  assert (Hphf : gphase_of f (e :: tr) = sphase (gstat fr')).
  { destruct He as [(v & ls & c & -> & ->)|(r & -> & ->)]; cbn; by rewrite decide_True. }
  rewrite actors_cons in h_nd0. cbn in h_nd0. inversion h_nd0 as [|? ? Hna Hnd]; subst.
  split.
  - intros g [fr1 [[<- _]|[? Hg]]%lookup_insert_Some]; eauto.
  - intros g Hg. assert (f < nf) by eauto. rewrite Hph by lia. auto.
  - intros g fr1 [[<- <-]|[? Hg]]%lookup_insert_Some; [done|]. rewrite Hph by done. eauto.
  - intros g [Hg ?]%lookup_insert_None. rewrite Hph by done. eauto.
  - intros g fr1 [[<- <-]|[? Hg]]%lookup_insert_Some Hr.
    + by destruct He as [(v & ls & c & _ & ->)|(r & _ & ->)].
    + specialize (h_run0 g fr1 Hg Hr). rewrite actors_cons in h_run0. apply elem_of_cons in h_run0 as [[= ->]|?]; done.
  - intros g Hg. destruct (h_act0 g) as (fr1 & ? & ?); [rewrite actors_cons; by right|]. exists fr1. split; [|done].
    rewrite lookup_insert_ne; [done|]. by intros ->.
  - done.
  - intros g fr1 [[<- <-]|[? Hg]]%lookup_insert_Some.
    + specialize (h_val0 f fr Hf). unfold val_ok in h_val0. rewrite Hrun in h_val0.
      destruct He as [(v & ls & c & -> & ->)|(r & -> & ->)]; unfold val_ok; cbn.
      * rewrite decide_True by done. done.
      * split; [done|]. left.
    + specialize (h_val0 g fr1 Hg). unfold val_ok in *. destruct (gstat fr1); try done.
      * destruct He as [(v2 & ls2 & c2 & -> & _)|(r & -> & _)]; cbn; [rewrite decide_False by done|]; done.
      * split; [apply h_val0|]. right. apply h_val0.
  - split; [|done]. pose proof (h_some0 f fr Hf) as Hp. rewrite Hrun in Hp.
    by destruct He as [(v & ls & c & -> & _)|(r & -> & _)].
Qed.

Lemma hi_destroy hp st tr nf f fr : HI hp st tr nf -> hp !! f = Some fr -> gstat fr ≠ GRunning ->
  HI (delete f hp) st (GEDestroy f :: tr) nf.
Proof.
  intros HH Hf Hnr. destruct (HH). split; try done.
  - intros g [fr1 [? Hg]%lookup_delete_Some]. eauto.
  - intros g Hg. assert (f < nf) by eauto. cbn. rewrite decide_False by lia. auto.
  - intros g fr1 [? Hg]%lookup_delete_Some. cbn. rewrite decide_False by done. eauto.
  - intros g Hg. cbn. destruct (decide (g = f)) as [->|]; [by right|]. rewrite lookup_delete_ne in Hg by done. eauto.
  - intros g fr1 [? Hg]%lookup_delete_Some. eauto.
  - intros g Hg. destruct (h_act0 g Hg) as (fr1 & ? & ?). exists fr1. split; [|done]. rewrite lookup_delete_ne; [done|]. congruence.
  - intros g fr1 [? Hg]%lookup_delete_Some. specialize (h_val0 g fr1 Hg).
    unfold val_ok in *. destruct (gstat fr1); try done. split; [apply h_val0|]. right. apply h_val0.
  - split; [|done]. cbn. rewrite (h_some0 f fr Hf). destruct (gstat fr); cbn; try done; auto.
Qed.

Lemma hi_write hp st tr nf w f fr v v' ls c : HI hp st tr nf -> hp !! f = Some fr -> gstat fr = GSusp v ls c ->
  w ∈ gactors st ->
  HI (<[f := GFrame (GSusp v' ls c) true (gexc fr)]> hp) st (GEAct w (AWrite f v') :: tr) nf.
Proof.
  intros HH Hf Hs Hw. destruct (HH). split; try done.
  - intros g [fr1 [[<- _]|[? Hg]]%lookup_insert_Some]; eauto.
  - intros g fr1 [[<- <-]|[? Hg]]%lookup_insert_Some; cbn; [|eauto]. by rewrite (h_some0 f fr Hf), Hs.
  - intros g [Hg ?]%lookup_insert_None. cbn. eauto.
  - intros g fr1 [[<- <-]|[? Hg]]%lookup_insert_Some; [done|]. eauto.
  - intros g Hg. destruct (h_act0 g Hg) as (fr1 & ? & ?). exists fr1. split; [|done]. rewrite lookup_insert_ne; [done|]. congruence.
  - intros g fr1 [[<- <-]|[? Hg]]%lookup_insert_Some.
    + specialize (h_val0 f fr Hf). unfold val_ok in *. rewrite Hs in h_val0. cbn. rewrite decide_True by done. naive_solver.
    + specialize (h_val0 g fr1 Hg). unfold val_ok in *. destruct (gstat fr1); try done.
      * cbn. by rewrite decide_False.
      * split; [apply h_val0|]. right. apply h_val0.
  - split; [|done]. split; [by eapply hi_runs|]. by rewrite (h_some0 f fr Hf), Hs.
Qed.

(** ** Ownership *)
Record OI (hp : gmap nat frame) (gs : gmap nat (option nat)) (tr : list event) (ng : nat) : Prop := {
  o_ng : ∀ g, is_Some (gs !! g) -> g < ng;
  o_gh : ∀ g f, gs !! g = Some (Some f) -> is_Some (hp !! f);
  o_uniq : ∀ g g' f, gs !! g = Some (Some f) -> gs !! g' = Some (Some f) -> g = g';
  o_own : ∀ f, is_Some (hp !! f) -> (∃ g, gs !! g = Some (Some f)) ∨ ∃ w, GEAct w (AAssign (Some f)) ∈ tr;
}.

Lemma oi_tr hp gs tr ng e : OI hp gs tr ng -> OI hp gs (e :: tr) ng.
Proof. intros []. split; try done. intros f Hf. destruct (o_own0 f Hf) as [?|[w ?]]; [by left|right]. exists w. by right. Qed.

Lemma oi_heap hp hp' gs tr ng : (∀ f, is_Some (hp !! f) <-> is_Some (hp' !! f)) -> OI hp gs tr ng -> OI hp' gs tr ng.
Proof. intros Hd []. split; try done; intros. - rewrite <- Hd. eauto. - apply o_own0. by rewrite Hd. Qed.

Lemma some_insert (hp : gmap nat frame) f fr fr' : hp !! f = Some fr -> ∀ g, is_Some (hp !! g) <-> is_Some (<[f := fr']> hp !! g).
Proof. intros Hf g. destruct (decide (f = g)) as [->|]; [rewrite lookup_insert, Hf|rewrite lookup_insert_ne by done]; split; eauto. Qed.

Lemma oi_new hp gs tr ng f fr : hp !! f = None -> OI hp gs tr ng -> OI (<[f := fr]> hp) (<[ng := Some f]> gs) tr (S ng).
Proof.
  intros Hf [].
  assert (Hnew : gs !! ng = None).
  { destruct (gs !! ng) eqn:Hx; [|done]. assert (ng < ng) by eauto. lia. }
  assert (Hno : ∀ g, gs !! g ≠ Some (Some f)) by (intros g Hg; destruct (o_gh0 g f Hg); congruence).
  split.
  - intros g [h [[<- _]|[? Hg]]%lookup_insert_Some]; [lia|]. assert (g < ng) by eauto. lia.
  - intros g f' [[<- [= <-]]|[? Hg]]%lookup_insert_Some; [by rewrite lookup_insert|].
    destruct (decide (f = f')) as [->|]; [rewrite lookup_insert|rewrite lookup_insert_ne by done]; eauto.
  - intros g g' f' [[<- [= <-]]|[? Hg]]%lookup_insert_Some [[<- Hq]|[? Hg']]%lookup_insert_Some; [done|by destruct (Hno g')| |eauto].
    injection Hq as <-. by destruct (Hno g).
  - intros f' Hf'. destruct (decide (f = f')) as [->|Hne]; [left; exists ng; by rewrite lookup_insert|].
    rewrite lookup_insert_ne in Hf' by done. destruct (o_own0 f' Hf') as [[g Hg]|?]; [left|by right].
    exists g. rewrite lookup_insert_ne; [done|]. intros <-. congruence.
Qed.

Lemma oi_null hp gs tr ng : OI hp gs tr ng -> OI hp (<[ng := None]> gs) tr (S ng).
Proof.
  intros []. assert (Hnew : gs !! ng = None).
  { destruct (gs !! ng) eqn:Hx; [|done]. assert (ng < ng) by eauto. lia. }
  split.
  - intros g [h [[<- _]|[? Hg]]%lookup_insert_Some]; [lia|]. assert (g < ng) by eauto. lia.
  - intros g f' [[<- ?]|[? Hg]]%lookup_insert_Some; [done|eauto].
  - intros g g' f' [[<- ?]|[? Hg]]%lookup_insert_Some [[<- ?]|[? Hg']]%lookup_insert_Some; try done. eauto.
  - intros f' Hf'. destruct (o_own0 f' Hf') as [[g Hg]|?]; [left|by right].
    exists g. rewrite lookup_insert_ne; [done|]. intros <-. congruence.
Qed.

Lemma oi_move hp gs tr ng g h : gs !! g = Some h -> OI hp gs tr ng -> OI hp (<[ng := h]> (<[g := None]> gs)) tr (S ng).
Proof.
  intros Hg []. assert (Hnew : gs !! ng = None).
  { destruct (gs !! ng) eqn:Hx; [|done]. assert (ng < ng) by eauto. lia. }
  assert (g ≠ ng) by congruence.
  split.
  - intros k [x [[<- _]|[? [[<- _]|[? Hk]]%lookup_insert_Some]]%lookup_insert_Some]; [lia| |]; apply Nat.lt_lt_succ_r; eauto.
  - intros k f [[<- ->]|[? [[<- ?]|[? Hk]]%lookup_insert_Some]]%lookup_insert_Some; [|done|]; eauto.
  - intros k k' f [[<- ->]|[? [[<- ?]|[? Hk]]%lookup_insert_Some]]%lookup_insert_Some; try done;
      intros [[<- Hq]|[? [[<- ?]|[? Hk']]%lookup_insert_Some]]%lookup_insert_Some; try done.
    + by assert (g = k') by eauto.
    + subst h. by assert (g = k) by eauto.
    + eauto.
  - intros f Hf. destruct (o_own0 f Hf) as [[k Hk]|?]; [left|by right].
    destruct (decide (k = g)) as [->|]; [exists ng; rewrite lookup_insert; congruence|].
    exists k. rewrite !lookup_insert_ne; [done|done|]. intros <-. congruence.
Qed.

Lemma oi_assign hp gs tr ng g g2 old h w : gs !! g = Some old -> gs !! g2 = Some h -> OI hp gs tr ng ->
  OI hp (<[g2 := None]> (<[g := h]> gs)) (GEAct w (AAssign old) :: tr) ng.
Proof.
  intros Hg Hg2 []. split.
  - intros k [x [[<- _]|[? [[<- _]|[? Hk]]%lookup_insert_Some]]%lookup_insert_Some]; eauto.
  - intros k f [[<- ?]|[? [[<- ->]|[? Hk]]%lookup_insert_Some]]%lookup_insert_Some; [done| |]; eauto.
  - intros k k' f [[<- ?]|[? [[<- ->]|[? Hk]]%lookup_insert_Some]]%lookup_insert_Some; try done;
      intros [[<- ?]|[? [[<- Hq]|[? Hk']]%lookup_insert_Some]]%lookup_insert_Some; try done.
    + by assert (g2 = k') by eauto.
    + subst h. by assert (g2 = k) by eauto.
    + eauto.
  - intros f Hf. destruct (o_own0 f Hf) as [[k Hk]|[w' ?]]; [|right; exists w'; by right].
    destruct (decide (old = Some f)) as [->|Hold]; [right; exists w; left|]. left.
    destruct (decide (k = g2)) as [->|].
    + exists g. rewrite lookup_insert_ne by congruence. rewrite lookup_insert. congruence.
    + exists k. rewrite !lookup_insert_ne; [done|congruence|done].
Qed.

(** ~Generator of an object without coroutine. *)
Lemma oi_drop hp gs tr ng g : gs !! g = Some None -> OI hp gs tr ng -> OI hp (delete g gs) tr ng.
Proof.
  intros Hg []. split.
  - intros k [x [? Hk]%lookup_delete_Some]. eauto.
  - intros k f [? Hk]%lookup_delete_Some. eauto.
  - intros k k' f [? Hk]%lookup_delete_Some [? Hk']%lookup_delete_Some. eauto.
  - intros f Hf. destruct (o_own0 f Hf) as [[k Hk]|?]; [left|by right]. exists k. rewrite lookup_delete_ne; [done|]. congruence.
Qed.
Lemma oi_destroy hp gs tr ng g f : gs !! g = Some (Some f) -> OI hp gs tr ng -> OI (delete f hp) (delete g gs) tr ng.
Proof.
  intros Hg []. split.
  - intros k [x [? Hk]%lookup_delete_Some]. eauto.
  - intros k f' [? Hk]%lookup_delete_Some. rewrite lookup_delete_ne; [eauto|]. intros <-. apply H. eauto.
  - intros k k' f' [? Hk]%lookup_delete_Some [? Hk']%lookup_delete_Some. eauto.
  - intros f' [fr [? Hf]%lookup_delete_Some]. destruct (o_own0 f') as [[k Hk]|?]; [eauto| |by right]. left.
    exists k. rewrite lookup_delete_ne; [done|]. congruence.
Qed.

(** ** Preservation *)
Definition Inv (s : state) : Prop :=
  HI (gheap s) (gstack s) (gtrace s) (gnf s) ∧ OI (gheap s) (gens s) (gtrace s) (gng s).

Lemma inv_quiet w p p' e st (s : state) : gstack s = GRun w p :: st -> quiet e -> glegal e (gtrace s) -> Inv s ->
  Inv (gpush (GRun w p') (gemit e (gset_stack st s))).
Proof.
  intros Hst Hq Hl [HH HO]. rewrite Hst in HH. split; cbn.
  - apply hi_quiet; [done..|]. by eapply hi_top; [|exact HH].
  - by apply oi_tr.
Qed.

Lemma inv_resume f (s s' : state) : Inv s -> gresume f s = GNext s' -> Inv s'.
Proof.
  intros [HH HO]. unfold gresume. destruct (gheap s !! f) as [fr|] eqn:Hf; [|done].
  destruct (gstat fr) as [b| |v ls c|] eqn:Hs; try done; intros [= <-].
  - split; cbn; [by eapply (hi_resume _ _ _ _ f fr None)|]. apply oi_tr. eapply oi_heap; [|done]. by eapply some_insert.
  - split; cbn; [eapply (hi_resume _ _ _ _ f fr (Some v)); eauto|]. apply oi_tr. eapply oi_heap; [|done]. by eapply some_insert.
Qed.

Lemma inv_drop g (s s' : state) : Inv s -> gdrop g s = GNext s' -> Inv s'.
Proof.
  intros [HH HO]. unfold gdrop. destruct (gens s !! g) as [[f|]|] eqn:Hg; [| |done].
  - unfold gdestroy. cbn. destruct (gheap s !! f) as [fr|] eqn:Hf; [|done].
    destruct (gstat fr) as [b| |v ls c|] eqn:Hs; try done; intros [= <-]; (split; cbn;
      [apply (hi_drops (delete f (gheap s))); eapply hi_destroy; [done..|congruence]|apply oi_tr; by eapply oi_destroy]).
  - intros [= <-]. split; [done|]. cbn. by apply oi_drop.
Qed.

Lemma inv_user w p st (s s' : state) : gstack s = GRun w p :: st -> Inv s -> gstep_user w p (gset_stack st s) = GNext s' -> Inv s'.
Proof.
  intros Hst HI0. destruct (HI0) as [HH HO]. rewrite Hst in HH.
  assert (Hw : gruns w (gtrace s)) by (eapply hi_runs; [exact HH|left]).
  assert (Hsw : ∀ p', HI (gheap s) (GRun w p' :: st) (gtrace s) (gnf s)) by (intros p'; by eapply hi_top; [|exact HH]).
  destruct p as [u|e|o p|v ls c|b c|c|g c|g g2 p|g p|g c|c|i c|i c|i c|i v p|i j c]; cbn.
  - destruct w as [f|n].
    + destruct (gheap s !! f) as [fr|] eqn:Hf; [|done]. intros [= <-].
      assert (Hex : gexc fr = None).
      { destruct (h_act _ _ _ _ HH f) as (fr0 & ? & Hr); [left|]. assert (fr0 = fr) as -> by congruence.
        pose proof (h_val _ _ _ _ HH f fr Hf) as Hv. unfold val_ok in Hv. by rewrite Hr in Hv. }
      split; cbn; [|apply oi_tr; eapply oi_heap; [by eapply some_insert|done]].
      eapply hi_stop; [exact HH|exact Hf|]. right. exists None. by rewrite Hex.
    + intros [= <-]. split; [|done]. by eapply hi_pop.
  - destruct w as [f|n]; [|done]. destruct (gheap s !! f) as [fr|] eqn:Hf; [|done]. intros [= <-].
    split; cbn; [|apply oi_tr; eapply oi_heap; [by eapply some_insert|done]].
    eapply hi_stop; [exact HH|exact Hf|]. right. by exists (Some e).
  - intros [= <-]. by eapply inv_quiet.
  - destruct w as [f|n]; [|done]. destruct (gheap s !! f) as [fr|] eqn:Hf; [|done]. intros [= <-].
    split; cbn; [|apply oi_tr; eapply oi_heap; [by eapply some_insert|done]].
    eapply hi_stop; [exact HH|exact Hf|]. left. by exists v, ls, c.
  - intros [= <-]. split; cbn.
    + apply hi_new. by apply hi_quiet.
    + do 2 apply oi_tr. apply oi_new; [|done]. destruct (gheap s !! gnf s) eqn:Hx; [|done].
      assert (gnf s < gnf s) by (eapply h_nf; [exact HH|eauto]). lia.
  - intros [= <-]. split; cbn; [by apply hi_quiet|]. apply oi_tr. by apply oi_null.
  - destruct (gens s !! g) as [h|] eqn:Hg; [|done]. intros [= <-]. split; cbn; [by apply hi_quiet|]. apply oi_tr. by apply oi_move.
  - destruct (gens s !! g) as [old|] eqn:Hg; [|done]. destruct (gens s !! g2) as [h|] eqn:Hg2; [|done]. intros [= <-].
    split; cbn; [by apply hi_quiet|]. by apply oi_assign.
  - apply inv_drop. split; cbn; [by apply hi_quiet|by apply oi_tr].
  - destruct (gens s !! g) as [[f|]|] eqn:Hg; try done. apply inv_resume. split; [|done]. cbn. by eapply hi_top; [|exact HH].
  - intros [= <-]. split; cbn; [by apply hi_quiet|by apply oi_tr].
  - destruct (iters s !! i) as [h|] eqn:Hi; [|done]. intros [= <-]. split; cbn; [by apply hi_quiet|by apply oi_tr].
  - destruct (iters s !! i) as [[f|]|] eqn:Hi; [| |done].
    + apply inv_resume. split; [|done]. cbn. by eapply hi_top; [|exact HH].
    + intros [= <-]. by eapply inv_quiet.
  - destruct (iters s !! i) as [[f|]|] eqn:Hi; [|done|done]. unfold gvalue. cbn.
    destruct (gheap s !! f) as [fr|] eqn:Hf; [|done]. destruct (gnonnull fr) eqn:Hnn; [|done].
    destruct (gstat fr) as [| |v ls cc|] eqn:Hs; try done. intros [= <-]. eapply inv_quiet; [done|done| |done].
    cbn. split; [done|]. rewrite (h_some _ _ _ _ HH f fr Hf), Hs. split; [done|].
    pose proof (h_val _ _ _ _ HH f fr Hf) as Hv. unfold val_ok in Hv. rewrite Hs in Hv. apply Hv.
  - destruct (iters s !! i) as [[f|]|] eqn:Hi; [|done|done].
    destruct (gheap s !! f) as [fr|] eqn:Hf; [|done]. destruct (gnonnull fr) eqn:Hnn; [|done].
    destruct (gstat fr) as [| |v0 ls cc|] eqn:Hs; try done. intros [= <-]. split; cbn.
    + eapply hi_write; [done|done|done|]. left.
    + apply oi_tr. eapply oi_heap; [by eapply some_insert|done].
  - destruct (iters s !! i) as [h|] eqn:Hi; [|done]. destruct (iters s !! j) as [h'|] eqn:Hj; [|done].
    intros [= <-]. by eapply inv_quiet.
Qed.

Lemma inv_step (s s' : state) : Inv s -> gstep s = GNext s' -> Inv s'.
Proof.
  intros HI0. destruct (HI0) as [HH HO]. unfold gstep.
  destruct (gstack s) as [|[w p|w g c|w i c|[|g l]] st] eqn:Hst; [done|..].
  - by apply inv_user.
  - assert (Hw : gruns w (gtrace s)) by (eapply hi_runs; [exact HH|left]).
    assert (Hsw : ∀ p', HI (gheap s) (GRun w p' :: st) (gtrace s) (gnf s)) by (intros p'; by eapply hi_top; [|exact HH]).
    destruct (gens s !! g) as [[f|]|] eqn:Hg; try done. destruct (gheap s !! f) as [fr|] eqn:Hf; [|done].
    destruct (gnonnull fr); [|destruct (gexc fr)]; intros [= <-]; (split; cbn; [by apply hi_quiet|by apply oi_tr]).
  - assert (Hw : gruns w (gtrace s)) by (eapply hi_runs; [exact HH|left]).
    assert (Hsw : ∀ p', HI (gheap s) (GRun w p' :: st) (gtrace s) (gnf s)) by (intros p'; by eapply hi_top; [|exact HH]).
    destruct (iters s !! i) as [[f|]|] eqn:Hg; try done. destruct (gheap s !! f) as [fr|] eqn:Hf; [|done].
    destruct (gnonnull fr); intros [= <-]; (split; cbn; [by apply hi_quiet|by apply oi_tr]).
  - intros [= <-]. split; [|done]. cbn. by apply hi_drops in HH.
  - apply inv_drop. split; [|done]. cbn. apply (proj2 (hi_drops _ _ _ _ _)) in HH. by apply (proj1 (hi_drops _ l _ _ _)).
Qed.

Lemma inv_init : Inv ginit.
Proof.
  split; split; cbn; try done.
  - intros f [? Hf]. by rewrite lookup_empty in Hf.
  - auto.
  - intros f Hf. by apply elem_of_nil in Hf.
  - constructor.
  - intros f [? Hf]. by rewrite lookup_empty in Hf.
  - intros f [? Hf]. by rewrite lookup_empty in Hf.
Qed.

Lemma inv_reach (s : state) : greach s -> Inv s.
Proof.
  unfold greach. remember ginit as s0 eqn:E0. induction 1 as [s|s s1 s2 _ IH Hs|s s1 s2 p _ IH Hc]; subst.
  - apply inv_init.
  - by eapply inv_step; [apply IH|].
  - specialize (IH eq_refl) as [HH HO]. unfold gcall in Hc. destruct (gstack s1) eqn:Hst; [|done]. injection Hc as <-.
    split; [|done]. cbn. by apply hi_call.
Qed.
End inv.
