(** * Proof rules for wrapper functions: sequential composition, and waiting through a helper object. *)
From stdpp Require Import list.
From Verif Require Import QtModel QtSpec QtInv QtAwait QtReach QtWrap QtTrace QtBehave.

Section call.
Context {D S P O A : Type}.
Notation wstate := (@wstate D S P O A).
Notation wprog := (@wprog D S P O).
Notation tev := (@tev D S P O A).
Notation src := (@src S P).
#[local] Arguments slots : simpl never.
#[local] Arguments emissions : simpl never.
#[local] Arguments relays : simpl never.

Definition good (s : wstate) : Prop := clean s ∧ wubs s = None ∧ noleak s.
Lemma set_co_same (s : wstate) c : wco s = c -> s = set_co c s.
Proof. intros <-. by destruct s. Qed.
Lemma inside_nil : inside ([] : list tev). Proof. by intros ? ?%elem_of_nil. Qed.
Lemma inside_app (l l' : list tev) : inside l -> inside l' -> inside (l ++ l').
Proof. intros H H' e [?|?]%elem_of_app; [by apply H|by apply H']. Qed.
Lemma inside_cons e (l : list tev) : match e with TObs _ | TRet _ => False | _ => True end -> inside l -> inside (e :: l).
Proof. intros H H' x [->|?]%elem_of_cons; [done|by apply H']. Qed.
Lemma quiet_inside (l : list tev) : quiet l -> inside l.
Proof. intros H e He. specialize (H e He). by destruct e. Qed.

(** call_spec for a given continuation state, with the invariant [good]. *)
Definition cspec {B} denv (s0 : wstate) (p : (B -> wprog A) -> wprog A) (U : wub -> list tev -> Prop) (Q : B -> list tev -> wstate -> Prop) : Prop :=
  good s0 -> ∀ k s, exec denv (set_co (CRun (p k)) s0) s ->
    (∃ l, wtrace s = l ++ wtrace s0 ∧ inside l ∧ ∀ u, wubs s = Some u -> U u l) ∨
    (∃ s2 l b, exec denv (set_co (CRun (p k)) s0) s2 ∧ exec denv s2 s ∧ wco s2 = CRun (k b) ∧ good s2 ∧ wtrace s2 = l ++ wtrace s0 ∧ inside l ∧ Q b l s2).

Lemma cspec_call {B} denv s0 (p : (B -> wprog A) -> wprog A) U Q : reach denv s0 -> wubs s0 = None -> noleak s0 -> cspec denv s0 p U Q -> call_spec denv s0 p U Q.
Proof.
  intros Hr Hu Hl H k s Hc Hx. assert (Hg : good s0) by (split; [by eapply reach_clean|done]). specialize (H Hg k s).
  rewrite <- (set_co_same _ _ Hc) in H. destruct (H Hx) as [?|(s2 & l & b & ? & ? & ? & [? [? ?]] & ?)]; [by left|right]. by exists s2, l, b.
Qed.

Lemma cspec_mono {B} denv s0 (p : (B -> wprog A) -> wprog A) (U U' : wub -> list tev -> Prop) (Q Q' : B -> list tev -> wstate -> Prop) :
  cspec denv s0 p U Q -> (∀ u l, U u l -> U' u l) -> (∀ b l s, good s -> Q b l s -> Q' b l s) -> cspec denv s0 p U' Q'.
Proof.
  intros H HU HQ Hg k s Hx. destruct (H Hg k s Hx) as [(l & ? & ? & ?)|(s2 & l & b & ? & ? & ? & ? & ? & ? & ?)].
  - left. exists l. eauto.
  - right. exists s2, l, b. repeat (split; [done|]). auto.
Qed.

Lemma cspec_ret {B} denv s0 (b : B) U (Q : B -> list tev -> wstate -> Prop) : (∀ c, Q b [] (set_co c s0)) -> cspec denv s0 (λ k, k b) U Q.
Proof.
  intros HQ Hg k s Hx. right. exists (set_co (CRun (k b)) s0), [], b. split; [constructor|]. split; [done|]. split; [done|].
  split; [destruct Hg as [[] [? ?]]; split; [split|]; done|]. split; [done|]. split; [apply inside_nil|done].
Qed.

Lemma cspec_bind {B C} denv s0 (p : (B -> wprog A) -> wprog A) (f : B -> (C -> wprog A) -> wprog A) U Q1 (Q : C -> list tev -> wstate -> Prop) :
  cspec denv s0 p U Q1 ->
  (∀ b l s2, good s2 -> Q1 b l s2 -> inside l -> cspec denv s2 (f b) (λ u l', U u (l' ++ l)) (λ c l' s3, Q c (l' ++ l) s3)) ->
  cspec denv s0 (λ k, p (λ b, f b k)) U Q.
Proof.
  intros H1 H2 Hg k s Hx. destruct (H1 Hg (λ b, f b k) s Hx) as [?|(s2 & l & b & Hx1 & Hx2 & Hc & Hg2 & Ht & Hin & HQ)]; [by left|].
  specialize (H2 b l s2 Hg2 HQ Hin Hg2 k s). rewrite <- (set_co_same _ _ Hc) in H2. destruct (H2 Hx2) as [(l' & Ht' & Hin' & HU)|(s3 & l' & c & Hy1 & Hy2 & Hc3 & Hg3 & Ht3 & Hin3 & HQ3)].
  - left. exists (l' ++ l). split; [rewrite Ht', Ht; apply app_assoc|]. split; [by apply inside_app|done].
  - right. exists s3, (l' ++ l), c. split; [by eapply exec_trans|]. split; [done|]. split; [done|]. split; [done|].
    split; [rewrite Ht3, Ht; apply app_assoc|]. split; [by apply inside_app|done].
Qed.

(** One internal step. *)
Lemma cspec_step {B} denv s0 s1 (p p' : (B -> wprog A) -> wprog A) l0 (U : wub -> list tev -> Prop) Q :
  (good s0 -> ∀ k, step (set_co (CRun (p k)) s0) = Next (set_co (CRun (p' k)) s1)) -> (good s0 -> good s1) -> wtrace s1 = l0 ++ wtrace s0 -> inside l0 ->
  cspec denv s1 p' (λ u l', U u (l' ++ l0)) (λ c l' s3, Q c (l' ++ l0) s3) -> cspec denv s0 p U Q.
Proof.
  intros Hst Hgg Ht0 Hin0 H Hg k s Hx. destruct (exec_inv _ _ _ Hx) as [->|[(s1' & Hst' & Hx')|(e & s1' & Hst' & _)]]; cycle 2.
  { rewrite (Hst Hg) in Hst'. done. }
  { left. exists []. split; [done|]. split; [apply inside_nil|]. cbn. destruct Hg as (_ & -> & _). done. }
  rewrite (Hst Hg) in Hst'. injection Hst' as <-. destruct (H (Hgg Hg) k s Hx') as [(l & Ht & Hin & HU)|(s2 & l & b & Hx1 & Hx2 & Hc & Hg2 & Ht & Hin & HQ)].
  - left. exists (l ++ l0). split; [rewrite Ht, Ht0; apply app_assoc|]. split; [by apply inside_app|done].
  - right. exists s2, (l ++ l0), b. split; [eapply exec_trans; [|exact Hx1]; eapply exec_step; [constructor|by apply Hst]|].
    split; [done|]. split; [done|]. split; [done|]. split; [rewrite Ht, Ht0; apply app_assoc|]. split; [by apply inside_app|done].
Qed.

Lemma cspec_good {B} denv s0 (p : (B -> wprog A) -> wprog A) U Q : (good s0 -> cspec denv s0 p U Q) -> cspec denv s0 p U Q.
Proof. intros H Hg. by apply H. Qed.
Lemma good_co c (s : wstate) : good s -> good (set_co c s).
Proof. intros [[] [? ?]]. split; [split|]; done. Qed.

Lemma cspec_ub {B} denv s0 (p : (B -> wprog A) -> wprog A) u l0 (U : wub -> list tev -> Prop) Q :
  (good s0 -> ∀ k, ∃ s1, step (set_co (CRun (p k)) s0) = Next s1 ∧ wubs s1 = Some u ∧ wtrace s1 = l0 ++ wtrace s0) -> inside l0 -> U u l0 -> cspec denv s0 p U Q.
Proof.
  intros Hst Hin HU Hg k s Hx. left. destruct (Hst Hg k) as (s1 & Hs & Hu & Ht).
  destruct (exec_inv _ _ _ Hx) as [->|[(s1' & Hst' & Hx')|(e & s1' & Hst' & _)]].
  - exists []. split; [done|]. split; [apply inside_nil|]. cbn. destruct Hg as (_ & -> & _). done.
  - rewrite Hs in Hst'. injection Hst' as <-. exists l0.
    assert (s = s1) as ->.
    { destruct (exec_inv _ _ _ Hx') as [?|[(s1' & Hst' & _)|(e & s1' & _ & Hu' & _)]]; [done| |congruence]. unfold step in Hst'. by rewrite Hu in Hst'. }
    split; [done|]. split; [done|]. intros u' ?. by simplify_eq.
  - congruence.
Qed.

Lemma cspec_get {B} denv s0 (f : D -> (B -> wprog A) -> wprog A) U Q : walive s0 = true ->
  cspec denv s0 (f (wdev s0)) U Q -> cspec denv s0 (λ k, WGet (λ d, f d k)) U Q.
Proof.
  intros Ha H. apply (cspec_step denv s0 s0 _ (f (wdev s0)) []); try done; [|apply inside_nil|].
  - intros (_ & Hu & _) k. unfold step. cbn. rewrite Hu, Ha. done.
  - eapply cspec_mono; [exact H|..]; intros; by rewrite app_nil_r.
Qed.
Lemma cspec_get_dead {B} denv s0 (f : D -> (B -> wprog A) -> wprog A) (U : wub -> list tev -> Prop) Q : walive s0 = false -> U WDead [] ->
  cspec denv s0 (λ k, WGet (λ d, f d k)) U Q.
Proof.
  intros Ha HU. apply (cspec_ub denv s0 _ WDead []); [|apply inside_nil|done]. intros (_ & Hu & _) k. eexists. unfold step. cbn. rewrite Hu, Ha. done.
Qed.
Lemma cspec_bad {B} denv s0 (U : wub -> list tev -> Prop) (Q : B -> list tev -> wstate -> Prop) : U WUndef [] -> cspec denv s0 (λ k, WBad) U Q.
Proof.
  intros HU. apply (cspec_ub denv s0 _ WUndef []); [|apply inside_nil|done]. intros (_ & Hu & _) k. eexists. unfold step. cbn. rewrite Hu. done.
Qed.
Lemma cspec_alive {B} denv s0 (f : bool -> (B -> wprog A) -> wprog A) U Q :
  cspec denv s0 (f (walive s0)) U Q -> cspec denv s0 (λ k, WAlive (λ b, f b k)) U Q.
Proof.
  intros H. apply (cspec_step denv s0 s0 _ (f (walive s0)) []); try done; [|apply inside_nil|].
  - intros (_ & Hu & _) k. unfold step. cbn. rewrite Hu. done.
  - eapply cspec_mono; [exact H|..]; intros; by rewrite app_nil_r.
Qed.

(** A call into the object that emits no signal. *)
Lemma cspec_call0 {B} denv s0 c (f : D -> (B -> wprog A) -> wprog A) (U : wub -> list tev -> Prop) Q : walive s0 = true -> snd (c (wdev s0)) = [] ->
  cspec denv (wlog (TDev (fst (c (wdev s0)))) (set_dev (fst (c (wdev s0))) s0)) (f (wdev s0)) (λ u l', U u (l' ++ [TDev (fst (c (wdev s0)))]))
    (λ b l' s3, Q b (l' ++ [TDev (fst (c (wdev s0)))]) s3) ->
  cspec denv s0 (λ k, WCall c (λ d, f d k)) U Q.
Proof.
  intros Ha He H. eapply cspec_step; [..|exact H]; try done.
  - intros (_ & Hu & _) k. unfold step. cbn. rewrite Hu, Ha, He. done.
  - intros [[] [? ?]]. split; [split|]; done.
  - apply inside_cons; [done|apply inside_nil].
Qed.
Lemma cspec_call_dead {B} denv s0 c (f : D -> (B -> wprog A) -> wprog A) (U : wub -> list tev -> Prop) Q : walive s0 = false -> U WDead [] ->
  cspec denv s0 (λ k, WCall c (λ d, f d k)) U Q.
Proof.
  intros Ha HU. apply (cspec_ub denv s0 _ WDead []); [|apply inside_nil|done]. intros (_ & Hu & _) k. eexists. unfold step. cbn. rewrite Hu, Ha. done.
Qed.

Lemma resumed_co m (c : src) to k cc (s0 s : wstate) l v : resumed m c to k (set_co cc s0) s l v -> resumed m c to k s0 s l v.
Proof. intros []. split; done. Qed.
Lemma resumed_good m (c : src) to k (s0 s : wstate) l v : resumed m c to k s0 s l v -> noleak s0 -> good s.
Proof. intros [] Hl. split; [done|]. split; [done|]. intros sg. destruct re_leak as [-> | ->]; [apply Hl|done]. Qed.

(** What is known after a wait. *)
Record waited (c : src) (to : option nat) (s0 s : wstate) (l : list tev) (v : option P) : Prop := Waited {
  wd_quiet : quiet l; wd_res : awaited c to l v; wd_now : wnow s = wnow s0 + elapsed l; wd_dev : wdev s = dev_after (wdev s0) l;
  wd_alive : TDestroy ∉ l -> walive s = walive s0; wd_dead : TDestroy ∈ l -> walive s = false; wd_help : whelp s0 = None -> whelp s = None }.
Lemma resumed_waited m (c : src) to k (s0 s : wstate) l v : resumed m c to k s0 s l v -> waited c (match m with MQueued => to | _ => None end) s0 s l v.
Proof. intros []. split; try done. intros E. rewrite E in re_help. by destruct (whelp s). Qed.

Lemma cspec_await denv m (c : src) to s0 U (Q : option P -> list tev -> wstate -> Prop) :
  (is_dev c -> walive s0 = true) -> (¬ is_dev c -> is_Some (whelp s0)) ->
  (∀ v l s2, waited c (match m with MQueued => to | _ => None end) s0 s2 l v -> (calm_help (whelp s0) -> behaves denv (wdev s0) l) -> Q v (TResume v :: l ++ [TSusp c to]) s2) ->
  cspec denv s0 (λ k, WAwait m c to k) U Q.
Proof.
  intros Ha Hh HQ (Hcl & Hu & Hl) k s Hx.
  destruct (await_exec denv m c to k (set_co (CRun (WAwait m c to k)) s0) s) as [->|[[Hus [l Hp]]|(l & v & s2 & Hre & Hx1 & Hx2)]]; try done.
  - destruct Hcl. split; done.
  - left. exists []. split; [done|]. split; [apply inside_nil|]. cbn. rewrite Hu. done.
  - left. destruct Hp as [Hsi _]. exists (l ++ [TSusp c to]). split; [rewrite (si_trace _ _ _ _ _ Hsi), <- app_assoc; done|].
    split; [|congruence]. apply inside_app; [apply quiet_inside, Hsi|]. apply inside_cons; [done|apply inside_nil].
  - right. assert (Hbe : calm_help (whelp s0) -> behaves denv (wdev s0) l).
    { intros Hca. destruct (await_phase m c to k (set_co (CRun (WAwait m c to k)) s0)) as (s1 & Hst & Hu1 & Hph); try done; [by destruct Hcl; split|].
      destruct (exec_inv _ _ _ Hx1) as [E|[(s1' & Hst' & Hx1')|(e & s1' & Hst' & _)]]; [| |congruence].
      - exfalso. pose proof (re_trace _ _ _ _ _ _ _ _ Hre) as Htr. subst s2. apply (f_equal length) in Htr. cbn in Htr. rewrite app_length in Htr. cbn in Htr. lia.
      - rewrite Hst in Hst'. injection Hst' as <-. by eapply (resumed_behaves denv m c to k (set_co (CRun (WAwait m c to k)) s0) s1 s2). }
    apply resumed_co in Hre. exists s2, (TResume v :: l ++ [TSusp c to]), v. split; [done|]. split; [done|]. split; [apply Hre|].
    split; [by eapply resumed_good|]. split; [rewrite (re_trace _ _ _ _ _ _ _ _ Hre); cbn; by rewrite <- app_assoc|].
    split; [|eapply HQ; [by eapply resumed_waited|done]]. apply inside_cons; [done|]. apply inside_app; [apply quiet_inside, Hre|]. apply inside_cons; [done|apply inside_nil].
Qed.
Lemma cspec_skip denv m mm to s0 U (Q : option P -> list tev -> wstate -> Prop) : walive s0 = false ->
  (∀ c, Q None [TSkip None] (wlog (TSkip None) (set_co c s0))) -> cspec denv s0 (λ k, WAwait m (FromDev mm) to k) U Q.
Proof.
  intros Ha HQ. apply (cspec_step denv s0 (wlog (TSkip None) s0) _ (λ k, k None) [TSkip None]); try done.
  - intros (_ & Hu & _) k. unfold step. cbn. rewrite Hu. unfold await. cbn. rewrite Ha. done.
  - intros [[] [? ?]]. split; [split|]; done.
  - apply inside_cons; [done|apply inside_nil].
  - apply cspec_ret. intros c. cbn. apply (HQ c).
Qed.

(** ** Waiting through a helper *)
Definition rposts (l : list (@posted S P)) : list P := omap (λ e, match e with PRelay _ _ p => Some p | _ => None end) l.
#[local] Arguments rposts : simpl never.
Lemma rposts_app l l' : rposts (l ++ l') = rposts l ++ rposts l'.
Proof. apply omap_app. Qed.

Definition queued (l : list (bool * P)) : Prop := ∀ b q, (b, q) ∈ l -> b = true.

(** The first ready(p) came about like this. *)
Definition first_ready (h : @helper D S P) (d : D) (l : list tev) (p : P) : Prop :=
  ∃ l1 l2, l = l1 ++ TReady p :: l2 ∧ emissions FromHelper l2 = [] ∧
    ((queued (relays h d l2) ∧ head (relays h d l2) = Some (true, p)) ∨
     ∃ sg q o l3, l2 = match o with Some d' => [TDev d'] | None => [] end ++ TEmit sg q :: l3 ∧ queued (relays h d l3) ∧
       relay h sg q (dev_after d l3) = Some (false, p, o)).

Lemma relays_cons h d (e : tev) l : relays h d (e :: l) = relays h d l ++ match e with
      | TEmit sg p => match relay h sg p (dev_after d l) with Some (b, q, _) => [(b, q)] | None => [] end
      | _ => []
      end.
Proof. done. Qed.
Lemma relays_app h d (l1 l2 : list tev) : relays h d (l1 ++ l2) = relays h d l2 ++ relays h (dev_after d l2) l1.
Proof.
  induction l1 as [|e l1 IH]; [by rewrite app_nil_r|]. cbn [app]. rewrite !relays_cons, IH, <- app_assoc. f_equal. f_equal.
  by rewrite dev_after_app.
Qed.

Definition hinv (h : @helper D S P) (d : D) (base : list tev) (s : wstate) : Prop := ∀ l, wtrace s = l ++ base ->
  ((wdev s = dev_after d l ∧ emissions FromHelper l = [] ∧ (∃ i live, whelp s = Some (i, h, live) ∧ (walive s = true -> ∀ x, live x = true)) ∧
    queued (relays h d l) ∧ rposts (wposted s) = map snd (relays h d l)) ∨
   (∃ p, first_ready h d l p)).

Lemma first_ready_app h d (l l' : list tev) p : first_ready h d l p -> first_ready h d (l' ++ l) p.
Proof. intros (l1 & l2 & -> & ?). exists (l' ++ l1), l2. split; [by rewrite <- app_assoc|done]. Qed.

(** Events that do not matter to the helper. *)
Lemma hinv_log h d base (s s' : wstate) e l : hinv h d base s -> wtrace s = l ++ base -> wtrace s' = e :: wtrace s ->
  match e with TEmit _ _ | TReady _ => False | _ => True end -> wdev s' = match e with TDev d' => d' | _ => wdev s end ->
  (∀ i live, whelp s = Some (i, h, live) -> ∃ live', whelp s' = Some (i, h, live') ∧ (walive s' = true -> walive s = true ∧ live' = live)) ->
  rposts (wposted s') = rposts (wposted s) -> hinv h d base s'.
Proof.
  intros Hi Ht Ht' He Hd Hl Hp l' Hl'. rewrite Ht', Ht in Hl'. assert (l' = e :: l) as -> by (symmetry; by apply (app_inv_tail base)).
  destruct (Hi l Ht) as [(Hd0 & Hem & (i & live & Eh & Hlv) & Hq & Hr)|[p Hf]].
  - left. split; [rewrite Hd, Hd0; by destruct e|]. rewrite emissions_cons, Hem, relays_cons.
    assert (match e with TEmit sg p => match relay h sg p (dev_after d l) with Some (b, q, _) => [(b, q)] | None => [] end | _ => [] end = []) as -> by (by destruct e).
    rewrite app_nil_r. split; [by destruct e|]. split; [|split; [done|congruence]].
    destruct (Hl i live Eh) as (live' & Eh' & Hx). exists i, live'. split; [done|]. intros Ha. destruct (Hx Ha) as [? ->]. by apply Hlv.
  - right. exists p. by apply (first_ready_app h d l [e]).
Qed.
Lemma hinv_same h d base (s s' : wstate) : hinv h d base s -> wtrace s' = wtrace s -> wdev s' = wdev s -> whelp s' = whelp s -> walive s' = walive s ->
  rposts (wposted s') = rposts (wposted s) -> hinv h d base s'.
Proof. intros Hi Ht Hd Hh Ha Hp l Hl. rewrite Ht in Hl. rewrite Hd, Hh, Ha, Hp. by apply Hi. Qed.

Lemma trigger_eqs a p (s : wstate) : wtrace (trigger a p s) = wtrace s ∧ wdev (trigger a p s) = wdev s ∧ whelp (trigger a p s) = whelp s ∧
  walive (trigger a p s) = walive s ∧ rposts (wposted (trigger a p s)) = rposts (wposted s).
Proof.
  unfold trigger. destruct (amode a); cbn.
  - rewrite rposts_app. cbn. unfold rposts at 2. cbn. by rewrite app_nil_r.
  - unfold resume. cbn. by destruct (wco s).
  - done.
Qed.
Lemma ready_trace sg p (s : wstate) : is_Some (whelp s) -> wtrace (ready sg p s) = TReady p :: wtrace s ∧ wdev (ready sg p s) = wdev s.
Proof.
  intros [[[i h] live] E]. unfold ready. rewrite E. set (s1 := wlog _ _).
  assert (H1 : wtrace s1 = TReady p :: wtrace s ∧ wdev s1 = wdev s) by done. clearbody s1.
  destruct (waw s1) as [a|]; [|done]. destruct (asrc a); [done|]. destruct (aconn a); [|done].
  destruct (trigger_eqs a p s1) as (-> & -> & _). done.
Qed.

Lemma hinv_emit h d base (s : wstate) l sg q : hinv h d base s -> wtrace s = l ++ base -> noleak s -> walive s = true ->
  (∃ a, waw s = Some a ∧ asrc a = FromHelper) -> hinv h d base (emit sg q s).
Proof.
  intros Hi Ht Hnl Hal (a & Ha & Hsrc). destruct (Hi l Ht) as [(Hd0 & Hem & (i & live & Eh & Hlv) & Hq & Hr)|[p Hf]].
  - assert (Hem' : emissions FromHelper (TEmit sg q :: l) = []) by (rewrite emissions_cons, Hem; done).
    assert (He : emit sg q s = helper_slot sg q (wlog (TEmit sg q) s)).
    { unfold emit. rewrite (Hnl sg). unfold helper_slot. cbn [whelp wlog]. rewrite Eh. rewrite Hlv by done. change (wdev (wlog (TEmit sg q) s)) with (wdev s).
      assert (Hrd : ∀ p (s1 : wstate), waw s1 = Some a -> is_Some (whelp s1) -> ∃ a', waw (ready sg p s1) = Some a' ∧ asrc a' = FromHelper).
      { intros p s1 Ha1 [[[i1 h1] live1] E1]. unfold ready. rewrite E1. set (s2 := wlog _ _). change (waw s2) with (waw s1). rewrite Ha1, Hsrc.
        destruct (aconn a); [|exists a; done]. unfold trigger. destruct (amode a); cbn; [exists a; done| |eexists; split; [done|]; done].
        unfold resume. cbn. destruct (wco s1); (eexists; split; [done|]; done). }
      destruct (relay h sg q (wdev s)) as [[[[|] p'] [d'|]]|]; [cbn; by rewrite Ha, Hsrc|cbn; by rewrite Ha, Hsrc| | |cbn; by rewrite Ha, Hsrc].
      - destruct (Hrd p' (wlog (TDev d') (set_dev d' (wlog (TEmit sg q) s)))) as (a' & -> & ->); [done|cbn; rewrite Eh; eauto|done].
      - destruct (Hrd p' (wlog (TEmit sg q) s)) as (a' & -> & ->); [done|cbn; rewrite Eh; eauto|done]. }
    rewrite He. unfold helper_slot. cbn [whelp wlog]. rewrite Eh, Hlv by done. change (wdev (wlog (TEmit sg q) s)) with (wdev s).
    destruct (relay h sg q (wdev s)) as [[[[|] p'] o]|] eqn:Er.
    + intros l' Hl'. cbn in Hl'. rewrite Ht in Hl'. assert (l' = TEmit sg q :: l) as -> by (symmetry; by apply (app_inv_tail base)).
      left. split; [done|]. rewrite relays_cons, <- Hd0, Er. split; [done|]. split; [exists i, live; split; [exact Eh|done]|]. split.
      * intros b x [?|[= ? ?]%elem_of_list_singleton]%elem_of_app; [by eapply Hq|done].
      * cbn. rewrite rposts_app, Hr, map_app. done.
    + intros l' Hl'. assert (Hfr : l' = TReady p' :: match o with Some d' => [TDev d'] | None => [] end ++ TEmit sg q :: l).
      { destruct o as [d'|].
        - destruct (ready_trace sg p' (wlog (TDev d') (set_dev d' (wlog (TEmit sg q) s)))) as [Htr Hdv]; [cbn; rewrite Eh; eauto|].
          rewrite Htr in Hl'. cbn in Hl'. rewrite Ht in Hl'. symmetry. by apply (app_inv_tail base).
        - destruct (ready_trace sg p' (wlog (TEmit sg q) s)) as [Htr Hdv]; [cbn; rewrite Eh; eauto|].
          rewrite Htr in Hl'. cbn in Hl'. rewrite Ht in Hl'. symmetry. by apply (app_inv_tail base). }
      rewrite Hfr. right. exists p', [], (match o with Some d' => [TDev d'] | None => [] end ++ TEmit sg q :: l).
      split; [done|]. split; [destruct o; cbn [app]; rewrite ?emissions_cons; cbn; rewrite Hem; done|]. right. exists sg, q, o, l. rewrite <- Hd0. done.
    + intros l' Hl'. cbn in Hl'. rewrite Ht in Hl'. assert (l' = TEmit sg q :: l) as -> by (symmetry; by apply (app_inv_tail base)).
      left. split; [done|]. rewrite relays_cons, <- Hd0, Er, app_nil_r. split; [done|]. split; [exists i, live; split; [exact Eh|done]|]. done.
  - destruct (emit_grows sg q s) as [x Hx]. intros l' Hl'. rewrite Hx, Ht in Hl'. rewrite app_assoc in Hl'. apply app_inv_tail in Hl' as <-.
    right. exists p. by apply first_ready_app.
Qed.

Lemma hinv_step h d base m to k (s0 s s' : wstate) l : base = TSusp FromHelper to :: wtrace s0 -> phase m FromHelper to k s0 s l -> wubs s = None -> noleak s0 ->
  hinv h d base s -> step s = Next s' -> hinv h d base s'.
Proof.
  intros Hb [Hsi [a [[Hco Hwa]|[Hco Hba]]]] Hub Hnl Hi Hst; unfold step in Hst; rewrite Hub, Hco in Hst; pose proof (si_trace _ _ _ _ _ Hsi) as Ht; rewrite <- Hb in Ht.
  - destruct (wtodo s) as [|[sg q] rest] eqn:Et; [done|]. injection Hst as <-. eapply hinv_emit.
    + eapply hinv_same; [exact Hi|done..].
    + exact Ht.
    + intros x. cbn. destruct (si_leak _ _ _ _ _ Hsi) as [-> | ->]; [apply Hnl|done].
    + cbn. destruct (walive s) eqn:Ea; [done|]. apply (si_todo _ _ _ _ _ Hsi) in Ea. congruence.
    + exists a. cbn. destruct Hwa. done.
  - injection Hst as <-. unfold drop_awaiter. rewrite (ba_aw _ _ _ _ _ _ _ Hba).
    eapply hinv_log; [exact Hi|exact Ht|done|done|done|cbn; eauto|]. cbn.
    unfold rposts. generalize (wposted s). induction l0 as [|[j p|j sg p] l0 IH]; [done|..]; cbn.
    + destruct (negb _); cbn; apply IH.
    + f_equal. apply IH.
Qed.

Lemma hinv_env h d base m to k (s0 s s' : wstate) l e : base = TSusp FromHelper to :: wtrace s0 -> phase m FromHelper to k s0 s l -> wubs s = None -> noleak s0 ->
  hinv h d base s -> step s = Idle -> env_step e s = Next s' -> hinv h d base s'.
Proof.
  intros Hb [Hsi [a [[Hco Hwa]|[Hco Hba]]]] Hub Hnl Hi Hid Hst; pose proof (si_trace _ _ _ _ _ Hsi) as Ht; rewrite <- Hb in Ht; cycle 1.
  { unfold step in Hid. by rewrite Hub, Hco in Hid. }
  assert (Hgrow : ∀ p, first_ready h d l p -> hinv h d base s').
  { intros p Hf l' Hl'. destruct (env_grows _ _ _ Hst) as [x Hx]. rewrite Hx, Ht in Hl'. rewrite app_assoc in Hl'. apply app_inv_tail in Hl' as <-. right. exists p. by apply first_ready_app. }
  destruct e; cbn in Hst.
  - destruct (walive s) eqn:Ea; [|done]. injection Hst as <-. eapply hinv_log; [exact Hi|exact Ht|done|done|done|cbn; eauto|done].
  - destruct (walive s) eqn:Ea; [|done]. injection Hst as <-. eapply hinv_log; [exact Hi|exact Ht|done|done|done| |done].
    cbn. intros i live ->. exists (λ _, false). done.
  - destruct (wposted s) as [|[i p|i sg p] q] eqn:Ep; [done|..].
    + cbn in Hst. rewrite (wa_aw _ _ _ _ _ _ _ Hwa) in Hst. destruct (decide _); injection Hst as <-.
      * unfold resume. cbn. rewrite Hco. eapply hinv_same; [exact Hi|done..|]. cbn. by rewrite Ep.
      * eapply hinv_same; [exact Hi|done..|]. cbn. by rewrite Ep.
    + cbn in Hst. destruct (si_relay _ _ _ _ _ Hsi i sg p) as (h' & live & E); [rewrite Ep; left|]. rewrite E, decide_True in Hst by done. injection Hst as <-.
      destruct (Hi l Ht) as [(Hd0 & Hem & (i' & live' & Eh & Hlv) & Hq & Hr)|[p' Hf]]; [|by eapply Hgrow].
      destruct (ready_trace sg p (set_posted q s)) as [Htr Hdv]; [cbn; rewrite E; eauto|].
      intros l' Hl'. rewrite Htr in Hl'. cbn in Hl'. rewrite Ht in Hl'. assert (l' = TReady p :: l) as -> by (symmetry; by apply (app_inv_tail base)).
      right. exists p, [], l. split; [done|]. split; [done|]. left. split; [done|].
      rewrite Ep in Hr. unfold rposts in Hr. cbn in Hr. destruct (relays h d l) as [|[b x] rl] eqn:Erl; [done|]. cbn in Hr. injection Hr as -> _. cbn.
      assert (b = true) as -> by (apply (Hq b x); left). done.
  - destruct (wshots s); [done|]. injection Hst as <-. unfold resume. cbn. rewrite Hco. eapply hinv_same; [exact Hi|done..].
  - rewrite (wa_aw _ _ _ _ _ _ _ Hwa) in Hst. destruct (atimer a); [|done]. destruct (decide _); [|done]. injection Hst as <-.
    destruct (actx a).
    + unfold resume. cbn. rewrite Hco. eapply hinv_log; [exact Hi|exact Ht|done|done|done|cbn; eauto|done].
    + eapply hinv_log; [exact Hi|exact Ht|done|done|done|cbn; eauto|done].
  - injection Hst as <-. eapply hinv_log; [exact Hi|exact Ht|done|done|done|cbn; eauto|done].
Qed.

Lemma helper_exec denv h d base m to k (s0 s1 : wstate) l s : base = TSusp FromHelper to :: wtrace s0 -> phase m FromHelper to k s0 s1 l -> wubs s1 = None -> noleak s0 ->
  hinv h d base s1 -> exec denv s1 s ->
  (wubs s = None ∧ hinv h d base s ∧ ∃ l', phase m FromHelper to k s0 s (l' ++ l)) ∨
  ∃ l' v s2, resumed m FromHelper to k s0 s2 (l' ++ l) v ∧ hinv h d base s2 ∧ exec denv s1 s2 ∧ exec denv s2 s.
Proof.
  intros Hb Hph Hub Hlk Hi Hex. induction Hex as [s1|s1 s s' Hex IH Hst|s1 s e s' Hex IH Hid Hu He Hd].
  - left. split; [done|]. split; [done|]. by exists [].
  - destruct (IH Hph Hub Hi) as [(Hu & Hi1 & l' & Hp)|(l' & v & s2 & ? & ? & ? & ?)]; cycle 1.
    { right. exists l', v, s2. do 3 (split; [done|]). by eapply exec_step. }
    pose proof (hinv_step _ _ _ _ _ _ _ _ _ _ Hb Hp Hu Hlk Hi1 Hst) as Hi2.
    destruct (phase_step _ _ _ _ _ _ _ _ Hp Hu Hst) as [(_ & sg & Hlx)|[(? & l'' & ?)|[v Hr]]].
    + exfalso. destruct Hp as [Hsi _]. destruct (si_leak _ _ _ _ _ Hsi) as [E|E]; rewrite E in Hlx; [rewrite Hlk in Hlx|]; done.
    + left. split; [done|]. split; [done|]. exists (l'' ++ l'). by rewrite <- app_assoc.
    + right. exists l', v, s'. split; [done|]. split; [done|]. split; [by eapply exec_step|constructor].
  - destruct (IH Hph Hub Hi) as [(Hu' & Hi1 & l' & Hp)|(l' & v & s2 & ? & ? & ? & ?)]; cycle 1.
    { right. exists l', v, s2. do 3 (split; [done|]). by eapply exec_env. }
    pose proof (hinv_env _ _ _ _ _ _ _ _ _ _ _ Hb Hp Hu Hlk Hi1 Hid He) as Hi2.
    destruct (phase_env _ _ _ _ _ _ _ _ _ Hp Hu' Hid He) as (? & l'' & ?).
    left. split; [done|]. split; [done|]. exists (l'' ++ l'). by rewrite <- app_assoc.
Qed.

(** The history [l] of a wait through helper [h], the object being in state [d] before: what ready signals there were. *)
Definition helper_hist (h : @helper D S P) (d : D) (l : list tev) : Prop :=
  (emissions FromHelper l = [] ∧ queued (relays h d l)) ∨ ∃ p, first_ready h d l p.

Lemma first_ready_head h d (l : list tev) p : first_ready h d l p -> head (emissions FromHelper l) = Some p.
Proof. intros (l1 & l2 & -> & He & _). rewrite emissions_app, emissions_cons, He. done. Qed.

(** A helper without queued connections: its first ready signal is the reaction to the first emission it reacts to. *)
Lemma direct_hist h d (l : list tev) : (∀ sg q d' p o, relay h sg q d' ≠ Some (true, p, o)) -> helper_hist h d l ->
  head (emissions FromHelper l) = head (map snd (relays h d l)).
Proof.
  intros Hdir.
  assert (Hq : ∀ l : list tev, queued (relays h d l) -> relays h d l = []).
  { clear -Hdir. intros l. induction l as [|e l IH]; intros Hq; [done|]. rewrite relays_cons in *.
    assert (relays h d l = []) as E by (apply IH; intros b q Hin; apply (Hq b q); apply elem_of_app; by left). rewrite E in *. cbn in *.
    destruct e as [|sg q| | | | | | | | |]; try done. destruct (relay h sg q (dev_after d l)) as [[[[|] p] o]|] eqn:Er; [by apply Hdir in Er| |done].
    specialize (Hq false p (elem_of_list_here _ _)). done. }
  intros [[He Hq']|[p Hf]].
  - rewrite He, (Hq l Hq'). done.
  - rewrite (first_ready_head _ _ _ _ Hf). destruct Hf as (l1 & l2 & -> & He & [[Hq2 Hh]|(sg & q & o & l3 & E & Hq3 & Er)]).
    + rewrite (Hq l2 Hq2) in Hh. done.
    + rewrite relays_app, relays_cons. assert (Hl3 := Hq l3 Hq3). rewrite E.
      assert (relays h d (match o with Some d' => [TDev d'] | None => [] end ++ TEmit sg q :: l3) = [(false, p)]) as ->; [|done].
      destruct o; cbn [app]; rewrite !relays_cons, Hl3, Er; done.
Qed.

(** In general it is the reaction to some emission. *)
Lemma hist_relay h d (l : list tev) p : helper_hist h d l -> head (emissions FromHelper l) = Some p -> ∃ b, (b, p) ∈ relays h d l.
Proof.
  intros [[He _]|[p' Hf]] Hh; [by rewrite He in Hh|]. rewrite (first_ready_head _ _ _ _ Hf) in Hh. injection Hh as ->.
  destruct Hf as (l1 & l2 & -> & _ & [[_ Hh]|(sg & q & o & l3 & -> & _ & Er)]).
  - exists true. rewrite relays_app, relays_cons, app_nil_r. apply elem_of_app. left. destruct (relays h d l2); [done|]. cbn in Hh. injection Hh as ->. left.
  - exists false. rewrite relays_app, relays_cons, app_nil_r. apply elem_of_app. left. destruct o; cbn [app]; rewrite !relays_cons, ?app_nil_r, Er; apply elem_of_app; right; left.
Qed.
(** And a direct one brings about ready. *)
Lemma hist_direct h d (l : list tev) p : helper_hist h d l -> (false, p) ∈ relays h d l -> emissions FromHelper l ≠ [].
Proof. intros [[_ Hq]|[p' Hf]] Hin He; [by specialize (Hq _ _ Hin)|]. apply first_ready_head in Hf. by rewrite He in Hf. Qed.

(** co_await of ready() of a helper [h] that exists already, and its destruction after. [hready]: its connections are all there
    and nothing is queued for it. *)
Definition hready (h : @helper D S P) (s : wstate) : Prop :=
  ∃ i live, whelp s = Some (i, h, live) ∧ (walive s = true -> ∀ x, live x = true) ∧ rposts (wposted s) = [].
Definition leaks (h : @helper D S P) (s0 s : wstate) : Prop :=
  ∃ live, wleak s = (λ x, live x && leaky h x) :: wleak s0 ∨ wleak s = [λ x, live x && leaky h x].

Lemma helper_await_exec denv h to (k : option P -> wprog A) (sh s : wstate) : clean sh -> wubs sh = None -> noleak sh -> hready h sh ->
  exec denv (set_co (CRun (WAwait MQueued FromHelper to (λ r, WDrop (k r)))) sh) s ->
  (∃ l, wtrace s = l ++ wtrace sh ∧ inside l ∧ wubs s = None) ∨
  ∃ s3 l v, exec denv (set_co (CRun (WAwait MQueued FromHelper to (λ r, WDrop (k r)))) sh) s3 ∧ exec denv s3 s ∧ wco s3 = CRun (k v) ∧ clean s3 ∧ wubs s3 = None ∧
    wtrace s3 = (TResume v :: l ++ [TSusp FromHelper to]) ++ wtrace sh ∧ quiet l ∧ whelp s3 = None ∧ leaks h sh s3 ∧
    waited FromHelper to sh s3 l v ∧ helper_hist h (wdev sh) l ∧ (calm h -> hist denv sh s3 l).
Proof.
  intros Hcl Hu Hl (i0 & live0 & Eh0 & Hlv0 & Hrp0) Hx. set (kk := λ r, WDrop (k r)) in *.
  set (si := set_co (CRun (WAwait MQueued FromHelper to kk)) sh) in *.
  assert (Hcli : clean si) by (destruct Hcl; split; done).
  assert (Hubi : wubs si = None) by exact Hu.
  destruct (await_phase MQueued FromHelper to kk si) as (s1 & Hst & Hu1 & Hph); try done.
  destruct (exec_inv _ _ _ Hx) as [->|[(s1' & Hst' & Hx')|(e & s1' & Hst' & _)]]; cycle 2.
  { rewrite Hst in Hst'. done. }
  { left. exists []. split; [done|]. split; [apply inside_nil|done]. }
  rewrite Hst in Hst'. injection Hst' as <-.
  assert (Hi : hinv h (wdev sh) (TSusp FromHelper to :: wtrace si) s1).
  { unfold step in Hst. rewrite Hubi in Hst. cbn in Hst. unfold await in Hst. change (whelp si) with (whelp sh) in Hst. rewrite Eh0 in Hst. injection Hst as <-. intros l Hl'. cbn in Hl'.
    assert (l = []) as ->. { apply (app_inv_tail (TSusp FromHelper to :: wtrace sh)). by symmetry. }
    left. split; [done|]. split; [done|]. split; [by exists i0, live0|]. split; [by intros ? ? ?%elem_of_nil|]. exact Hrp0. }
  destruct (helper_exec denv h (wdev sh) _ _ _ _ _ _ _ s eq_refl Hph Hu1 Hl Hi Hx') as [(Hus & _ & l & Hp)|(l & v & s2 & Hre & Hi2 & Hx1 & Hx2)].
  - left. destruct Hp as [Hsi _]. rewrite app_nil_r in Hsi. exists (l ++ [TSusp FromHelper to]). split; [rewrite (si_trace _ _ _ _ _ Hsi), <- app_assoc; done|].
    split; [|congruence]. apply inside_app; [apply quiet_inside, Hsi|]. apply inside_cons; [done|apply inside_nil].
  - rewrite app_nil_r in Hre. assert (Hbe : calm h -> hist denv sh s2 l).
    { intros Hca. apply (resumed_hist denv FromHelper to kk si s1 s2 l v); try done; cycle 1.
      { unfold step in Hst. rewrite Hubi in Hst. cbn in Hst. unfold await in Hst. change (whelp si) with (whelp sh) in Hst. rewrite Eh0 in Hst. by injection Hst as <-. }
      intros i h' live E. change (whelp si) with (whelp sh) in E. rewrite Eh0 in E. by injection E as _ <- _. }
    pose proof Hre as Hre0. apply resumed_co in Hre. destruct (resumed_good _ _ _ _ _ _ _ _ Hre) as (Hcl2 & Hu2 & Hl2); [done|].
    assert (Hin : inside (TResume v :: l ++ [TSusp FromHelper to])).
    { apply inside_cons; [done|]. apply inside_app; [apply quiet_inside, Hre|]. apply inside_cons; [done|apply inside_nil]. }
    assert (Hx12 : exec denv si s2) by (eapply exec_trans; [eapply exec_step; [constructor|done]|done]).
    assert (Hh2 : ∃ live, whelp s2 = Some (i0, h, live)).
    { pose proof (re_help _ _ _ _ _ _ _ _ Hre) as Hsh. rewrite Eh0 in Hsh. destruct (whelp s2) as [[[??]?]|]; [|done]. destruct Hsh as [<- <-]. eauto. }
    destruct Hh2 as [live Eh2].
    pose proof (re_co _ _ _ _ _ _ _ _ Hre) as Hc2. unfold kk in Hc2.
    (* the helper is dropped *)
    set (s3 := drop_helper (set_co (CRun (k v)) s2)).
    assert (Hst2 : step s2 = Next s3) by (unfold step; by rewrite Hu2, Hc2).
    assert (Htr2 : wtrace s2 = (TResume v :: l ++ [TSusp FromHelper to]) ++ wtrace sh).
    { rewrite (re_trace _ _ _ _ _ _ _ _ Hre). cbn. by rewrite <- app_assoc. }
    destruct (exec_inv _ _ _ Hx2) as [->|[(s3' & Hst' & Hx3)|(e & s3' & Hst' & _)]]; cycle 2.
    { rewrite Hst2 in Hst'. done. }
    { left. exists (TResume v :: l ++ [TSusp FromHelper to]). split; [done|]. split; [done|]. congruence. }
    rewrite Hst2 in Hst'. injection Hst' as <-.
    assert (Hs3 : s3 = set_leak ((λ x, live x && leaky h x) :: wleak s2) (set_help None
      (set_posted (List.filter (λ e, match e with PRelay j _ _ => negb (j =? i0) | PSlot _ _ => true end) (wposted s2)) (set_co (CRun (k v)) s2)))).
    { unfold s3, drop_helper. cbn. rewrite Eh2. done. }
    clearbody s3. subst s3.
    right. eexists _, l, v. split; [eapply exec_step; [exact Hx12|exact Hst2]|]. split; [exact Hx3|]. split; [done|]. split.
    { destruct Hcl2. split; try done; cbn.
      + by rewrite slots_filter_help.
      + intros j sg q Hinn. cbn in Hinn. pose proof Hinn as Hin2. apply filter_sub in Hinn. destruct (cl_relay j sg q Hinn) as (? & ? & E). rewrite Eh2 in E. simplify_eq.
        apply elem_of_list_In, filter_In in Hin2 as [_ Hxx]. rewrite Nat.eqb_refl in Hxx. done. }
    split; [done|]. split; [done|]. split; [apply Hre|]. split; [done|].
    split; [exists live; destruct (re_leak _ _ _ _ _ _ _ _ Hre) as [E|E]; [left|right]; cbn; by rewrite E|]. split; [|split].
    + destruct Hre. split; done.
    + destruct (Hi2 (TResume v :: l)) as [(_ & He & _ & Hq & _)|[p Hf]].
      * rewrite (re_trace _ _ _ _ _ _ _ _ Hre). done.
      * left. rewrite emissions_cons, relays_cons, !app_nil_r in *. done.
      * right. exists p. destruct Hf as (l1 & l2 & E & Hf). destruct l1 as [|x l1]; [done|]. cbn in E. injection E as <- ->. exists l1, l2. done.
    + done.
Qed.

Lemma cspec_helper_await denv h to sh U (Q : option P -> list tev -> wstate -> Prop) : hready h sh -> (∀ x, leaky h x = false) ->
  (∀ v l s2, waited FromHelper to sh s2 l v -> whelp s2 = None -> helper_hist h (wdev sh) l -> (calm h -> hist denv sh s2 l) -> Q v (TResume v :: l ++ [TSusp FromHelper to]) s2) ->
  cspec denv sh (λ k, WAwait MQueued FromHelper to (λ r, WDrop (k r))) U Q.
Proof.
  intros Hr Hlk HQ (Hcl & Hu & Hl) k s Hx. destruct (helper_await_exec denv h to k sh s Hcl Hu Hl Hr Hx) as [(l & Ht & Hi & Hus)|(s3 & l & v & Hx1 & Hx2 & Hc & Hcl3 & Hu3 & Ht3 & Hq & Hh3 & [live Hlv] & Hw & Hhi & Hb)].
  - left. exists l. split; [done|]. split; [done|]. congruence.
  - right. exists s3, (TResume v :: l ++ [TSusp FromHelper to]), v. split; [done|]. split; [done|]. split; [done|]. split; [|split; [done|split]].
    + split; [done|]. split; [done|]. intros sg. destruct Hlv as [-> | ->]; cbn; rewrite Hlk, andb_false_r; [apply Hl|done].
    + apply inside_cons; [done|]. apply inside_app; [by apply quiet_inside|]. apply inside_cons; [done|apply inside_nil].
    + by apply HQ.
Qed.

(** The helper is created. *)
Definition with_helper (h : @helper D S P) (s0 : wstate) : wstate := set_help (Some (wnext s0, h, λ _, true)) (set_next (Datatypes.S (wnext s0)) s0).
Lemma hready_new h (s0 : wstate) : clean s0 -> whelp s0 = None -> hready h (with_helper h s0).
Proof.
  intros Hcl Hh. exists (wnext s0), (λ _, true). split; [done|]. split; [done|]. cbn.
  assert (Hr : ∀ j sg p, PRelay j sg p ∉ wposted s0).
  { intros j sg p Hin. destruct (cl_relay _ Hcl j sg p Hin) as (? & ? & E). congruence. }
  clear -Hr. induction (wposted s0) as [|[j p|j sg p] q IH]; [done|..].
  - apply IH. intros j' sg' p' Hin. apply (Hr j' sg' p'). by right.
  - exfalso. apply (Hr j sg p). left.
Qed.
Lemma with_helper_clean h (s0 : wstate) : clean s0 -> whelp s0 = None -> clean (with_helper h s0).
Proof. intros [] Hh. split; try done. intros j sg p Hin. cbn in Hin. destruct (cl_relay j sg p Hin) as (? & ? & E). congruence. Qed.
Lemma with_helper_step h p (s0 : wstate) : wubs s0 = None -> walive s0 = true -> whelp s0 = None ->
  step (set_co (CRun (WHelper h p)) s0) = Next (set_co (CRun p) (with_helper h s0)).
Proof. intros Hu Ha Hh. unfold step. cbn. rewrite Hu, Hh, Ha. done. Qed.
Lemma waited_with_helper h (c : src) to (s0 s : wstate) l v : waited c to (with_helper h s0) s l v -> whelp s = None -> waited c to s0 s l v.
Proof. intros [] Hh. split; done. Qed.

Lemma cspec_helper denv h to s0 U (Q : option P -> list tev -> wstate -> Prop) : walive s0 = true -> whelp s0 = None -> (∀ x, leaky h x = false) ->
  (∀ v l s2, waited FromHelper to s0 s2 l v -> helper_hist h (wdev s0) l -> (calm h -> hist denv s0 s2 l) -> Q v (TResume v :: l ++ [TSusp FromHelper to]) s2) ->
  cspec denv s0 (λ k, qCoro_helper h to k) U Q.
Proof.
  intros Ha Hh Hlk HQ. unfold qCoro_helper. apply cspec_good. intros (Hcl0 & _).
  apply (cspec_step denv s0 (with_helper h s0) _ (λ k, WAwait MQueued FromHelper to (λ r, WDrop (k r))) []); [..|apply inside_nil|]; try done.
  { intros (_ & Hu & _) k. by apply with_helper_step. }
  { intros (? & ? & ?). split; [by apply with_helper_clean|done]. }
  apply (cspec_helper_await denv h); [by apply hready_new|done|]. intros v l s2 Hw Hh2 Hhi Hb. rewrite app_nil_r. apply HQ; [by eapply waited_with_helper|done|done].
Qed.
End call.
