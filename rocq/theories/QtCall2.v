(** * More proof rules for wrapper functions: calls that emit signals, waits in terms of QtSpec, loops. *)
From stdpp Require Import list.
From Verif Require Import QtModel QtSpec QtInv QtAwait QtReach QtWrap QtTrace QtBehave QtCall QtEnds.

Section call2.
Context {D S P O A : Type}.
Notation wstate := (@wstate D S P O A).
Notation wprog := (@wprog D S P O).
Notation tev := (@tev D S P O A).
Notation src := (@src S P).
#[local] Arguments slots : simpl never.
#[local] Arguments emissions : simpl never.
#[local] Arguments relays : simpl never.

Lemma destroy_dec (l : list tev) : TDestroy ∈ l ∨ TDestroy ∉ l.
Proof.
  induction l as [|e l [IH|IH]]; [right; by intros ?%elem_of_nil|left; by right|].
  destruct e; try (right; intros [?|?]%elem_of_cons; done). left. left.
Qed.
Lemma dead_destroyed (s : wstate) (l : list tev) al : (TDestroy ∉ l -> walive s = al) -> al = true -> walive s = false -> TDestroy ∈ l.
Proof. intros H -> Hs. destruct (destroy_dec l) as [?|Hn]; [done|]. rewrite H in Hs; done. Qed.

(** ** Calls into the object that emit signals, no helper being around *)
Definition wlogs (l : list tev) (s : wstate) : wstate :=
  WState (wdev s) (walive s) (wco s) (waw s) (whelp s) (wleak s) (wposted s) (wshots s) (wtodo s) (wnow s) (wnext s) (l ++ wtrace s) (wubs s).
Definition emitted_by (ems : list (S * P)) : list tev := reverse (map (λ e, TEmit (fst e) (snd e)) ems).
Lemma emits_logged ems : ∀ s : wstate, waw s = None -> whelp s = None -> noleak s -> foldl (λ s e, emit (fst e) (snd e) s) s ems = wlogs (emitted_by ems) s.
Proof.
  induction ems as [|[sg p] ems IH]; intros s Ha Hh Hl.
  - by destruct s.
  - cbn [foldl fst snd]. assert (emit sg p s = wlog (TEmit sg p) s) as ->.
    { unfold emit. rewrite Hl. unfold helper_slot. change (whelp (wlog (TEmit sg p) s)) with (whelp s). rewrite Hh. change (waw (wlog (TEmit sg p) s)) with (waw s). by rewrite Ha. }
    rewrite IH by done. unfold emitted_by. cbn [map fst snd]. rewrite reverse_cons. unfold wlogs. rewrite <- app_assoc. done.
Qed.
Lemma inside_emitted ems d : inside (emitted_by ems ++ [TDev d]).
Proof.
  apply inside_app; [|apply inside_cons; [done|apply inside_nil]]. intros e. unfold emitted_by. rewrite elem_of_reverse. intros ([??] & -> & _)%elem_of_list_fmap. done.
Qed.
Lemma emitted_nodestroy ems d : TDestroy ∉ emitted_by ems ++ [TDev d].
Proof.
  intros [He|[? | ?%elem_of_nil]%elem_of_cons]%elem_of_app; try done. unfold emitted_by in He. rewrite elem_of_reverse in He. by apply elem_of_list_fmap in He as ([??] & ? & _).
Qed.
Lemma dev_after_emitted ems d d0 : dev_after d0 (emitted_by ems ++ [TDev d]) = d.
Proof.
  rewrite dev_after_app. cbn. unfold emitted_by. induction ems as [|[sg p] ems IH] using rev_ind; [done|].
  rewrite map_app, reverse_app. cbn. done.
Qed.
Lemma elapsed_emitted ems d : elapsed (emitted_by ems ++ [TDev d]) = 0.
Proof.
  rewrite elapsed_app. cbn. unfold emitted_by. induction ems as [|[sg p] ems IH] using rev_ind; [done|].
  rewrite map_app, reverse_app. cbn. done.
Qed.

Lemma cspec_call_emits {B} denv s0 c (f : D -> (B -> wprog A) -> wprog A) (U : wub -> list tev -> Prop) Q : walive s0 = true -> whelp s0 = None ->
  let d1 := fst (c (wdev s0)) in let l0 := emitted_by (snd (c (wdev s0))) ++ [TDev d1] in
  cspec denv (wlogs l0 (set_dev d1 s0)) (f (wdev s0)) (λ u l', U u (l' ++ l0)) (λ b l' s3, Q b (l' ++ l0) s3) ->
  cspec denv s0 (λ k, WCall c (λ d, f d k)) U Q.
Proof.
  intros Ha Hh d1 l0 H. eapply cspec_step; [..|exact H]; try done.
  - intros (Hcl & Hu & Hl) k. unfold step. cbn. rewrite Hu, Ha. rewrite emits_logged; [|apply Hcl|done|done].
    unfold wlogs, l0, d1. cbn. rewrite <- app_assoc. done.
  - intros [[] [? ?]]. split; [split|]; done.
  - apply inside_emitted.
Qed.

(** ** Waits *)
Lemma waited_helper h to (s0 s : wstate) l v : waited FromHelper to s0 s l v -> helper_hist h (wdev s0) l -> helper_wait h (wdev s0) to (TResume v :: l ++ [TSusp FromHelper to]) v.
Proof.
  intros [] Hh. exists l. split; [done|]. split; [done|]. destruct v as [p|].
  - destruct wd_res as [Hhd _]. split; [by apply hist_relay|]. intros Hd. by rewrite <- (direct_hist h (wdev s0) l Hd Hh).
  - destruct wd_res as (n & l' & ? & ? & ? & _). eauto.
Qed.
Lemma waited_signal m to (s0 s : wstate) l v : waited (FromDev m) to s0 s l v -> signal_wait m to (TResume v :: l ++ [TSusp (FromDev m) to]) v.
Proof.
  intros []. exists l. split; [done|]. split; [done|]. destruct v as [p|].
  - by destruct wd_res.
  - destruct wd_res as (n & l' & ? & ? & ? & _ & ?). by exists n, l'.
Qed.

(** The object after a piece of history. *)
Record kept (s0 s : wstate) (l : list tev) : Prop := Kept {
  ke_dev : wdev s = dev_after (wdev s0) l; ke_alive : TDestroy ∉ l -> walive s = walive s0; ke_dead : TDestroy ∈ l -> walive s = false;
  ke_now : wnow s = wnow s0 + elapsed l; ke_help : whelp s0 = None -> whelp s = None }.
Lemma kept_refl (s0 : wstate) c : kept s0 (set_co c s0) [].
Proof. split; try done; cbn; try lia. by intros ?%elem_of_nil. Qed.
Lemma kept_trans (s0 s1 s2 : wstate) l1 l2 : kept s0 s1 l1 -> kept s1 s2 l2 -> (TDestroy ∈ l1 -> walive s2 = false) -> kept s0 s2 (l2 ++ l1).
Proof.
  intros [] [] Hd. split.
  - rewrite ke_dev1, ke_dev0. by rewrite dev_after_app.
  - intros Hn. rewrite ke_alive1; [apply ke_alive0|]; intros ?; apply Hn; apply elem_of_app; auto.
  - intros [?|?]%elem_of_app; auto.
  - rewrite ke_now1, ke_now0, elapsed_app. lia.
  - auto.
Qed.
Lemma kept_app (s0 s1 s2 : wstate) l1 l2 : kept s0 s1 l1 -> kept s1 s2 l2 -> walive s1 = true ∨ walive s2 = false -> kept s0 s2 (l2 ++ l1).
Proof.
  intros H1 H2 H. eapply kept_trans; [done|done|]. intros Hd. destruct H; [|done]. rewrite (ke_dead _ _ _ H1 Hd) in *. done.
Qed.

Lemma waited_kept (c : src) to (s0 s : wstate) l v : waited c to s0 s l v -> kept s0 s (TResume v :: l ++ [TSusp c to]).
Proof.
  intros []. split.
  - rewrite wd_dev. cbn. by rewrite dev_after_app.
  - intros Hn. apply wd_alive. intros ?. apply Hn. right. apply elem_of_app. by left.
  - intros [?|[?|[? | ?%elem_of_nil]%elem_of_cons]%elem_of_app]%elem_of_cons; auto; done.
  - rewrite wd_now. cbn. rewrite elapsed_app. cbn. lia.
  - done.
Qed.

Lemma behaves_wait denv (d : D) (c : src) to v (l : list tev) : behaves denv d l -> behaves denv d (TResume v :: l ++ [TSusp c to]).
Proof.
  intros H. change (TResume v :: l ++ [TSusp c to]) with ([TResume v] ++ (l ++ [TSusp c to])). apply behaves_app; [|apply behaves_app].
  - apply behaves_nodev. intros d' [?|?%elem_of_nil]%elem_of_cons; done.
  - cbn. done.
  - apply behaves_nodev. intros d' [?|?%elem_of_nil]%elem_of_cons; done.
Qed.

Lemma hist_wait denv (s0 s : wstate) (c : src) to v (l : list tev) : hist denv s0 s l -> hist denv s0 s (TResume v :: l ++ [TSusp c to]).
Proof.
  intros [Hb Hp]. split; [by apply behaves_wait|]. intros Ht. destruct (Hp Ht) as [H ?]. split; [|done]. apply plays_other; [|done].
  clear -H. induction H; cbn [app]; [|apply plays_dev; [done|by rewrite dev_after_app]|by apply plays_emit|by apply plays_other]. apply plays_other; [constructor|done].
Qed.

(** Waiting for a helper, in terms of QtSpec. *)
Lemma cspec_helper_wait denv h to s0 U (Q : option P -> list tev -> wstate -> Prop) : walive s0 = true -> whelp s0 = None -> (∀ x, leaky h x = false) ->
  (∀ v l s2, helper_wait h (wdev s0) to l v -> kept s0 s2 l -> (calm h -> hist denv s0 s2 l) -> Q v l s2) ->
  cspec denv s0 (λ k, qCoro_helper h to k) U Q.
Proof.
  intros Ha Hh Hl HQ. apply cspec_helper; try done. intros v l s2 Hw Hhi Hb. apply HQ; [by eapply waited_helper|by apply waited_kept|]. intros Hc. by apply hist_wait, Hb.
Qed.
Lemma cspec_signal_wait denv m to s0 U (Q : option P -> list tev -> wstate -> Prop) : walive s0 = true ->
  (∀ v l s2, signal_wait m to l v -> kept s0 s2 l -> (whelp s0 = None -> behaves denv (wdev s0) l) -> Q v l s2) ->
  cspec denv s0 (λ k, qCoro_timeout m to k) U Q.
Proof.
  intros Ha HQ. apply cspec_await; [done|by intros []|]. intros v l s2 Hw Hb. apply HQ; [by eapply waited_signal|by apply waited_kept|].
  intros Hh. apply behaves_wait, Hb. intros i h live E. congruence.
Qed.

(** ** Loops *)
Lemma cspec_loop {X B} denv (p : X -> (B -> wprog A) -> wprog A) (body : X -> ((X + B) -> wprog A) -> wprog A)
    (U : wub -> list tev -> Prop) (Q : B -> list tev -> wstate -> Prop) (Inv : X -> list tev -> wstate -> Prop) :
  (∀ x k, p x k = body x (λ r, match r with inl x' => p x' k | inr b => k b end)) ->
  (∀ x l s, good s -> Inv x l s -> inside l ->
     cspec denv s (p x) (λ u l', U u (l' ++ l)) (λ b l' s', Q b (l' ++ l) s') ∨
     cspec denv s (body x) (λ u l', U u (l' ++ l)) (λ r l' s', match r with inl x' => l' ≠ [] ∧ Inv x' (l' ++ l) s' | inr b => Q b (l' ++ l) s' end)) ->
  ∀ x l s, Inv x l s -> inside l -> cspec denv s (p x) (λ u l', U u (l' ++ l)) (λ b l' s', Q b (l' ++ l) s').
Proof.
  intros Heq Hstep.
  assert (Hmain : ∀ n x l s0 k s, length (wtrace s) ≤ n + length (wtrace s0) -> good s0 -> Inv x l s0 -> inside l -> exec denv (set_co (CRun (p x k)) s0) s ->
    (∃ l', wtrace s = l' ++ wtrace s0 ∧ inside l' ∧ ∀ u, wubs s = Some u -> U u (l' ++ l)) ∨
    (∃ s2 l' b, exec denv (set_co (CRun (p x k)) s0) s2 ∧ exec denv s2 s ∧ wco s2 = CRun (k b) ∧ good s2 ∧ wtrace s2 = l' ++ wtrace s0 ∧ inside l' ∧ Q b (l' ++ l) s2)).
  { induction n as [|n IH]; intros x l s0 k s Hn Hg Hi Hin Hx; destruct (Hstep x l s0 Hg Hi Hin) as [H|H]; try (by apply (H Hg k s Hx)).
    - rewrite Heq in Hx |- *. destruct (H Hg _ s Hx) as [?|(s2 & l' & [x'|b] & Hx1 & Hx2 & Hc & Hg2 & Ht & Hin' & HQ)]; [by left| |].
      + exfalso. destruct HQ as [Hne _]. destruct (exec_grows _ _ _ Hx2) as [l2 Hl2]. rewrite Hl2, Ht, !app_length in Hn. destruct l'; [done|]. cbn in Hn. lia.
      + right. by exists s2, l', b.
    - rewrite Heq in Hx |- *. destruct (H Hg _ s Hx) as [?|(s2 & l' & [x'|b] & Hx1 & Hx2 & Hc & Hg2 & Ht & Hin' & HQ)]; [by left| |].
      + destruct HQ as [Hne Hi']. rewrite (set_co_same _ _ Hc) in Hx2. destruct (IH x' (l' ++ l) s2 k s) as [(l2 & Ht2 & Hin2 & HU)|(s3 & l2 & b & Hy1 & Hy2 & Hc3 & Hg3 & Ht3 & Hin3 & HQ3)]; try done.
        * rewrite Ht, app_length. destruct l'; [done|]. cbn in *. lia.
        * by apply inside_app.
        * left. exists (l2 ++ l'). rewrite Ht2, Ht. split; [by rewrite <- app_assoc|]. split; [by apply inside_app|]. intros u Hu. rewrite <- app_assoc. by apply HU.
        * right. exists s3, (l2 ++ l'), b. split; [eapply exec_trans; [exact Hx1|]; by rewrite (set_co_same _ _ Hc)|]. split; [done|]. split; [done|]. split; [done|].
          split; [rewrite Ht3, Ht; by rewrite <- app_assoc|]. split; [by apply inside_app|]. by rewrite <- app_assoc.
      + right. by exists s2, l', b. }
  intros x l s0 Hi Hin Hg k s Hx. eapply (Hmain (length (wtrace s))); try done. lia.
Qed.
End call2.
