(** * C109: when waitForReadyRead() ends and what it says, exactly (see C46 for the violation). *)
From stdpp Require Import list.
From Coq Require Import ZArith.
From Verif Require Import TaskRun.
From Verif Require Import QtModel QtSpec QtInv QtAwait QtReach QtWrap QtTrace QtBehave QtCall QtEnds QtCall2 QtEnds2 QtObj QtIO QtIOSpec QtIOFacts QtIOEnds PropsSignal PropsIO.

(** ** C109: waitForReadyRead(), exactly *)
Section ready.
Context {O A : Type}.
Notation wstate := (@wstate qobj sig arg O A).
Notation wprog := (@wprog qobj sig arg O A).
(** It answers as [ready_read] says: false at once if the device is not readable; true at once if there is data, or nothing to wait for; else true by the first of the signals that
    wake it up, false by the timeout, not before it. *)
Theorem C109_ready_read denv (s0 : wstate) c to :
  reach denv s0 -> wubs s0 = None -> noleak s0 -> walive s0 = true -> whelp s0 = None ->
  call_spec denv s0 (λ k : bool -> wprog, waitForReadyRead c to k) (λ _ _, False) (λ b l s, ready_read c (wdev s0) to b l ∧ wdev s = dev_after (wdev s0) l).
Proof. exact (C46_ready_read_partial denv s0 c to). Qed.
(** It ends by the first such signal, and by the timeout. *)
Theorem C109_ends denv (s0 : wstate) c to :
  reach denv s0 -> wubs s0 = None -> noleak s0 -> walive s0 = true -> whelp s0 = None ->
  call_ends denv s0 (λ k : bool -> wprog, waitForReadyRead c to k) (λ l, (∃ sg a, TEmit sg a ∈ l ∧ wakes_read c sg a) ∨ ∃ n, to = Some n ∧ n ≤ elapsed l).
Proof. exact (C46_ends denv s0 c to). Qed.
(** If it suspends and answers true with a plain device, then readyRead or aboutToClose was emitted meanwhile. *)
Theorem C109_true_means_signal denv (s0 : wstate) to :
  reach denv s0 -> wubs s0 = None -> noleak s0 -> walive s0 = true -> whelp s0 = None ->
  call_spec denv s0 (λ k : bool -> wprog, waitForReadyRead IODevice to k) (λ _ _, False)
    (λ b l s, b = true -> (l = [] ∧ o_data (wdev s0) ≠ []) ∨ ∃ a, TEmit ReadyRead a ∈ l ∨ TEmit AboutToClose a ∈ l).
Proof.
  intros H1 H2 H3 H4 H5 k s Hc Hx. destruct (C46_ready_read_partial denv s0 IODevice to H1 H2 H3 H4 H5 k s Hc Hx) as [H|(s2 & l & b & E1 & E2 & E3 & E4 & E5 & E6 & Hq & _)]; [by left|].
  right. exists s2, l, b. do 6 (split; [done|]). intros ->. inversion Hq as [|? ?|? ? [] ?|? ? ? ?|?|v lw sg a ? ? ? He]; subst; try done; [by left|].
  right. destruct He as (l1 & l2 & -> & Hw & _). exists a. destruct sg; try done; [left|right|naive_solver..]; right; apply elem_of_app; left; apply elem_of_app; right; left.
Qed.
End ready.
Print Assumptions C109_ready_read.
Print Assumptions C109_ends.
Print Assumptions C109_true_means_signal.
Example ex_C109 : let s0 : @wstate qobj sig arg bool unit := winit device true (prog46 IODevice) in let s := wplay 20 [EvDev (with_data [1; 2]) [(ReadyRead, ANone)]; EvPosted] s0 in
  reach anything s0 ∧ wubs s0 = None ∧ noleak s0 ∧ walive s0 = true ∧ whelp s0 = None ∧ exec anything s0 s ∧
  wtrace s = [TRet tt; TObs true; TResume (Some (ABool true)); TReady (ABool true); TEmit ReadyRead ANone; TDev (with_data [1; 2]); TSusp FromHelper None].
Proof.
  cbv zeta. split; [apply (wplay_reach anything 0 []); allowed|]. split; [done|]. split; [done|]. split; [done|]. split; [done|].
  split; [apply wplay_exec; [allowed|constructor]|]. vm_compute; reflexivity.
Qed.
