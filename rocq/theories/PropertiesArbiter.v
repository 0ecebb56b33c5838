(** Property theorems about rtic-sync's Arbiter: C31-C33 (and C49 for access).
    Vocabulary: ArbiterSpec.v.  [areach v s]: [s] is reached from a new arbiter by some schedule of any number
    of clients, one critical section at a time. *)
From Verif Require Import Base LTS ArbiterModel ArbiterSpec ArbiterProofs.
From Coq Require Import Sorted.
Set Implicit Arguments.

Section Arb.
Context {V : Type}.
Implicit Types (s : @arb V) (j k : nat).

(** * C31 In the log of the arbiter every grant happens when no guard exists and every guard is released by
    its owner; the clients holding a guard are exactly the owner the log shows. *)
Theorem C31_one_guard_at_a_time :
  forall v s, areach v s -> exists o, guard_history (alog s) o /\ forall j, holds s j <-> o = Some j.
Proof. intros v s Hr. exact (I_gh (AInv_reach Hr)). Qed.

Theorem C31_mutual_exclusion :
  forall v s i j, areach v s -> has_it s i -> has_it s j -> i = j.
Proof. intros v s i j Hr. apply (I_one (AInv_reach Hr)). Qed.

(** The value is written only through the guard. *)
Theorem C31_only_the_holder_writes :
  forall v s l s', areach v s -> astep s l = Some s' -> inner s' <> inner s ->
  exists j x, l = ASet j x /\ holds s j /\ inner s' = x /\ forall k, holds s k -> k = j.
Proof.
  intros v s l s' Hr Hs Hne.
  assert (Hi : forall j, inner (remove_link s j) = inner s) by (intros j; unfold remove_link; destruct (a_link (cl s j)); reflexivity).
  destruct l as [j|j w|j|j|j|j|j x]; simpl in Hs; destruct (a_pc (cl s j)) eqn:Ep; try discriminate; injection Hs as <-;
    try (exfalso; apply Hne; simpl; auto; fail).
  - exfalso. apply Hne. unfold do_poll. destruct (_ && _)%bool; [reflexivity|]. destruct (a_link (cl s j)); reflexivity.
  - exfalso. apply Hne. unfold do_try. destruct (_ && _)%bool; reflexivity.
  - exfalso. apply Hne. unfold do_release. simpl. destruct (awq s); reflexivity.
  - exists j, x. repeat split; auto. intros k Hk. apply (I_one (AInv_reach Hr)); [now left|left; exact Ep].
Qed.

(** * C32 Tickets are given in the order of starting to wait and guards in ticket order. *)
Theorem C32_first_come_first_served :
  forall v s, areach v s -> waits (alog s) = seq 0 (aseq s) /\ StronglySorted lt (granted (alog s)).
Proof. intros v s Hr. pose proof (AInv_reach Hr) as H. split; [exact (I_ws H)|exact (I_gs H)]. Qed.

(** Nobody overtakes a waiting client: whoever obtains the arbiter while [j] waits was itself waiting, at the
    head of the queue, with a ticket not above that of [j], and is woken. *)
Theorem C32_no_overtaking :
  forall v s l s' j k, areach v s -> astep s l = Some s' -> waiting s j -> ~ has_it s k -> has_it s' k ->
  waiting s k /\ (exists nk nj, a_seq (cl s k) = Some nk /\ a_seq (cl s j) = Some nj /\ nk <= nj) /\ a_woken (cl s' k) = true.
Proof.
  intros v s l s' j k Hr Hs [Hw Hl] Hn Hk. pose proof (AInv_reach Hr) as H.
  destruct (acquire l H Hs Hn Hk) as [[E _]|(q & E & Hwk)].
  - apply (I_in H) in Hl. rewrite E in Hl. destruct Hl.
  - assert (Hkl : a_link (cl s k) = KQueued) by (apply (I_in H); rewrite E; now left).
    split; [split; [now apply (I_q H)|exact Hkl]|]. split; [|exact Hwk].
    destruct (I_some H k) as (nk & Ek & _); [congruence|]. destruct (I_some H j) as (nj & Ej & _); [congruence|].
    exists nk, nj. repeat split; auto. pose proof (I_sorted H) as Hsrt. rewrite E in Hsrt. inversion Hsrt as [|? ? _ Hf]; subst.
    apply (I_in H) in Hl. rewrite E in Hl. destruct Hl as [->|Hl]; [rewrite Ek in Ej; injection Ej as ->; lia|].
    rewrite Forall_forall in Hf. specialize (Hf j Hl). unfold tk in Hf. rewrite Ek, Ej in Hf. lia.
Qed.

(** try_access fails whenever somebody waits or has the arbiter. *)
Theorem C32_try_access_never_barges :
  forall v s j s', areach v s -> (exists k, waiting s k \/ has_it s k) -> astep s (ATry j) = Some s' -> alog s' = alog s ++ [GNone j].
Proof.
  intros v s j s' Hr [k Hk] Hs. pose proof (AInv_reach Hr) as H. simpl in Hs. destruct (a_pc (cl s j)); try discriminate. injection Hs as <-.
  unfold do_try. destruct (queue_empty s && negb (taken s))%bool eqn:Ec; [|reflexivity]. exfalso.
  apply andb_true_iff in Ec as [_ E2]. apply negb_true_iff in E2. destruct (I_free H E2) as [Hq Hn].
  destruct Hk as [[_ Hk]|Hk]; [|exact (Hn k Hk)]. apply (I_in H) in Hk. rewrite Hq in Hk. destruct Hk.
Qed.

(** * C33 *)
(** When it is free, try_access and access succeed. *)
Theorem C33_free_is_available_partial :
  forall v s j w, areach v s -> taken s = false -> a_pc (cl s j) = AIdle ->
  (exists s', astep s (ATry j) = Some s' /\ holds s' j) /\
  (exists s', run astep s [AAccess j; APoll j w; AFinish j] = Some s' /\ holds s' j).
Proof.
  intros v s j w Hr Ht Hp. pose proof (AInv_reach Hr) as H. destruct (I_free H Ht) as [Hq _]. split.
  - simpl. rewrite Hp. unfold do_try, queue_empty. rewrite Hq, Ht. eexists; split; [reflexivity|]. unfold holds. simpl. now rewrite upd_same.
  - simpl. rewrite Hp. simpl. rewrite upd_same. simpl. unfold do_poll, queue_empty. simpl. rewrite Hq, Ht. simpl. rewrite upd_same. simpl.
    unfold set_apc. simpl. rewrite !upd_same. simpl. eexists; split; [reflexivity|]. unfold holds. simpl. now rewrite upd_same.
Qed.

(** A client handed the arbiter while waiting has been woken, and gets its guard when polled. *)
Theorem C33_handed_is_woken_partial :
  forall v s j w, areach v s -> a_pc (cl s j) = AWait -> a_link (cl s j) = KPopped ->
  a_woken (cl s j) = true /\ exists s', run astep s [APoll j w; AFinish j] = Some s' /\ holds s' j.
Proof.
  intros v s j w Hr Hp Hl. pose proof (AInv_reach Hr) as H. split; [now apply (I_p H)|].
  simpl. rewrite Hp. unfold do_poll.
  assert (E : (queue_empty s && negb (taken s))%bool = false).
  { destruct (taken s) eqn:Et; [apply andb_false_r|]. exfalso. apply (proj2 (I_free H Et) j). right. right. auto. }
  rewrite E, Hl. unfold set_apc. simpl. rewrite upd_same. simpl. eexists; split; [reflexivity|]. unfold holds. simpl. now rewrite upd_same.
Qed.

(** If no future is dropped between being handed the arbiter and its next poll, the arbiter is never lost. *)
Theorem C33_never_lost_partial :
  forall v s, greach astep (fun s l => match l with ACancel j => a_link (cl s j) <> KPopped | _ => True end) (arb_new v) s ->
  taken s = false \/ exists j, has_it s j.
Proof.
  intros v s Hr. destruct (taken s) eqn:E; [right|now left]. eapply owned_reach; [exact Hr|exact E].
Qed.

(** Otherwise it can be, for ever: nobody is granted the arbiter any more. *)
Theorem C33_lost_for_ever_refuted :
  forall v s ls s', areach v s -> lost s -> run astep s ls = Some s' ->
  filter (fun e => match e with GGrant _ _ => true | _ => false end) (alog s') =
  filter (fun e => match e with GGrant _ _ => true | _ => false end) (alog s).
Proof.
  intros v s ls s' Hr [Ht [_ Hn]]. pose proof (AInv_reach Hr) as H. assert (Hst : stuck s) by (split; auto). clear Ht Hn Hr.
  revert s H Hst. induction ls as [|l ls IH]; simpl; intros s H Hst Hrun; [now injection Hrun as <-|].
  destruct (astep s l) as [s1|] eqn:E; [|discriminate]. destruct (stuck_step l H Hst E) as [Hst1 <-]. apply IH; auto. eapply AInv_step; eauto.
Qed.
End Arb.

Print Assumptions C31_one_guard_at_a_time.
Print Assumptions C31_mutual_exclusion.
Print Assumptions C31_only_the_holder_writes.
Print Assumptions C32_first_come_first_served.
Print Assumptions C32_no_overtaking.
Print Assumptions C32_try_access_never_barges.
Print Assumptions C33_free_is_available_partial.
Print Assumptions C33_handed_is_woken_partial.
Print Assumptions C33_never_lost_partial.
Print Assumptions C33_lost_for_ever_refuted.

(** * Concrete cases *)
(** 0 has the guard; 1 and 2 wait; 0 releases; 1 gets it. *)
Example C31_case : exists s,
  run astep (arb_new 5) [ATry 0; AAccess 1; APoll 1 50; AAccess 2; APoll 2 60; ASet 0 9; ARelease 0; APoll 1 50; AFinish 1] = Some s /\
  holds s 1 /\ waiting s 2 /\ inner s = 9 /\
  alog s = [GGrant 0 None; GWait 1 0; GWait 2 1; GRelease 0; GWake 1 50; GGrant 1 (Some 0)].
Proof. eexists. split; [vm_compute; reflexivity|]. vm_compute. repeat split. Qed.

Example C32_case : exists s s',
  run astep (arb_new 5) [ATry 0; AAccess 1; APoll 1 50; AAccess 2; APoll 2 60] = Some s /\ astep s (ARelease 0) = Some s' /\
  waiting s 2 /\ ~ has_it s 1 /\ has_it s' 1.
Proof.
  do 2 eexists. split; [vm_compute; reflexivity|]. split; [vm_compute; reflexivity|]. vm_compute. split; [auto|]. split; [intuition discriminate|auto].
Qed.

(** Client 1 is handed the arbiter and its future is dropped before it is polled (e.g. by [select]): the
    arbiter is lost although client 2 still wants it. *)
Theorem C33_cancel_after_handover_refuted :
  exists s, areach 5 s /\ lost s /\
    (exists s', run astep s [AAccess 2; APoll 2 60] = Some s' /\ waiting s' 2) /\
    alog s = [GGrant 0 None; GWait 1 0; GRelease 0; GWake 1 50; GCancel 1].
Proof.
  destruct (run astep (arb_new 5) [ATry 0; AAccess 1; APoll 1 50; ARelease 0; ACancel 1]) as [s|] eqn:E; [|vm_compute in E; discriminate].
  exists s. split; [eexists; exact E|]. vm_compute in E. injection E as <-. split.
  - split; [reflexivity|]. split; [reflexivity|]. intros j. unfold has_it, holds. simpl.
    destruct j as [|[|j]]; simpl; intuition congruence.
  - split; [|reflexivity]. eexists. split; [vm_compute; reflexivity|]. vm_compute. auto.
Qed.
Print Assumptions C33_cancel_after_handover_refuted.

(** * C49 (access): polled with waker 50, then with waker 51, the future is woken through waker 50. *)
Theorem C49_access_newest_waker_refuted :
  exists s, areach 5 s /\ alog s = [GGrant 0 None; GWait 1 0; GRelease 0; GWake 1 50] /\
    exists s0, run astep (arb_new 5) [ATry 0; AAccess 1; APoll 1 50; APoll 1 51] = Some s0 /\ astep s0 (ARelease 0) = Some s.
Proof.
  destruct (run astep (arb_new 5) [ATry 0; AAccess 1; APoll 1 50; APoll 1 51; ARelease 0]) as [s|] eqn:E; [|vm_compute in E; discriminate].
  exists s. split; [eexists; exact E|]. vm_compute in E. injection E as <-. split; [reflexivity|].
  eexists. split; [vm_compute; reflexivity|]. vm_compute. reflexivity.
Qed.
Print Assumptions C49_access_newest_waker_refuted.
