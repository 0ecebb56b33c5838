(** Slot ownership in the channel model: every slot is in exactly one place, and slots hold values
    exactly when they should; consequently no debug_assert of the code can fail and no uninitialised
    slot is ever read. *)
From Verif Require Import Base LTS WakerRegModel ChannelModel ChannelSpec ChannelInv.
Set Implicit Arguments.

(** * Abstract ownership with a ghost map *)
Inductive place := PFree | PReady | PH (j : nat) | PR | PTok.

Record Own (wh : nat -> place) (fq rq : list nat) (hh : nat -> option nat) (rh : option nat) : Prop := {
  O_ndf : NoDup fq;
  O_ndr : NoDup rq;
  O_f : forall x, In x fq <-> wh x = PFree;
  O_r : forall x, In x rq <-> wh x = PReady;
  O_h : forall j x, hh j = Some x <-> wh x = PH j;
  O_v : forall x, rh = Some x <-> wh x = PR
}.

Lemma Own_ext wh fq rq hh rh fq' rq' hh' rh' :
  Own wh fq rq hh rh -> fq' = fq -> rq' = rq -> (forall j, hh' j = hh j) -> rh' = rh -> Own wh fq' rq' hh' rh'.
Proof. intros [H1 H2 H3 H4 H5 H6] -> -> E ->. constructor; auto. intros j x. rewrite E. auto. Qed.

Ltac uq := unfold upd; repeat match goal with |- context [Nat.eqb ?a ?b] => destruct (Nat.eqb_spec a b); subst end.

Section Moves.
Variables (wh : nat -> place) (fq rq : list nat) (hh : nat -> option nat) (rh : option nat).
Hypothesis HO : Own wh fq rq hh rh.

Lemma in_rm_last (l : list nat) x : NoDup l -> l <> [] -> In x (removelast l) <-> In x l /\ x <> last l 0.
Proof.
  intros Hn Hne. destruct (exists_last Hne) as (l' & y & ->). rewrite removelast_last, last_last.
  apply NoDup_app_inv in Hn as (H1 & _ & H3). rewrite in_app_iff; simpl. split.
  - intros Hi. split; [auto|]. intros ->. apply (H3 y); simpl; auto.
  - intros [[?|[->|[]]] ?]; [auto|congruence].
Qed.

Lemma NoDup_removelast (l : list nat) : NoDup l -> NoDup (removelast l).
Proof.
  destruct l as [|y l] using rev_ind; [auto|]. rewrite removelast_last. intros H. now apply NoDup_app_inv in H.
Qed.

Lemma take_f x q : fq = x :: q -> wh x = PFree /\ Own (upd wh x PTok) q rq hh rh.
Proof.
  intros E. destruct HO as [H1 H2 H3 H4 H5 H6]. subst fq. assert (Hx : wh x = PFree) by (apply H3; now left).
  inversion H1 as [|? ? Hni Hnd]; subst. split; [exact Hx|]. constructor; auto; intros.
  - uq; [split; [contradiction|discriminate]|]. rewrite <- H3; simpl. intuition congruence.
  - rewrite H4. uq; [rewrite Hx; split; discriminate|tauto].
  - rewrite H5. uq; [rewrite Hx; split; discriminate|tauto].
  - rewrite H6. uq; [rewrite Hx; split; discriminate|tauto].
Qed.

Lemma take_f_last : fq <> [] -> wh (last fq 0) = PFree /\ Own (upd wh (last fq 0) PTok) (removelast fq) rq hh rh.
Proof.
  intros E. destruct HO as [H1 H2 H3 H4 H5 H6].
  assert (Hx : wh (last fq 0) = PFree).
  { apply H3. destruct (exists_last E) as (l' & y & ->). rewrite last_last, in_app_iff. simpl. auto. }
  split; [exact Hx|]. constructor; auto; intros.
  - now apply NoDup_removelast.
  - rewrite in_rm_last by auto. rewrite H3. uq; [split; [tauto|discriminate]|tauto].
  - rewrite H4. uq; [rewrite Hx; split; discriminate|tauto].
  - rewrite H5. uq; [rewrite Hx; split; discriminate|tauto].
  - rewrite H6. uq; [rewrite Hx; split; discriminate|tauto].
Qed.

Lemma put_f x : wh x = PTok -> Own (upd wh x PFree) (fq ++ [x]) rq hh rh.
Proof.
  intros Hx. destruct HO as [H1 H2 H3 H4 H5 H6]. constructor; auto; intros.
  - apply NoDup_snoc; [auto|]. rewrite H3. congruence.
  - rewrite in_app_iff; simpl. uq; [tauto|]. rewrite H3. intuition congruence.
  - rewrite H4. uq; [rewrite Hx; split; discriminate|tauto].
  - rewrite H5. uq; [rewrite Hx; split; discriminate|tauto].
  - rewrite H6. uq; [rewrite Hx; split; discriminate|tauto].
Qed.

Lemma take_r x q : rq = x :: q -> wh x = PReady /\ Own (upd wh x PTok) fq q hh rh.
Proof.
  intros E. destruct HO as [H1 H2 H3 H4 H5 H6]. subst rq. assert (Hx : wh x = PReady) by (apply H4; now left).
  inversion H2 as [|? ? Hni Hnd]; subst. split; [exact Hx|]. constructor; auto; intros.
  - rewrite H3. uq; [rewrite Hx; split; discriminate|tauto].
  - uq; [split; [contradiction|discriminate]|]. rewrite <- H4; simpl. intuition congruence.
  - rewrite H5. uq; [rewrite Hx; split; discriminate|tauto].
  - rewrite H6. uq; [rewrite Hx; split; discriminate|tauto].
Qed.

Lemma take_r_last x : rq <> [] -> last rq 0 = x -> wh x = PReady /\ Own (upd wh x PTok) fq (removelast rq) hh rh.
Proof.
  intros E <-. destruct HO as [H1 H2 H3 H4 H5 H6].
  assert (Hx : wh (last rq 0) = PReady).
  { apply H4. destruct (exists_last E) as (l' & y & ->). rewrite last_last, in_app_iff. simpl. auto. }
  split; [exact Hx|]. constructor; auto; intros.
  - now apply NoDup_removelast.
  - rewrite H3. uq; [rewrite Hx; split; discriminate|tauto].
  - rewrite in_rm_last by auto. rewrite H4. uq; [split; [tauto|discriminate]|tauto].
  - rewrite H5. uq; [rewrite Hx; split; discriminate|tauto].
  - rewrite H6. uq; [rewrite Hx; split; discriminate|tauto].
Qed.

Lemma put_r x : wh x = PTok -> Own (upd wh x PReady) fq (rq ++ [x]) hh rh.
Proof.
  intros Hx. destruct HO as [H1 H2 H3 H4 H5 H6]. constructor; auto; intros.
  - apply NoDup_snoc; [auto|]. rewrite H4. congruence.
  - rewrite H3. uq; [rewrite Hx; split; discriminate|tauto].
  - rewrite in_app_iff; simpl. uq; [tauto|]. rewrite H4. intuition congruence.
  - rewrite H5. uq; [rewrite Hx; split; discriminate|tauto].
  - rewrite H6. uq; [rewrite Hx; split; discriminate|tauto].
Qed.

Lemma take_h j x hh' : hh j = Some x -> (forall k, hh' k = if Nat.eqb k j then None else hh k) ->
  wh x = PH j /\ Own (upd wh x PTok) fq rq hh' rh.
Proof.
  intros Hj Hh. destruct HO as [H1 H2 H3 H4 H5 H6]. assert (Hx : wh x = PH j) by (now apply H5).
  split; [exact Hx|]. constructor; auto; intros.
  - rewrite H3. uq; [rewrite Hx; split; discriminate|tauto].
  - rewrite H4. uq; [rewrite Hx; split; discriminate|tauto].
  - rewrite Hh. destruct (Nat.eqb_spec j0 j) as [->|Hne].
    + split; [discriminate|]. uq; [discriminate|]. intros E. apply H5 in E. congruence.
    + rewrite H5. uq; [rewrite Hx; split; [intros [= ->]; congruence|discriminate]|tauto].
  - rewrite H6. uq; [rewrite Hx; split; discriminate|tauto].
Qed.

Lemma put_h j x hh' : wh x = PTok -> hh j = None -> (forall k, hh' k = if Nat.eqb k j then Some x else hh k) ->
  Own (upd wh x (PH j)) fq rq hh' rh.
Proof.
  intros Hx Hj Hh. destruct HO as [H1 H2 H3 H4 H5 H6]. constructor; auto; intros.
  - rewrite H3. uq; [rewrite Hx; split; discriminate|tauto].
  - rewrite H4. uq; [rewrite Hx; split; discriminate|tauto].
  - rewrite Hh. destruct (Nat.eqb_spec j0 j) as [->|Hne].
    + split; [intros [= <-]; now rewrite upd_same|]. uq; [auto|]. intros E. apply H5 in E. congruence.
    + rewrite H5. uq; [rewrite Hx; split; [discriminate|intros [= ->]; congruence]|tauto].
  - rewrite H6. uq; [rewrite Hx; split; discriminate|tauto].
Qed.

Lemma take_v x : rh = Some x -> wh x = PR /\ Own (upd wh x PTok) fq rq hh None.
Proof.
  intros E. destruct HO as [H1 H2 H3 H4 H5 H6]. assert (Hx : wh x = PR) by (now apply H6).
  split; [exact Hx|]. constructor; auto; intros.
  - rewrite H3. uq; [rewrite Hx; split; discriminate|tauto].
  - rewrite H4. uq; [rewrite Hx; split; discriminate|tauto].
  - rewrite H5. uq; [rewrite Hx; split; discriminate|tauto].
  - split; [discriminate|]. uq; [discriminate|]. intros X. apply H6 in X. congruence.
Qed.

Lemma put_v x : rh = None -> wh x = PTok -> Own (upd wh x PR) fq rq hh (Some x).
Proof.
  intros E Hx. destruct HO as [H1 H2 H3 H4 H5 H6]. constructor; auto; intros.
  - rewrite H3. uq; [rewrite Hx; split; discriminate|tauto].
  - rewrite H4. uq; [rewrite Hx; split; discriminate|tauto].
  - rewrite H5. uq; [rewrite Hx; split; discriminate|tauto].
  - split; [intros [= <-]; now rewrite upd_same|]. uq; [auto|]. intros X. apply H6 in X. congruence.
Qed.
End Moves.

Section Own.
Context {V : Type} (N : nat).
Notation chan := (chan V).
Notation step := (@step V N).
Notation hst := (hst V).

Definition hcont (h : hst) : option V :=
  match h_pc h with FPush _ v => Some v | _ => None end.

Record InvO (s : chan) : Prop := {
  IO_own : exists wh, Own wh (freeq s) (readyq s) (fun j => hheld (hs s j)) (rheld (recv s)) /\
                      (forall x, N <= x -> wh x = PTok) /\
                      (forall x, x < N -> wh x = PTok -> rdropped s = true \/ recv s = RNone);
  IO_free : forall x, In x (freeq s) -> slots s x = None;
  IO_ready : forall x, In x (readyq s) -> slots s x <> None;
  IO_h : forall j x, hheld (hs s j) = Some x -> slots s x = hcont (hs s j);
  IO_recv : forall x, rheld (recv s) = Some x ->
              match recv s with RRet _ _ _ => slots s x = None | _ => slots s x <> None end
}.

Lemma InvO_new : InvO chan_new.
Proof.
  constructor; simpl; try tauto; try discriminate.
  exists (fun _ => PTok). split; [|split]; auto.
  constructor; simpl; try constructor; intros; try split; try tauto; try discriminate.
Qed.

Lemma InvO_frame (s s' : chan) :
  InvO s -> freeq s' = freeq s -> readyq s' = readyq s -> slots s' = slots s ->
  (forall j, hheld (hs s' j) = hheld (hs s j)) -> (forall j, hheld (hs s j) <> None -> hcont (hs s' j) = hcont (hs s j)) ->
  (recv s' = recv s \/ (rheld (recv s') = None /\ rheld (recv s) = None /\ recv s <> RNone)) ->
  (rdropped s = true -> rdropped s' = true) -> InvO s'.
Proof.
  intros [(wh & H1 & H2 & H3) H4 H5 H6 H7] E1 E2 E3 E4 E5 E6 E7. constructor.
  - exists wh. split; [|split; auto].
    + apply Own_ext with (1 := H1); auto. destruct E6 as [->|(-> & -> & _)]; auto.
    + intros x Hx Ht. destruct (H3 x Hx Ht) as [?|?]; auto. destruct E6 as [->|(_ & _ & ?)]; tauto.
  - rewrite E1, E3. auto.
  - rewrite E2, E3. auto.
  - intros j x. rewrite E4, E3. intros Hx. rewrite E5 by congruence. auto.
  - rewrite E3. destruct E6 as [->|(-> & _)]; [auto|discriminate].
Qed.

(** handle [j] gets state [h'], still holding the same slot *)
Lemma InvO_set_h (s : chan) j h' :
  InvO s -> hheld h' = hheld (hs s j) -> (hheld h' <> None -> hcont h' = hcont (hs s j)) -> InvO (set_h s j h').
Proof.
  intros H E1 E2. apply InvO_frame with (s := s); simpl; auto.
  - intros k. unfold upd. destruct (Nat.eqb_spec k j) as [->|]; auto.
  - intros k. unfold upd. destruct (Nat.eqb_spec k j) as [->|]; auto. rewrite <- E1. auto.
Qed.

Lemma InvO_emit (s : chan) e : InvO s -> InvO (emit s e).
Proof. intros H. apply InvO_frame with (s := s); auto. Qed.
Lemma InvO_bug (s : chan) b : InvO s -> InvO (set_bug s b).
Proof. intros H. apply InvO_frame with (s := s); auto. Qed.
Lemma InvO_wake (s : chan) : InvO s -> InvO (wake_receiver s).
Proof.
  intros H. destruct (wake_same s) as (E1 & E2 & E3 & E4 & E5 & E6 & E7 & _).
  apply InvO_frame with (s := s); auto; rewrite ?E2; auto; congruence.
Qed.
Lemma InvO_register (s : chan) w : InvO s -> InvO (register_receiver s w).
Proof.
  intros H. destruct (reg_same s w) as (E1 & E2 & E3 & E4 & E5 & E6 & E7 & _).
  apply InvO_frame with (s := s); auto; rewrite ?E2; auto; congruence.
Qed.

(** the weaker invariant in the middle of [return_slot]: slot [x] is in nobody's hands *)
Record InvOx (s : chan) (x : nat) : Prop := {
  X_own : exists wh, Own wh (freeq s) (readyq s) (fun j => hheld (hs s j)) (rheld (recv s)) /\
                      (forall x, N <= x -> wh x = PTok) /\ x < N /\ wh x = PTok /\
                      (forall y, y < N -> y <> x -> wh y = PTok -> rdropped s = true \/ recv s = RNone);
  X_free : forall x, In x (freeq s) -> slots s x = None;
  X_ready : forall x, In x (readyq s) -> slots s x <> None;
  X_h : forall j x, hheld (hs s j) = Some x -> slots s x = hcont (hs s j);
  X_recv : forall x, rheld (recv s) = Some x ->
              match recv s with RRet _ _ _ => slots s x = None | _ => slots s x <> None end;
  X_x : slots s x = None
}.

Lemma InvO_return (s : chan) x : InvL s -> InvOx s x -> InvO (return_slot N s x).
Proof.
  intros HL [(wh & H1 & H2 & H3 & H3' & H3'') H4 H5 H6 H7 H8]. unfold return_slot.
  destruct (wq s) as [|j q] eqn:Eq.
  - apply InvO_bug. constructor; simpl; auto.
    + exists (upd wh x PFree). split; [apply put_f; auto|]. split.
      * intros y Hy. rewrite upd_other by lia. auto.
      * intros y Hy. unfold upd. destruct (Nat.eqb_spec y x); [discriminate|]. intros; eapply H3''; eauto.
    + intros y Hy. apply in_app_iff in Hy as [Hy|[<-|[]]]; auto.
  - apply InvO_emit.
    assert (Hj : h_link (hs s j) = LQueued) by (apply (L_in HL); rewrite Eq; now left).
    pose proof (L_h HL j) as Hk. unfold hok in Hk.
    assert (Hs : hheld (hs s j) = None /\ hheld (mkH (h_pc (hs s j)) LPopped (Some x) (h_waker (hs s j)) true (h_seq (hs s j))) = Some x
                 /\ hcont (hs s j) = None).
    { unfold hheld, hcont; cbn. destruct (h_pc (hs s j)) as [| |v|v|v|v|d v|d v|y v|y v|v| |]; try (exfalso; destruct Hk; congruence).
      - destruct Hk as [_ Hk]. rewrite Hk; auto.
      - destruct d; [exfalso; destruct Hk; congruence| |]; rewrite Hk; try congruence; auto.
      - destruct d; [exfalso; destruct Hk; congruence| |]; exfalso; congruence. }
    destruct Hs as (Hs1 & Hs2 & Hs3).
    constructor; simpl; auto.
    + exists (upd wh x (PH j)). split; [|split].
      * apply put_h with (hh := fun j => hheld (hs s j)); auto. intros k. unfold upd. destruct (Nat.eqb_spec k j); auto.
      * intros y Hy. rewrite upd_other by lia. auto.
      * intros y Hy. unfold upd. destruct (Nat.eqb_spec y x); [discriminate|]. intros; eapply H3''; eauto.
    + intros k y. unfold upd. destruct (Nat.eqb_spec k j) as [->|]; [|auto]. rewrite Hs2. intros [= <-].
      unfold hcont in *. cbn. congruence.
Qed.

(** taking the slot out of a handle's hands; the handle's new state is [h'] *)
Lemma InvO_take_h (s : chan) j x h' :
  InvO s -> hheld (hs s j) = Some x -> hcont (hs s j) = None -> hheld h' = None -> InvOx (set_h s j h') x.
Proof.
  intros [(wh & H1 & H2 & H3) H4 H5 H6 H7] Hj Hc Hh.
  destruct (take_h H1 j (fun k => hheld (upd (hs s) j h' k)) Hj) as [Hw HO].
  { intros k. unfold upd. destruct (Nat.eqb_spec k j); auto. }
  assert (Hx : x < N) by (destruct (Nat.lt_ge_cases x N); [auto|]; rewrite H2 in Hw by auto; discriminate).
  constructor; simpl; auto.
  - exists (upd wh x PTok). split; [exact HO|]. split; [|split; [exact Hx|split; [apply upd_same|]]].
    + intros y Hy. unfold upd. destruct (Nat.eqb_spec y x); auto.
    + intros y Hy Hne. rewrite upd_other by auto. eauto.
  - intros k y. unfold upd. destruct (Nat.eqb_spec k j) as [->|]; [congruence|auto].
  - rewrite (H6 j x Hj). exact Hc.
Qed.

Lemma InvO_take_r (s : chan) w x v :
  InvO s -> recv s = RRet w x v -> InvOx (set_recv s RIdle) x.
Proof.
  intros [(wh & H1 & H2 & H3) H4 H5 H6 H7] Hr. rewrite Hr in *. simpl in *.
  destruct (take_v H1 eq_refl) as [Hw HO].
  assert (Hx : x < N) by (destruct (Nat.lt_ge_cases x N); [auto|]; rewrite H2 in Hw by auto; discriminate).
  constructor; simpl; auto.
  - exists (upd wh x PTok). split; [exact HO|]. split; [|split; [exact Hx|split; [apply upd_same|]]].
    + intros y Hy. unfold upd. destruct (Nat.eqb_spec y x); auto.
    + intros y Hy Hne. rewrite upd_other by auto. intros Hy'. destruct (H3 y Hy Hy'); auto. discriminate.
  - discriminate.
Qed.

Lemma InvO_poll (s : chan) j w v :
  InvL s -> InvO s -> h_pc (hs s j) = SNew v \/ h_pc (hs s j) = SWait v -> InvO (send_poll s j w v).
Proof.
  intros HL HO Hp. pose proof (L_h HL j) as Hk.
  assert (Hhh : hheld (hs s j) = h_slot (hs s j)) by (unfold hheld; destruct Hp as [E|E]; rewrite E; reflexivity).
  assert (Hhc : hcont (hs s j) = None) by (unfold hcont; destruct Hp as [E|E]; rewrite E; reflexivity).
  unfold send_poll.
  destruct (rdropped s) eqn:Ed.
  { apply InvO_set_h; auto. }
  destruct (h_link (hs s j)) eqn:El.
  - assert (Hsl : h_slot (hs s j) = None) by (unfold hok in Hk; destruct Hp as [E|E]; rewrite E in Hk; destruct Hk; congruence).
    assert (Hpush : InvO (mkC (freeq s) (readyq s) (slots s) (wq s ++ [j]) (rdropped s) (nsend s) (rwaker s)
                (upd (hs s) j (mkH (SWait v) LQueued (h_slot (hs s j)) w false (seqno s)))
                (recv s) (r_woken s) (bug s) (S (seqno s)) (log s))).
    { apply InvO_frame with (s := set_h s j (mkH (SWait v) LQueued (h_slot (hs s j)) w false (seqno s))); auto.
      apply InvO_set_h; auto. }
    destruct (wq s) as [|k q] eqn:Eq; [destruct (freeq s) as [|x f] eqn:Ef|].
    + cbn. rewrite ?Ef, ?Eq. exact Hpush.
    + clear Hpush. rewrite <- Ef.
      destruct HO as [(wh & H1 & H2 & H3) H4 H5 H6 H7].
      assert (Hne : freeq s <> []) by congruence.
      destruct (take_f_last H1 Hne) as [Hw HO']. set (y := last (freeq s) 0) in *.
      set (h' := mkH (SDrop1 (DOk y) v) (h_link (hs s j)) (h_slot (hs s j)) (h_waker (hs s j)) (h_woken (hs s j)) (h_seq (hs s j))).
      assert (Hny : forall k, hheld (hs s k) <> Some y).
      { intros k E. apply (O_h H1) in E. congruence. }
      assert (Hf : In y (freeq s)) by (now apply (O_f H1)).
      assert (Hy : y < N) by (destruct (Nat.lt_ge_cases y N); [auto|]; rewrite H2 in Hw by auto; discriminate).
      constructor; simpl; auto.
      * exists (upd (upd wh y PTok) y (PH j)). split; [|split].
        -- apply put_h with (hh := fun j => hheld (hs s j)); auto; [apply upd_same|congruence|].
           intros k. unfold upd. destruct (Nat.eqb_spec k j); auto.
        -- intros z Hz. unfold upd. destruct (Nat.eqb_spec z y); [lia|auto].
        -- intros z Hz. unfold upd. destruct (Nat.eqb_spec z y); [discriminate|]. intros Hz'. destruct (H3 z Hz Hz'); auto.
      * intros z Hz. apply H4. apply in_rm_last in Hz; auto; [tauto|apply (O_ndf H1)].
      * intros k z. unfold upd. destruct (Nat.eqb_spec k j) as [->|]; [|auto]. unfold hheld, hcont; simpl. intros [= <-].
        apply H4. exact Hf.
    + cbn. assert (Hfr : freeq s = []) by (apply (L_free HL); congruence). rewrite ?Eq, ?Hfr in *. exact Hpush.
  - apply InvO_set_h; auto.
  - unfold hok in Hk. destruct Hp as [E|E]; rewrite E in Hk; [destruct Hk; congruence|].
    destruct (h_slot (hs s j)) as [x|] eqn:Es.
    + apply InvO_set_h; auto.
    + apply InvO_set_h; auto.
Qed.

Lemma InvO_step s l s' : InvL s -> InvO s -> step s l = Some s' -> InvO s'.
Proof.
  intros HL HO Hs. destruct l as [|j k|j v|j v|j w|j|j|j| |w| | |]; simpl in Hs.
  - (* split *)
    destruct (recv s) eqn:Er; try discriminate. injection Hs as <-.
    pose proof (L_new HL Er) as ->. constructor; simpl; auto; try congruence; try tauto.
    + exists (fun x => if x <? N then PFree else PTok). split; [|split].
      * constructor; simpl; try (constructor; fail); intros; try (apply seq_NoDup).
        -- rewrite in_seq. destruct (Nat.ltb_spec x N); intuition (try lia; try discriminate).
        -- destruct (Nat.ltb_spec x N); intuition (try lia; try discriminate).
        -- replace (hheld _) with (@None nat) by (unfold upd; destruct (j =? 0); reflexivity).
           destruct (Nat.ltb_spec x N); split; discriminate.
        -- destruct (Nat.ltb_spec x N); intuition (try lia; try discriminate).
      * intros x Hx. destruct (Nat.ltb_spec x N); [lia|auto].
      * intros x Hx. destruct (Nat.ltb_spec x N); [discriminate|lia].
    + intros j x. unfold upd. destruct (j =? 0); discriminate.
  - (* clone *)
    destruct (h_pc (hs s j)) eqn:Ej; try discriminate. destruct (h_pc (hs s k)) eqn:Ek; try discriminate.
    injection Hs as <-. pose proof (L_h HL k) as Hk. unfold hok in Hk. rewrite Ek in Hk. destruct Hk as [Hk1 Hk2].
    apply InvO_frame with (s := set_h s k (mkH HIdle LNone None 0 false 0)); auto.
    apply InvO_set_h; auto; unfold hheld, hcont; rewrite Ek; simpl; auto.
  - (* try_send *)
    destruct (h_pc (hs s j)) eqn:Ej; try discriminate.
    destruct (wq s); injection Hs as <-.
    + apply InvO_set_h; [apply InvO_emit; auto| |]; unfold hheld, hcont; simpl; rewrite Ej; auto.
    + apply InvO_emit, InvO_emit; auto.
  - (* send *)
    destruct (h_pc (hs s j)) eqn:Ej; try discriminate. injection Hs as <-.
    apply InvO_set_h; [apply InvO_emit; auto| |]; unfold hheld, hcont; simpl; rewrite Ej; auto.
  - (* poll *)
    destruct (h_pc (hs s j)) eqn:Ej; try discriminate; injection Hs as <-; apply InvO_poll; auto.
  - (* step *)
    pose proof (L_h HL j) as Hk. unfold hok in Hk.
    destruct (h_pc (hs s j)) as [| |v|v|v|v|d v|d v|x v|x v|v| |] eqn:Ej; try discriminate.
    + destruct (rdropped s); injection Hs as <-.
      * unfold finish. apply InvO_emit, InvO_set_h; auto; unfold hheld, hcont; simpl; rewrite Ej; auto.
      * apply InvO_set_h; auto; unfold hheld, hcont; simpl; rewrite Ej; auto.
    + destruct (freeq s) as [|x q] eqn:Ef; injection Hs as <-.
      * unfold finish. apply InvO_emit, InvO_set_h; auto; unfold hheld, hcont; simpl; rewrite Ej; auto.
      * destruct HO as [(wh & H1 & H2 & H3) H4 H5 H6 H7].
        destruct (take_f H1 Ef) as [Hw HO']. destruct Hk as [Hk1 Hk2].
        assert (Hf : In x (freeq s)) by (now apply (O_f H1)).
        assert (Hy : x < N) by (destruct (Nat.lt_ge_cases x N); [auto|]; rewrite H2 in Hw by auto; discriminate).
        assert (Hhj : hheld (hs s j) = None) by (unfold hheld; rewrite Ej; auto).
        constructor; simpl; auto.
        -- exists (upd (upd wh x PTok) x (PH j)). split; [|split].
           ++ apply put_h with (hh := fun j => hheld (hs s j)); auto; [apply upd_same|].
              intros k. unfold upd. destruct (Nat.eqb_spec k j); auto.
           ++ intros z Hz. unfold upd. destruct (Nat.eqb_spec z x); [lia|auto].
           ++ intros z Hz. unfold upd. destruct (Nat.eqb_spec z x); [discriminate|]. intros Hz'. destruct (H3 z Hz Hz'); auto.
        -- intros z Hz. apply H4. rewrite Ef. now right.
        -- intros k z. unfold upd. destruct (Nat.eqb_spec k j) as [->|]; [|auto]. unfold hheld, hcont; simpl. intros [= <-].
           apply H4. exact Hf.
    + injection Hs as <-.
      apply InvO_frame with (s := set_h s j (mkH (SDrop2 d v) LNone (h_slot (hs s j)) (h_waker (hs s j)) (h_woken (hs s j)) (h_seq (hs s j)))); auto.
      apply InvO_set_h; auto; unfold hheld, hcont; simpl; rewrite Ej; destruct d; auto.
    + set (s1 := set_h s j (mkH (SDrop2 d v) (h_link (hs s j)) None (h_waker (hs s j)) (h_woken (hs s j)) (h_seq (hs s j)))) in *.
      set (s2 := match h_slot (hs s j) with Some x => return_slot N s1 x | None => s1 end) in *.
      assert (Hlk : h_link (hs s j) = LNone) by (destruct d; [apply Hk|exact Hk|exact Hk]).
      assert (Hr : recv s <> RNone) by (apply recv_alive with (j := j); [exact HL|congruence]).
      assert (HL1 : InvL s1).
      { apply InvL_set_h; [exact HL|exact Hr| |reflexivity|intros; discriminate]. unfold hok; simpl. rewrite Hlk. destruct d; auto. }
      assert (HO2 : InvO s2).
      { subst s2. destruct (h_slot (hs s j)) as [x|] eqn:Es.
        - assert (Hd : match d with DOk _ => False | _ => True end) by (destruct d; [destruct Hk; congruence|auto|auto]).
          apply InvO_return; [exact HL1|]. apply InvO_take_h; auto; unfold hheld, hcont; rewrite ?Ej; simpl; destruct d; auto; contradiction.
        - apply InvO_set_h; auto; unfold hheld, hcont; rewrite ?Ej; simpl; destruct d; auto. }
      assert (Hh2 : hs s2 j = hs s1 j).
      { subst s2. destruct (h_slot (hs s j)); [|reflexivity]. apply return_other.
        rewrite (L_in HL1). simpl. rewrite upd_same. simpl. congruence. }
      assert (Hpc : h_pc (hs s2 j) = SDrop2 d v /\ h_slot (hs s2 j) = None).
      { rewrite Hh2. simpl. rewrite upd_same. simpl. auto. }
      destruct Hpc as [Hp1 Hp2].
      destruct d as [x| |]; injection Hs as <-; unfold finish; [|apply InvO_emit|apply InvO_emit];
        apply InvO_set_h; auto; unfold hheld, hcont; simpl; rewrite ?Hp1; auto.
    + injection Hs as <-. destruct HO as [(wh & H1 & H2 & H3) H4 H5 H6 H7].
      assert (Hhj : hheld (hs s j) = Some x) by (unfold hheld; rewrite Ej; auto).
      assert (Hw : wh x = PH j) by (now apply (O_h H1)).
      constructor; simpl.
      * exists wh. split; [|split]; auto. apply Own_ext with (1 := H1); auto.
        intros k. unfold upd. destruct (Nat.eqb_spec k j) as [->|]; auto.
      * intros y Hy. assert (y <> x) by (intros ->; apply (O_f H1) in Hy; congruence). rewrite upd_other; auto.
      * intros y Hy. assert (y <> x) by (intros ->; apply (O_r H1) in Hy; congruence). rewrite upd_other; auto.
      * intros k y. unfold upd at 1 3. destruct (Nat.eqb_spec k j) as [->|].
        -- unfold hheld, hcont; simpl. intros [= <-]. apply upd_same.
        -- intros Hy. assert (y <> x) by (intros ->; apply (O_h H1) in Hy; congruence). rewrite upd_other; auto.
      * intros y Hy. assert (y <> x) by (intros ->; apply (O_v H1) in Hy; congruence). rewrite upd_other by auto. exact (H7 y Hy).
    + injection Hs as <-. destruct HO as [(wh & H1 & H2 & H3) H4 H5 H6 H7].
      assert (Hhj : hheld (hs s j) = Some x) by (unfold hheld; rewrite Ej; auto).
      destruct Hk as [Hk1 Hk2].
      destruct (take_h H1 j (fun k => hheld (upd (hs s) j (mkH (FWake v) (h_link (hs s j)) (h_slot (hs s j)) (h_waker (hs s j)) (h_woken (hs s j)) (h_seq (hs s j))) k)) Hhj) as [Hw HO].
      { intros k. unfold upd. destruct (Nat.eqb_spec k j); auto. }
      assert (Hx : x < N) by (destruct (Nat.lt_ge_cases x N); [auto|]; rewrite H2 in Hw by auto; discriminate).
      constructor; simpl; auto.
      * exists (upd (upd wh x PTok) x PReady). split; [apply put_r; [exact HO|apply upd_same]|]. split.
        -- intros y Hy. unfold upd. destruct (Nat.eqb_spec y x); [lia|auto].
        -- intros y Hy. unfold upd. destruct (Nat.eqb_spec y x); [discriminate|eauto].
      * intros y Hy. apply in_app_iff in Hy as [Hy|[<-|[]]]; [auto|].
        rewrite (H6 j x Hhj). unfold hcont. rewrite Ej. discriminate.
      * intros k y. unfold upd. destruct (Nat.eqb_spec k j) as [->|]; [|auto]. unfold hheld; simpl. congruence.
    + injection Hs as <-. unfold finish. destruct (wake_same s) as (E1 & E2 & _ & _ & _ & _ & E5 & _).
      apply InvO_emit, InvO_set_h; [apply InvO_wake; auto| |]; unfold hheld, hcont; simpl; rewrite E2, Ej; auto.
    + injection Hs as <-. destruct (wake_same s) as (E1 & E2 & _ & _ & _ & _ & E5 & _).
      apply InvO_set_h; [apply InvO_wake; auto| |]; unfold hheld, hcont; simpl; rewrite E2, Ej; auto.
  - (* cancel *)
    destruct (h_pc (hs s j)) as [| |v|v|v|v|d v|d v|x v|x v|v| |] eqn:Ej; try discriminate; injection Hs as <-.
    + unfold finish. apply InvO_emit, InvO_set_h; auto; unfold hheld, hcont; simpl; rewrite Ej; auto.
    + apply InvO_set_h; auto; unfold hheld, hcont; simpl; rewrite Ej; auto.
  - (* drop sender *)
    destruct (h_pc (hs s j)) eqn:Ej; try discriminate. injection Hs as <-.
    apply InvO_set_h; [apply InvO_frame with (s := s); auto| |]; unfold hheld, hcont; simpl; rewrite Ej;
      destruct (pred (nsend s) =? 0); auto.
  - destruct (recv s) eqn:Er; try discriminate. injection Hs as <-.
    apply InvO_frame with (s := s); simpl; auto. rewrite Er. right. repeat split; discriminate.
  - assert (Hr : recv s = RIdle \/ exists w', recv s = RSleep w') by (destruct (recv s); try discriminate; eauto).
    assert (s' = set_recv s (RReg w)) by (destruct Hr as [E|[w' E]]; rewrite E in Hs; congruence). subst s'.
    apply InvO_frame with (s := s); simpl; auto. right.
    destruct Hr as [E|[w' E]]; rewrite E; repeat split; discriminate.
  - (* receiver steps *)
    destruct (recv s) as [| |w|w|w x|w x v|w|w| |x| |] eqn:Er; try discriminate.
    + injection Hs as <-. apply InvO_frame with (s := register_receiver s w); simpl; auto; [apply InvO_register; auto|].
      right. destruct (reg_same s w) as (_ & _ & _ & _ & _ & _ & E & _). rewrite E, Er. repeat split; discriminate.
    + destruct (readyq s) as [|x q] eqn:Eq; injection Hs as <-.
      * apply InvO_frame with (s := s); simpl; auto. rewrite Er. right. repeat split; discriminate.
      * destruct HO as [(wh & H1 & H2 & H3) H4 H5 H6 H7]. rewrite Er in *; simpl in *.
        destruct (take_r H1 Eq) as [Hw HO].
        assert (Hx : x < N) by (destruct (Nat.lt_ge_cases x N); [auto|]; rewrite H2 in Hw by auto; discriminate).
        constructor; simpl; auto.
        -- exists (upd (upd wh x PTok) x PR). split; [apply put_v with (rh := None); auto; apply upd_same|]. split.
           ++ intros y Hy. unfold upd. destruct (Nat.eqb_spec y x); [lia|auto].
           ++ intros y Hy. unfold upd. destruct (Nat.eqb_spec y x); [discriminate|]. intros Hy'. destruct (H3 y Hy Hy'); auto; discriminate.
        -- intros y Hy. apply H5. rewrite Eq. now right.
        -- intros y [= <-]. apply H5. rewrite Eq. now left.
    + destruct (slots s x) as [v|] eqn:Ex; injection Hs as <-; [|apply InvO_bug; auto].
      destruct HO as [(wh & H1 & H2 & H3) H4 H5 H6 H7]. rewrite Er in *; simpl in *.
      assert (Hw : wh x = PR) by (now apply (O_v H1)).
      constructor; simpl.
      * exists wh. split; [|split]; auto. intros y Hy Hy'. destruct (H3 y Hy Hy'); auto; discriminate.
      * intros y Hy. assert (y <> x) by (intros ->; apply (O_f H1) in Hy; congruence). rewrite upd_other; auto.
      * intros y Hy. assert (y <> x) by (intros ->; apply (O_r H1) in Hy; congruence). rewrite upd_other; auto.
      * intros k y Hy. assert (y <> x) by (intros ->; apply (O_h H1) in Hy; congruence). rewrite upd_other; auto.
      * intros y [= <-]. apply upd_same.
    + injection Hs as <-. apply InvO_emit.
      assert (HX : InvOx (set_recv s RIdle) x) by (eapply InvO_take_r; eauto).
      assert (HL1 : InvL (set_recv s RIdle)).
      { apply InvL_frame with (s := s); simpl; auto; [now rewrite Er|discriminate]. }
      pose proof (InvO_return HL1 HX) as HR.
      replace (set_recv (return_slot N s x) RIdle) with (return_slot N (set_recv s RIdle) x); [exact HR|].
      unfold return_slot. change (wq (set_recv s RIdle)) with (wq s). destruct (wq s) eqn:Eq; reflexivity.
    + destruct (nsend s); [|destruct w]; injection Hs as <-; try apply InvO_emit;
        (apply InvO_frame with (s := s); simpl; auto; rewrite Er; right; repeat split; discriminate).
    + destruct (rev (readyq s)) as [|x q] eqn:Eq; injection Hs as <-.
      * apply InvO_frame with (s := s); simpl; auto. rewrite Er. right. repeat split; discriminate.
      * destruct HO as [(wh & H1 & H2 & H3) H4 H5 H6 H7]. rewrite Er in *; simpl in *.
        assert (Hrq : readyq s = rev q ++ [x]) by (rewrite <- (rev_involutive (readyq s)), Eq; reflexivity).
        assert (Hne : readyq s <> []) by (rewrite Hrq; intros E; now apply app_eq_nil in E).
        assert (Hla : last (readyq s) 0 = x) by (rewrite Hrq; apply last_last).
        destruct (take_r_last H1 Hne Hla) as [Hw HO].
        assert (Hx : x < N) by (destruct (Nat.lt_ge_cases x N); [auto|]; rewrite H2 in Hw by auto; discriminate).
        constructor; simpl; auto.
        -- exists (upd (upd wh x PTok) x PR). split; [apply put_v with (rh := None); auto; apply upd_same|]. split.
           ++ intros y Hy. unfold upd. destruct (Nat.eqb_spec y x); [lia|auto].
           ++ intros y Hy. unfold upd. destruct (Nat.eqb_spec y x); [discriminate|]. intros Hy'. destruct (H3 y Hy Hy'); auto; discriminate.
        -- intros y Hy. apply H5. rewrite Hrq, removelast_last in Hy. rewrite Hrq. apply in_app_iff. now left.
        -- intros y [= <-]. apply H5. rewrite Hrq. apply in_app_iff. right. now left.
    + destruct (slots s x) as [v|] eqn:Ex; injection Hs as <-; [|apply InvO_bug; auto]. apply InvO_emit.
      destruct HO as [(wh & H1 & H2 & H3) H4 H5 H6 H7]. rewrite Er in *; simpl in *.
      destruct (take_v H1 eq_refl) as [Hw HO].
      assert (Hd : rdropped s = true) by (rewrite (L_drop HL), Er; reflexivity).
      constructor; simpl.
      * exists (upd wh x PTok). split; [exact HO|split; auto]. intros y Hy. unfold upd. destruct (Nat.eqb_spec y x); auto.
      * intros y Hy. assert (y <> x) by (intros ->; apply (O_f H1) in Hy; congruence). rewrite upd_other; auto.
      * intros y Hy. assert (y <> x) by (intros ->; apply (O_r H1) in Hy; congruence). rewrite upd_other; auto.
      * intros k y Hy. assert (y <> x) by (intros ->; apply (O_h H1) in Hy; congruence). rewrite upd_other; auto.
      * discriminate.
    + destruct (wq s) as [|j q] eqn:Eq; injection Hs as <-.
      * apply InvO_frame with (s := s); simpl; auto. rewrite Er. right. repeat split; discriminate.
      * apply InvO_emit.
        apply InvO_frame with (s := set_h s j (mkH (h_pc (hs s j)) LPopped (h_slot (hs s j)) (h_waker (hs s j)) true (h_seq (hs s j)))); auto.
        apply InvO_set_h; auto.
  - destruct (recv s) eqn:Er; try discriminate. injection Hs as <-.
    apply InvO_frame with (s := s); simpl; auto. rewrite Er. right. repeat split; discriminate.
  - destruct (recv s) eqn:Er; try discriminate. injection Hs as <-.
    apply InvO_frame with (s := s); simpl; auto. rewrite Er. right. repeat split; discriminate.
Qed.

Lemma InvO_reach s : creach N s -> InvO s.
Proof.
  intros H. assert (X : InvL s /\ InvO s); [|tauto]. revert s H. apply reach_inv.
  - split; [apply InvL_new|apply InvO_new].
  - intros s l s' [HL HO] Hs. split; [eapply InvL_step; eauto|eapply InvO_step; eauto].
Qed.
End Own.
