(** C90: channel operations are atomic. *)
From Verif Require Import Base LTS WakerRegModel ChannelModel ChannelSpec ChannelInv ChannelProofs ChannelTrace ChannelMore ChannelFinal ChannelOwn PropertiesChannel.
Set Implicit Arguments.

(** ** Specification *)
Section Spec.
Context {V : Type}.

Inductive actor := Snd (j : nat) | Rcv.
Inductive call := Put (v : V) | Take.
(** Empty, NoSender and a pending [recv] all mean: no value. *)
Inductive outcome := Sent (v : V) | Full (v : V) | NoReceiver (v : V) | Cancelled (v : V) | Got (v : V) | Nothing.
(** What can be seen of a channel: calls and returns; and, not seen, the instants at which operations take effect. *)
Inductive hev := HCall (a : actor) (c : call) | HAct (a : actor) (r : outcome) | HRet (a : actor) (r : outcome).

Definition actor_eqb (a b : actor) : bool := match a, b with Snd i, Snd j => Nat.eqb i j | Rcv, Rcv => true | _, _ => false end.
Inductive stage := Resting | Called (c : call) | Took (r : outcome).
Definition after (a : actor) (t : stage) (e : hev) : stage :=
  match e with
  | HCall b c => if actor_eqb b a then Called c else t
  | HAct b r => if actor_eqb b a then Took r else t
  | HRet b r => if actor_eqb b a then Resting else t
  end.
(** How far [a] is after [h] *)
Definition stat (h : list hev) (a : actor) : stage := fold_left (after a) h Resting.

(** [atomic N h q]: every operation of [h] takes effect at one instant between its call and its return, and these effects are those
    of a queue of at most [N] values, which holds [q] after [h].  [Full] may be reported when the values in the queue and
    the other operations in progress number [N] or more; in the [strict] sense, only when the queue holds [N] values. *)
Inductive atomic (strict : bool) (N : nat) : list hev -> list V -> Prop :=
| A_nil : atomic strict N [] []
| A_call h q a c : atomic strict N h q -> stat h a = Resting -> atomic strict N (h ++ [HCall a c]) q
| A_ret h q a r : atomic strict N h q -> stat h a = Took r -> atomic strict N (h ++ [HRet a r]) q
| A_sent h q j v : atomic strict N h q -> stat h (Snd j) = Called (Put v) -> length q < N -> atomic strict N (h ++ [HAct (Snd j) (Sent v)]) (q ++ [v])
| A_full h q j v busy : atomic strict N h q -> stat h (Snd j) = Called (Put v) ->
    NoDup busy -> ~ In (Snd j) busy -> (forall a, In a busy -> stat h a <> Resting) -> N <= length q + length busy -> (strict = true -> busy = []) ->
    atomic strict N (h ++ [HAct (Snd j) (Full v)]) q
| A_cancelled h q j v : atomic strict N h q -> stat h (Snd j) = Called (Put v) -> atomic strict N (h ++ [HAct (Snd j) (Cancelled v)]) q
| A_got h v q : atomic strict N h (v :: q) -> stat h Rcv = Called Take -> atomic strict N (h ++ [HAct Rcv (Got v)]) q
| A_nothing h : atomic strict N h [] -> stat h Rcv = Called Take -> atomic strict N (h ++ [HAct Rcv Nothing]) [].

(** What can be seen *)
Definition seen (h : list hev) : list hev := filter (fun e => match e with HAct _ _ => false | _ => true end) h.

(** Calls and returns of the modelled channel *)
Definition calls (l : label V) : list hev :=
  match l with LTry j v | LSend j v => [HCall (Snd j) (Put v)] | LTryRecv | LRecv _ => [HCall Rcv Take] | _ => [] end.
Definition rets (e : event V) : list hev :=
  match e with
  | ESent j v => [HRet (Snd j) (Sent v)] | EFull j v => [HRet (Snd j) (Full v)]
  | ENoRecv j v => [HRet (Snd j) (NoReceiver v)] | ECancel j v => [HRet (Snd j) (Cancelled v)]
  | ERecv v => [HRet Rcv (Got v)] | EEmpty | ENoSender => [HRet Rcv Nothing]
  | _ => []
  end.
Definition pends (s s' : chan V) : list hev := match recv s, recv s' with RChk _, RSleep _ => [HRet Rcv Nothing] | _, _ => [] end.
Definition visible (s : chan V) (l : label V) (s' : chan V) : list hev :=
  calls l ++ flat_map rets (skipn (length (log s)) (log s')) ++ pends s s'.
Fixpoint history (N : nat) (s : chan V) (ls : list (label V)) : list hev :=
  match ls with
  | [] => []
  | l :: ls' => match step N s l with Some s' => visible s l s' ++ history N s' ls' | None => [] end
  end.
End Spec.
Arguments hev V : clear implicits.
Arguments stage V : clear implicits.
Arguments outcome V : clear implicits.

(** ** Proofs *)
Section Proofs.
Context {V : Type} (N : nat).
Notation chan := (chan V).

Lemma aeqb a b : actor_eqb a b = true <-> a = b.
Proof. destruct a as [i|], b as [j|]; simpl; split; intros H; try discriminate; try reflexivity; [apply Nat.eqb_eq in H; now subst | injection H as ->; apply Nat.eqb_refl]. Qed.
Lemma aeqb_refl a : actor_eqb a a = true. Proof. now apply aeqb. Qed.

Lemma stat_snoc (h : list (hev V)) e a : stat (h ++ [e]) a = after a (stat h a) e.
Proof. unfold stat. now rewrite fold_left_app. Qed.

Definition sst (p : hpc V) : stage V :=
  match p with
  | HNone | HIdle | HDropWake | HGone => Resting
  | FWake v => Took (Sent v)
  | TClosed v | TPop v | SNew v | SWait v | SDrop1 _ v | SDrop2 _ v | FWrite _ v | FPush _ v => Called (Put v)
  end.
Definition rst (s : chan) : stage V :=
  match recv s with
  | RReg _ | RPop _ => Called Take
  | RRead _ x => match slots s x with Some v => Took (Got v) | None => Called Take end
  | RRet _ _ v => Took (Got v)
  | RChk _ => Took Nothing
  | _ => Resting
  end.

Record lin (s : chan) (h : list (hev V)) (q : list V) : Prop := {
  l_at : atomic false N h q;
  l_q : map Some q = map (slots s) (readyq s);
  l_s : forall j, stat h (Snd j) = sst (h_pc (hs s j));
  l_r : stat h Rcv = rst s }.

(** Slots: whoever holds one is busy *)
Lemma held_busy (s : chan) j x : creach N s -> hheld (hs s j) = Some x -> sst (h_pc (hs s j)) <> Resting.
Proof.
  intros Hr Hh K. pose proof (L_h (A_L (InvAll_reach Hr)) j) as Hk. unfold hok in Hk. unfold hheld in Hh.
  destruct (h_pc (hs s j)) eqn:E; simpl in K; try discriminate.
  all: destruct Hk as [H1 H2]; congruence.
Qed.

Lemma holders (s : chan) : creach N s -> recv s <> RNone -> rdropped s = false -> freeq s = [] ->
  forall xs, NoDup xs -> (forall x, In x xs -> x < N) -> exists ready (busy : list actor), NoDup busy /\ NoDup ready /\ length xs = length ready + length busy /\ incl ready (readyq s) /\ incl ready xs /\
    forall a, In a busy -> exists x, In x xs /\ match a with Snd j => hheld (hs s j) = Some x | Rcv => rheld (recv s) = Some x end.
Proof.
  intros Hr Hn Hd Hf. induction xs as [|x xs IH]; intros N1 HN.
  - exists [], []. repeat split; try constructor; try (intros ? []).
  - inversion N1 as [|? ? Nx N2]; subst. destruct IH as (rd & bs & B1 & B2 & B3 & B4 & B5 & B6); [auto | intros y Hy; apply HN; now right |].
    destruct (@place_exists _ N s x Hr) as [p Hp]; auto; [apply HN; now left|].
    assert (New : forall a, match a with Snd j => hheld (hs s j) = Some x | Rcv => rheld (recv s) = Some x end -> ~ In a bs).
    { intros a Ha Hin. destruct (B6 _ Hin) as (y & Hy & K). destruct a; rewrite Ha in K; injection K as ->; contradiction. }
    destruct p as [| |j|]; simpl in Hp.
    + rewrite Hf in Hp. destruct Hp.
    + exists (x :: rd), bs. split; [auto|]. split; [constructor; auto|]. split; [simpl; lia|]. split; [intros y [<- | Hy]; auto|]. split; [intros y [<- | Hy]; [now left | right; auto]|].
      intros a Ha. destruct (B6 _ Ha) as (y & Hy & K). exists y. split; [now right | exact K].
    + exists rd, (Snd j :: bs). split; [constructor; [now apply New | auto]|]. split; [auto|]. split; [simpl; lia|]. split; [auto|]. split; [intros y Hy; right; auto|].
      intros a [<- | Ha]; [exists x; split; [now left | exact Hp]|]. destruct (B6 _ Ha) as (y & Hy & K). exists y. split; [now right | exact K].
    + exists rd, (Rcv :: bs). split; [constructor; [now apply New | auto]|]. split; [auto|]. split; [simpl; lia|]. split; [auto|]. split; [intros y Hy; right; auto|].
      intros a [<- | Ha]; [exists x; split; [now left | exact Hp]|]. destruct (B6 _ Ha) as (y & Hy & K). exists y. split; [now right | exact K].
Qed.

Lemma full_ok (s : chan) h q j v h' : creach N s -> recv s <> RNone -> rdropped s = false -> freeq s = [] -> hheld (hs s j) = None ->
  lin s h q -> atomic false N h' q -> stat h' (Snd j) = Called (Put v) -> (forall a, stat h a <> Resting -> stat h' a <> Resting) ->
  atomic false N (h' ++ [HAct (Snd j) (Full v)]) q.
Proof.
  intros Hr Hn Hd Hf Hj L A S M. destruct (@holders s Hr Hn Hd Hf (seq 0 N) (seq_NoDup N 0)) as (rd & bs & B1 & B2 & B3 & B4 & _ & B6).
  { intros x Hx. apply in_seq in Hx. lia. }
  eapply A_full with (busy := bs); auto; [| |  |discriminate].
  - intros Hin. destruct (B6 _ Hin) as (x & _ & K). congruence.
  - intros a Ha. apply M. destruct (B6 _ Ha) as (x & _ & K). destruct a as [k|].
    + rewrite (l_s L). eapply held_busy; eauto.
    + rewrite (l_r L). unfold rst. pose proof (L_drop (A_L (InvAll_reach Hr))) as Dr. unfold rheld in K. destruct (recv s) eqn:E; try discriminate; [destruct (slots s _); discriminate|].
      rewrite Hd in Dr. discriminate.
  - rewrite seq_length in B3. pose proof (NoDup_incl_length B2 B4) as Le. assert (length q = length (readyq s)) by (rewrite <- (map_length Some q), (l_q L), map_length; reflexivity). lia.
Qed.

Definition who (e : hev V) : actor := match e with HCall a _ | HAct a _ | HRet a _ => a end.
Lemma stat_others d : forall (h : list (hev V)) a b, Forall (fun e => who e = a) d -> b <> a -> stat (h ++ d) b = stat h b.
Proof.
  induction d as [|e d IH]; intros h a b Hd Hb; [now rewrite app_nil_r|]. inversion Hd as [|? ? He Hd']; subst.
  replace (h ++ e :: d) with ((h ++ [e]) ++ d) by now rewrite <- app_assoc. rewrite (IH _ _ _ Hd' Hb), stat_snoc.
  assert (K : actor_eqb (who e) b = false) by (destruct (actor_eqb (who e) b) eqn:E; [apply aeqb in E; congruence | reflexivity]).
  destruct e; simpl in *; now rewrite K.
Qed.

Lemma lin_snd (s s' : chan) h q j p d q' : lin s h q -> pcs_upd s s' j p -> Forall (fun e => who e = Snd j) d -> atomic false N (h ++ d) q' ->
  map Some q' = map (slots s') (readyq s') -> stat (h ++ d) (Snd j) = sst p -> rst s' = rst s -> lin s' (h ++ d) q'.
Proof.
  intros [L1 L2 L3 L4] Hp Hd Ha Hq Hs Hr. constructor; auto.
  - intros k. rewrite (Hp k). destruct (Nat.eqb_spec k j) as [-> | Hk]; [exact Hs|]. rewrite (stat_others h Hd) by congruence. apply L3.
  - rewrite (stat_others h Hd) by congruence. now rewrite Hr.
Qed.
Lemma lin_rcv (s s' : chan) h q d q' : lin s h q -> (forall j, sst (h_pc (hs s' j)) = sst (h_pc (hs s j))) -> Forall (fun e => who e = Rcv) d -> atomic false N (h ++ d) q' ->
  map Some q' = map (slots s') (readyq s') -> stat (h ++ d) Rcv = rst s' -> lin s' (h ++ d) q'.
Proof.
  intros [L1 L2 L3 L4] Hp Hd Ha Hq Hs. constructor; auto. intros k. rewrite (stat_others h Hd) by congruence. rewrite Hp. apply L3.
Qed.

Lemma visible_eq (s s' : chan) l evs : log s' = log s ++ evs -> visible s l s' = calls l ++ flat_map (@rets V) evs ++ pends s s'.
Proof. intros E. unfold visible. rewrite E, skipn_app, skipn_all, Nat.sub_diag. reflexivity. Qed.
Lemma pends_same (s s' : chan) : recv s' = recv s -> pends s s' = [].
Proof. unfold pends. intros ->. destruct (recv s); reflexivity. Qed.
Lemma rst_same (s s' : chan) : recv s' = recv s -> slots s' = slots s -> rst s' = rst s.
Proof. unfold rst. intros -> ->. reflexivity. Qed.
Lemma wakes_quiet k : flat_map (@rets V) (map (@EWakeR V) k) = [].
Proof. induction k; auto. Qed.
Lemma wake_log (s : chan) : exists k, log (wake_receiver s) = log s ++ map (@EWakeR V) k.
Proof. unfold wake_receiver. destruct (wreg_wake (rwaker s)) as [r k]. exists k. reflexivity. Qed.
Lemma reg_log (s : chan) w : exists k, log (register_receiver s w) = log s ++ map (@EWakeR V) k.
Proof. unfold register_receiver. destruct (wreg_register (rwaker s) w) as [r k]. exists k. reflexivity. Qed.

(** A step of a sender that only moves its program counter *)
Lemma quiet_snd (s s' : chan) h q j p l evs : lin s h q -> pcs_upd s s' j p -> sst p = sst (h_pc (hs s j)) -> recv s' = recv s -> rst s' = rst s ->
  map (slots s') (readyq s') = map (slots s) (readyq s) -> log s' = log s ++ evs -> flat_map (@rets V) evs = [] -> calls l = [] ->
  exists d q', seen d = visible s l s' /\ lin s' (h ++ d) q'.
Proof.
  intros L Hp Hs Hr Hr' Hq Hl He Hc. exists [], q. split.
  - rewrite (@visible_eq s s' l evs Hl), He, Hc, (@pends_same s s' Hr). reflexivity.
  - eapply lin_snd with (j := j) (p := p); eauto; rewrite ?app_nil_r; [apply L | rewrite Hq; apply L | rewrite Hs; apply L].
Qed.


Ltac stat_tac := repeat rewrite stat_snoc; unfold after; cbn [actor_eqb]; repeat rewrite Nat.eqb_refl.

(** A call of a sender *)
Lemma call_snd (s s' : chan) h q j p l v : lin s h q -> pcs_upd s s' j p -> sst (h_pc (hs s j)) = Resting -> sst p = Called (Put v) -> recv s' = recv s -> slots s' = slots s ->
  readyq s' = readyq s -> log s' = log s ++ [EStart j v] -> calls l = [HCall (Snd j) (Put v)] ->
  exists d q', seen d = visible s l s' /\ lin s' (h ++ d) q'.
Proof.
  intros L Hp H0 Hs Hr Hsl Hq Hl Hc. exists [HCall (Snd j) (Put v)], q. split.
  - rewrite (@visible_eq s s' l _ Hl), Hc, (@pends_same s s' Hr). reflexivity.
  - eapply lin_snd with (j := j) (p := p); [exact L | exact Hp | repeat constructor | | rewrite Hsl, Hq; apply L | stat_tac; now rewrite Hs | now apply rst_same].
    apply A_call; [apply L|]. rewrite (l_s L). exact H0.
Qed.
(** A return of a sender whose operation has no effect, or had it before *)
Lemma ret_snd (s s' : chan) h q j l v r e evs : lin s h q -> pcs_upd s s' j HIdle -> sst (h_pc (hs s j)) = Called (Put v) ->
  atomic false N (h ++ [HAct (Snd j) r]) q -> recv s' = recv s -> slots s' = slots s ->
  readyq s' = readyq s -> log s' = log s ++ evs ++ [e] -> flat_map (@rets V) evs = [] -> rets e = [HRet (Snd j) r] -> calls l = [] ->
  exists d q', seen d = visible s l s' /\ lin s' (h ++ d) q'.
Proof.
  intros L Hp H0 Ha Hr Hsl Hq Hl He Hre Hc. exists [HAct (Snd j) r; HRet (Snd j) r], q. split.
  - rewrite (@visible_eq s s' l _ Hl), flat_map_app, He, Hc, (@pends_same s s' Hr). cbn [flat_map List.app]. rewrite Hre. reflexivity.
  - eapply lin_snd with (j := j) (p := HIdle); [exact L | exact Hp | repeat constructor | | rewrite Hsl, Hq; apply L | | now apply rst_same].
    + change (h ++ [HAct (Snd j) r; HRet (Snd j) r]) with (h ++ ([HAct (Snd j) r] ++ [HRet (Snd j) r])). rewrite app_assoc. apply A_ret; [exact Ha|]. now stat_tac.
    + change (h ++ [HAct (Snd j) r; HRet (Snd j) r]) with (h ++ ([HAct (Snd j) r] ++ [HRet (Snd j) r])). rewrite app_assoc. now stat_tac.
Qed.

Lemma not_free (s : chan) : creach N s -> wq s <> [] -> freeq s = [].
Proof. intros Hr Hw. exact (ChannelInv.L_free (A_L (InvAll_reach Hr)) Hw). Qed.

Lemma lin_step (s s' : chan) l h q : creach N s -> rdropped s = false -> l <> LDropR -> lin s h q -> step N s l = Some s' ->
  exists d q', seen d = visible s l s' /\ lin s' (h ++ d) q'.
Proof.
  intros Hr Hd Hl L Hs. pose proof (InvAll_reach Hr) as IA. pose proof (A_L IA) as IL.
  assert (Hr' : creach N s') by (eapply reach_step; eauto).
  destruct l as [|j k|j v|j v|j w|j|j|j| |w| | |]; cbn [step] in Hs.
  - (* split *)
    destruct (recv s) eqn:Er; try discriminate. injection Hs as <-.
    assert (P0 : h_pc (hs s 0) = HNone) by (destruct (h_pc (hs s 0)) eqn:E; try reflexivity; exfalso; eapply (@recv_alive _ s 0 IL); congruence).
    exists [], q. split; [unfold visible, pends; rewrite Er; cbn [do_split log recv calls]; now rewrite skipn_all|].
    eapply lin_snd with (j := 0) (p := HIdle); [exact L | | constructor | rewrite app_nil_r; apply L | apply L | rewrite app_nil_r, (l_s L), P0; reflexivity | unfold rst; rewrite Er; reflexivity].
    intros k. cbn. unfold upd. destruct (Nat.eqb k 0); reflexivity.
  - (* clone *)
    destruct (h_pc (hs s j)) eqn:Ej; try discriminate. destruct (h_pc (hs s k)) eqn:Ek; try discriminate. injection Hs as <-.
    eapply quiet_snd with (j := k) (p := HIdle) (evs := []); eauto; [|now rewrite Ek | cbn; now rewrite app_nil_r].
    intros i. cbn. unfold upd. destruct (Nat.eqb i k); reflexivity.
  - (* try_send *)
    destruct (h_pc (hs s j)) eqn:Ej; try discriminate. destruct (wq (emit s (EStart j v))) as [|k0 wq0] eqn:Ew.
    + injection Hs as <-. eapply call_snd with (j := j) (v := v); try reflexivity; [exact L | apply (pcs_set_pc (emit s (EStart j v))) | now rewrite Ej | reflexivity].
    + injection Hs as <-. exists [HCall (Snd j) (Put v); HAct (Snd j) (Full v); HRet (Snd j) (Full v)], q. split.
      { rewrite (@visible_eq s _ _ [EStart j v; EFull j v]) by (cbn; now rewrite <- app_assoc). rewrite pends_same by reflexivity. reflexivity. }
      assert (S1 : stat h (Snd j) = Resting) by (rewrite (l_s L), Ej; reflexivity).
      assert (A1 : atomic false N (h ++ [HCall (Snd j) (Put v)]) q) by (apply A_call; [apply L | exact S1]).
      assert (A2 : atomic false N ((h ++ [HCall (Snd j) (Put v)]) ++ [HAct (Snd j) (Full v)]) q).
      { eapply full_ok; [exact Hr | | exact Hd | apply not_free; [exact Hr | cbn in Ew; congruence] | exact (proj2 (@idle_clean _ N s j Hr Ej)) | exact L | exact A1 | now stat_tac |].
        - apply (@recv_alive _ s j IL). congruence.
        - intros a Ha. rewrite stat_snoc. cbn [after]. destruct (actor_eqb (Snd j) a); [discriminate | exact Ha]. }
      eapply lin_snd with (j := j) (p := HIdle); [exact L | | repeat constructor | | apply L | | reflexivity].
      * intros i. cbn. destruct (Nat.eqb_spec i j) as [->|]; [exact Ej | reflexivity].
      * replace (h ++ _) with (((h ++ [HCall (Snd j) (Put v)]) ++ [HAct (Snd j) (Full v)]) ++ [HRet (Snd j) (Full v)]) by now rewrite <- !app_assoc.
        apply A_ret; [exact A2|]. now stat_tac.
      * replace (h ++ _) with (((h ++ [HCall (Snd j) (Put v)]) ++ [HAct (Snd j) (Full v)]) ++ [HRet (Snd j) (Full v)]) by now rewrite <- !app_assoc. now stat_tac.
  - (* send *)
    destruct (h_pc (hs s j)) eqn:Ej; try discriminate. injection Hs as <-.
    eapply call_snd with (j := j) (v := v); try reflexivity; [exact L | apply (pcs_set_pc (emit s (EStart j v))) | now rewrite Ej | reflexivity].
  - (* poll of send *)
    assert (G : forall v, h_pc (hs s j) = SNew v \/ h_pc (hs s j) = SWait v -> Some (send_poll s j w v) = Some s' -> exists d q', seen d = visible s (LPoll j w) s' /\ lin s' (h ++ d) q').
    { intros v Ev E. injection E as <-. destruct (poll_same s j w v) as (E1 & E2 & _ & E4 & _ & _ & _ & E8 & _).
      eapply quiet_snd with (j := j) (p := h_pc (hs (send_poll s j w v) j)) (evs := []); [exact L | | | exact E4 | now apply rst_same | now rewrite E1, E2 | now rewrite E8, app_nil_r | reflexivity | reflexivity].
      - intros k. destruct (Nat.eqb_spec k j) as [->|Hk]; [reflexivity | now rewrite poll_pc_other].
      - destruct (poll_pc s j w v) as [-> | (d & -> & _)]; destruct Ev as [-> | ->]; reflexivity. }
    destruct (h_pc (hs s j)) eqn:Ej; try discriminate; eapply G; eauto.
  - (* step of a sender *)
    destruct (h_pc (hs s j)) eqn:Ej; try discriminate.
    + rewrite Hd in Hs. injection Hs as <-. eapply quiet_snd with (j := j) (evs := []); [exact L | apply pcs_set_pc | now rewrite Ej | reflexivity | reflexivity | reflexivity | cbn; now rewrite app_nil_r | reflexivity | reflexivity].
    + destruct (freeq s) as [|x fq] eqn:Ef; injection Hs as <-.
      * eapply ret_snd with (j := j) (v := v) (r := Full v) (e := EFull j v) (evs := []); try reflexivity; [exact L | apply (pcs_set_pc s) | now rewrite Ej |].
        eapply full_ok; [exact Hr | apply (@recv_alive _ s j IL); congruence | exact Hd | exact Ef | | exact L | apply L | rewrite (l_s L), Ej; reflexivity | auto].
        pose proof (L_h IL j) as Hk. unfold hok in Hk. rewrite Ej in Hk. unfold hheld. rewrite Ej. tauto.
      * eapply quiet_snd with (j := j) (evs := []); [exact L | apply (pcs_set_pc (set_freeq s fq)) | now rewrite Ej | reflexivity | reflexivity | reflexivity | cbn; now rewrite app_nil_r | reflexivity | reflexivity].
    + (* SDrop1 *) injection Hs as <-. eapply quiet_snd with (j := j) (p := SDrop2 d v) (evs := []); [exact L | | now rewrite Ej | reflexivity | reflexivity | reflexivity | cbn; now rewrite app_nil_r | reflexivity | reflexivity].
      intros i. cbn. unfold upd. destruct (Nat.eqb i j); reflexivity.
    + (* SDrop2 *)
      destruct (drop2_same N s j d v) as (E1 & E2 & _ & E4 & _).
      assert (El : exists evs, log (drop2 N s j d v) = log s ++ evs /\ flat_map (@rets V) evs = []).
      { unfold drop2. destruct (h_slot (hs s j)) as [x|]; [|exists []; split; [cbn; now rewrite app_nil_r | reflexivity]]. rewrite return_log. cbn [set_h log wq].
        eexists. split; [reflexivity|]. destruct (wq s); reflexivity. }
      destruct El as (evs & El & Ee).
      assert (Hp : forall p, pcs_upd s (set_pc (drop2 N s j d v) j p) j p).
      { intros p. eapply pcs_trans with (p1 := SDrop2 d v); [|apply pcs_set_pc]. intros i. apply drop2_pc. }
      assert (Hs' : Some s' = match d with DOk x => Some (set_pc (drop2 N s j d v) j (FWrite x v)) | DErr => Some (finish (drop2 N s j d v) j (ENoRecv j v)) | DCancel => Some (finish (drop2 N s j d v) j (ECancel j v)) end).
      { rewrite <- Hs. unfold drop2. destruct (h_slot (hs s j)); reflexivity. }
      assert (Nr : forall v, ~ emits s s' (ENoRecv j v)).
      { intros u K. assert (step N s (LStep j) = Some s') by (cbn [step]; rewrite Ej; exact Hs). pose proof (@C24_no_receiver_only_for_cause V N s (LStep j) s' j u Hr H K). congruence. }
      clear Hs. destruct d as [x| |]; injection Hs' as ->.
      * eapply quiet_snd with (j := j) (p := FWrite x v) (evs := evs); [exact L | apply Hp | now rewrite Ej | exact E4 | apply rst_same; assumption | cbn; now rewrite E1, E2 | exact El | exact Ee | reflexivity].
      * exfalso. apply (Nr v). exists (evs ++ [ENoRecv j v]). split; [cbn; rewrite El; now rewrite <- app_assoc | apply in_app_iff; right; now left].
      * eapply ret_snd with (j := j) (v := v) (r := Cancelled v) (e := ECancel j v) (evs := evs); [exact L | apply Hp | now rewrite Ej | | exact E4 | exact E2 | exact E1 | cbn; rewrite El; now rewrite <- app_assoc | exact Ee | reflexivity | reflexivity].
        apply A_cancelled; [apply L | rewrite (l_s L), Ej; reflexivity].
    + (* FWrite *)
      assert (Lo : located s x (AtSender j)) by (simpl; unfold hheld; now rewrite Ej).
      assert (N1 : ~ In x (readyq s)) by (intros K; pose proof (@place_unique _ N s x (AtSender j) AtReady Hr Lo K); discriminate).
      assert (N2 : rheld (recv s) <> Some x) by (intros K; pose proof (@place_unique _ N s x (AtSender j) AtReceiver Hr Lo K); discriminate).
      injection Hs as <-. eapply quiet_snd with (j := j) (p := FPush x v) (evs := []); [exact L | apply (pcs_set_pc (set_slot (set_bug s _) x (Some v))) | now rewrite Ej | reflexivity | | | cbn; now rewrite app_nil_r | reflexivity | reflexivity].
      * unfold rst. cbn. unfold upd. destruct (recv s) eqn:Er; auto. simpl in N2. destruct (Nat.eqb_spec x0 x) as [->|]; [congruence | reflexivity].
      * cbn. apply map_ext_in. intros y Hy. unfold upd. destruct (Nat.eqb_spec y x) as [->|]; [contradiction | reflexivity].
    + (* FPush *)
      assert (Lo : hheld (hs s j) = Some x) by (unfold hheld; now rewrite Ej).
      pose proof (IO_h (A_O IA) j Lo) as Hx. unfold hcont in Hx. rewrite Ej in Hx.
      injection Hs as <-. pose proof (A_b (InvAll_reach Hr')) as Hb. cbn in Hb. apply orb_false_iff in Hb. destruct Hb as [_ Hb]. apply Nat.leb_gt in Hb.
      exists [HAct (Snd j) (Sent v)], (q ++ [v]). split.
      { rewrite (@visible_eq s _ _ [ECommit j v]) by reflexivity. rewrite pends_same by reflexivity. reflexivity. }
      eapply lin_snd with (j := j) (p := FWake v); [exact L | apply (pcs_set_pc (emit (set_readyq (set_bug s _) _) _)) | repeat constructor | | cbn; rewrite !map_app, (l_q L); cbn; now rewrite Hx | now stat_tac | reflexivity].
      apply A_sent; [apply L | rewrite (l_s L), Ej; reflexivity|]. rewrite <- (map_length Some q), (l_q L), map_length. exact Hb.
    + (* FWake *)
      injection Hs as <-. destruct (wake_same s) as (E1 & E2 & _ & E4 & E5 & _ & E7 & _). destruct (wake_log s) as [k El].
      exists [HRet (Snd j) (Sent v)], q. split.
      { rewrite (@visible_eq s _ _ (map (@EWakeR V) k ++ [ESent j v])) by (cbn; rewrite El; now rewrite <- app_assoc). rewrite flat_map_app, wakes_quiet, pends_same by exact E7. reflexivity. }
      eapply lin_snd with (j := j) (p := HIdle); [exact L | | repeat constructor | | cbn; rewrite E4, E5; apply L | now stat_tac | apply rst_same; [exact E7 | exact E5]].
      * intros i. unfold finish. cbn. rewrite E2. unfold upd. destruct (Nat.eqb i j); reflexivity.
      * apply A_ret; [apply L|]. rewrite (l_s L), Ej. reflexivity.
    + (* HDropWake *)
      injection Hs as <-. destruct (wake_same s) as (E1 & E2 & _ & E4 & E5 & _ & E7 & _). destruct (wake_log s) as [k El].
      eapply quiet_snd with (j := j) (p := HGone) (evs := map (@EWakeR V) k); [exact L | | now rewrite Ej | exact E7 | apply rst_same; [exact E7 | exact E5] | cbn; now rewrite E4, E5 | exact El | apply wakes_quiet | reflexivity].
      intros i. cbn. rewrite E2. unfold upd. destruct (Nat.eqb i j); reflexivity.
  - (* cancel *)
    destruct (h_pc (hs s j)) eqn:Ej; try discriminate; injection Hs as <-.
    + eapply ret_snd with (j := j) (v := v) (r := Cancelled v) (e := ECancel j v) (evs := []); try reflexivity; [exact L | apply (pcs_set_pc s) | now rewrite Ej |].
      apply A_cancelled; [apply L | rewrite (l_s L), Ej; reflexivity].
    + eapply quiet_snd with (j := j) (evs := []); [exact L | apply pcs_set_pc | now rewrite Ej | reflexivity | reflexivity | reflexivity | cbn; now rewrite app_nil_r | reflexivity | reflexivity].
  - (* drop of a sender *)
    destruct (h_pc (hs s j)) eqn:Ej; try discriminate; injection Hs as <-.
    eapply quiet_snd with (j := j) (evs := []); [exact L | apply (pcs_set_pc (set_bug (set_nsend s _) _)) | rewrite Ej; destruct (_ =? 0); reflexivity | reflexivity | reflexivity | reflexivity | cbn; now rewrite app_nil_r | reflexivity | reflexivity].
  - (* try_recv *)
    destruct (recv s) eqn:Er; try discriminate; injection Hs as <-. exists [HCall Rcv Take], q. split; [unfold visible, pends; rewrite Er; cbn; now rewrite skipn_all|].
    eapply lin_rcv; [exact L | reflexivity | repeat constructor | apply A_call; [apply L | rewrite (l_r L); unfold rst; now rewrite Er] | apply L | now stat_tac].
  - (* recv *)
    assert (G : rst s = Resting -> pends s (set_recv s (RReg w)) = [] -> Some (set_recv s (RReg w)) = Some s' -> exists d q', seen d = visible s (LRecv w) s' /\ lin s' (h ++ d) q').
    { intros E0 E1 E. injection E as <-. exists [HCall Rcv Take], q. split; [unfold visible; rewrite E1; cbn; now rewrite skipn_all|].
      eapply lin_rcv; [exact L | reflexivity | repeat constructor | apply A_call; [apply L | now rewrite (l_r L)] | apply L | now stat_tac]. }
    unfold rst, pends in G. destruct (recv s) eqn:Er; try discriminate; apply G; auto.
  - (* step of the receiver *)
    pose proof (L_drop IL) as Dr. rewrite Hd in Dr. destruct (recv s) eqn:Er; try discriminate.
    + injection Hs as <-. destruct (reg_same s w) as (E1 & E2 & _ & E4 & E5 & _ & E7 & _). destruct (reg_log s w) as [k El].
      exists [], q. split; [rewrite (@visible_eq s _ _ (map (@EWakeR V) k)) by exact El; rewrite wakes_quiet; unfold pends; rewrite Er; reflexivity|].
      eapply lin_rcv; [exact L | cbn; now rewrite E2 | constructor | rewrite app_nil_r; apply L | cbn; rewrite E4, E5; apply L | rewrite app_nil_r, (l_r L); unfold rst; now rewrite Er].
    + destruct (readyq s) as [|x rq] eqn:Eq; injection Hs as <-.
      * assert (q = []) as -> by (pose proof (l_q L) as K; rewrite Eq in K; destruct q; [reflexivity | discriminate]).
        exists [HAct Rcv Nothing], []. split; [unfold visible, pends; rewrite Er; cbn; now rewrite skipn_all|].
        eapply lin_rcv; [exact L | reflexivity | repeat constructor | apply A_nothing; [apply L | rewrite (l_r L); unfold rst; now rewrite Er] | cbn; now rewrite Eq | now stat_tac].
      * pose proof (l_q L) as K. rewrite Eq in K. destruct q as [|v q]; [discriminate|]. cbn in K. injection K as K1 K2.
        exists [HAct Rcv (Got v)], q. split; [unfold visible, pends; rewrite Er; cbn; now rewrite skipn_all|].
        eapply lin_rcv; [exact L | reflexivity | repeat constructor | apply A_got; [apply L | rewrite (l_r L); unfold rst; now rewrite Er] | exact K2 | stat_tac; unfold rst; cbn; now rewrite <- K1].
    + pose proof (IO_recv (A_O IA)) as K. rewrite Er in K. cbn in K. specialize (K _ eq_refl). destruct (slots s x) as [v|] eqn:Ex; [|congruence]. injection Hs as <-.
      assert (N1 : ~ In x (readyq s)). { intros J. assert (Lo : located s x AtReceiver) by (simpl; now rewrite Er). pose proof (@place_unique _ N s x AtReceiver AtReady Hr Lo J). discriminate. }
      exists [], q. split; [unfold visible, pends; rewrite Er; cbn; now rewrite skipn_all|].
      eapply lin_rcv; [exact L | reflexivity | constructor | rewrite app_nil_r; apply L | | rewrite app_nil_r, (l_r L); unfold rst; rewrite Er, Ex; reflexivity].
      cbn. rewrite (l_q L). apply map_ext_in. intros y Hy. unfold upd. destruct (Nat.eqb_spec y x) as [->|]; [contradiction | reflexivity].
    + injection Hs as <-. destruct (return_same N s x) as (E1 & E2 & _). exists [HRet Rcv (Got v)], q. split.
      { rewrite (@visible_eq s _ _ (match wq s with [] => [] | j :: _ => [EHand j x] end ++ [ERecv v])) by (cbn; rewrite return_log; now rewrite <- app_assoc).
        unfold pends; rewrite Er. rewrite flat_map_app. destruct (wq s); reflexivity. }
      eapply lin_rcv; [exact L | intros i; cbn; now rewrite return_pc | repeat constructor | apply A_ret; [apply L | rewrite (l_r L); unfold rst; now rewrite Er] | cbn; rewrite E1, E2; apply L | now stat_tac].
    + assert (S0 : stat h Rcv = Took Nothing) by (rewrite (l_r L); unfold rst; now rewrite Er).
      exists [HRet Rcv Nothing], q.
      assert (G : forall t evs, log t = log s ++ evs -> flat_map (@rets V) evs ++ pends s t = [HRet Rcv Nothing] -> hs t = hs s -> slots t = slots s -> readyq t = readyq s -> rst t = Resting ->
        seen [HRet Rcv Nothing] = visible s LRStep t /\ lin t (h ++ [HRet Rcv Nothing]) q).
      { intros t evs El Ev E1 E2 E3 E4. split; [rewrite (@visible_eq s t _ evs El); cbn; now rewrite Ev|].
        eapply lin_rcv; [exact L | now rewrite E1 | repeat constructor | apply A_ret; [apply L | exact S0] | rewrite E2, E3; apply L | stat_tac; now rewrite E4]. }
      destruct (nsend s); [|destruct w as [w|]]; injection Hs as <-.
      * apply (G _ [ENoSender]); try reflexivity. unfold pends. rewrite Er. reflexivity.
      * apply (G _ []); try reflexivity; [cbn; now rewrite app_nil_r | unfold pends; rewrite Er; reflexivity].
      * apply (G _ [EEmpty]); try reflexivity. unfold pends. rewrite Er. reflexivity.
  - (* drop of a pending recv *)
    destruct (recv s) eqn:Er; try discriminate; injection Hs as <-. exists [], q. split; [unfold visible, pends; rewrite Er; cbn; now rewrite skipn_all|].
    eapply lin_rcv; [exact L | reflexivity | constructor | rewrite app_nil_r; apply L | apply L | rewrite app_nil_r, (l_r L); unfold rst; now rewrite Er].
  - congruence.
Qed.

Lemma keeps_alive (s s' : chan) l : rdropped s = false -> l <> LDropR -> step N s l = Some s' -> rdropped s' = false.
Proof.
  intros Hd Hl Hs. enough (rdropped s' = rdropped s) by congruence.
  destruct l as [|j k|j v|j v|j w|j|j|j| |w| | |]; cbn [step] in Hs; [| | | | | | | | | | | |congruence].
  all: repeat match type of Hs with
       | match ?x with _ => _ end = _ => destruct x eqn:?; try discriminate
       | (if ?x then _ else _) = _ => destruct x eqn:?; try discriminate
       end; injection Hs as <-; try reflexivity.
  all: try (match goal with |- context [send_poll ?a ?b ?c ?d] => destruct (poll_same a b c d) as (_ & _ & _ & _ & _ & _ & _ & _ & E); exact E end).
  all: cbn; rewrite ?return_rdropped; try reflexivity.
  all: try (match goal with |- context [wake_receiver ?a] => destruct (wake_same a) as (_ & _ & _ & _ & _ & E & _); exact E end).
  all: try (match goal with |- context [register_receiver ?a ?b] => destruct (reg_same a b) as (_ & _ & _ & _ & _ & E & _); exact E end).
  all: try (match goal with |- context [h_slot ?a] => destruct (h_slot a); rewrite ?return_rdropped; reflexivity end).
  all: assumption.
Qed.

Lemma lin_run ls : forall (s s' : chan) h q, creach N s -> rdropped s = false -> ~ In LDropR ls -> lin s h q -> run (step N) s ls = Some s' ->
  exists d q', seen d = history N s ls /\ lin s' (h ++ d) q'.
Proof.
  induction ls as [|l ls IH]; intros s s' h q Hr Hd Hl L Hrun; simpl in *.
  - injection Hrun as <-. exists [], q. split; [reflexivity | now rewrite app_nil_r].
  - destruct (step N s l) as [s1|] eqn:E; [|discriminate].
    destruct (@lin_step s s1 l h q Hr Hd ltac:(intros K; apply Hl; now left) L E) as (d1 & q1 & V1 & L1).
    destruct (IH s1 s' (h ++ d1) q1) as (d2 & q2 & V2 & L2); auto.
    + eapply reach_step; eauto.
    + eapply keeps_alive; [exact Hd | | exact E]. intros K. apply Hl. now left.
    + exists (d1 ++ d2), q2. split; [unfold seen in *; rewrite filter_app, V1, V2; reflexivity | now rewrite app_assoc].
Qed.

(** Whatever the interleaving, the calls and returns of a channel's operations are those of a queue on which every operation acts at one
    instant between its call and its return. *)
Theorem C90_operations_are_atomic :
  forall (ls : list (label V)) s, run (step N) chan_new ls = Some s -> ~ In LDropR ls ->
  exists (h : list (hev V)) q, seen h = history N chan_new ls /\ atomic false N h q.
Proof.
  intros ls s Hrun Hl. destruct (@lin_run ls chan_new s [] []) as (d & q & Hd & L); auto.
  - apply reach_refl.
  - constructor; try reflexivity. constructor.
  - exists d, q. split; [exact Hd | apply L].
Qed.

(** *** Operations that do not overlap *)
Lemma seen_stat (st : bool) (h : list (hev V)) q : atomic st N h q -> forall a : actor, (stat (seen h) a = Resting <-> stat h a = (Resting : stage V)).
Proof.
  unfold seen.
  assert (G : forall h (a b : actor) r, (stat (filter (fun e : hev V => match e with HAct _ _ => false | _ => true end) h) a = Resting <-> stat h a = Resting) -> stat h b <> Resting ->
    (stat (filter (fun e => match e with HAct _ _ => false | _ => true end) (h ++ [HAct b r])) a = Resting <-> stat (h ++ [HAct b r]) a = Resting)).
  { intros h0 a b r IH Hb. rewrite filter_app. cbn [filter]. rewrite app_nil_r, stat_snoc. cbn [after]. destruct (actor_eqb b a) eqn:E; [|exact IH].
    apply aeqb in E. subst b. rewrite IH. split; [contradiction | discriminate]. }
  assert (G' : forall h (e : hev V) a, match e with HAct _ _ => false | _ => true end = true -> (stat (filter (fun e : hev V => match e with HAct _ _ => false | _ => true end) h) a = Resting <-> stat h a = Resting) ->
    (stat (filter (fun e => match e with HAct _ _ => false | _ => true end) (h ++ [e])) a = Resting <-> stat (h ++ [e]) a = Resting)).
  { intros h0 e a He IH. rewrite filter_app. cbn [filter]. rewrite He, !stat_snoc. destruct e as [b c|b r|b r]; cbn [after]; try discriminate He; destruct (actor_eqb b a); tauto. }
  induction 1; intros b; try (apply G'; [reflexivity | auto]); try (apply G; [auto | congruence]). tauto.
Qed.

(** At most one operation is in progress at any time *)
Definition one_at_a_time (t : list (hev V)) : Prop := forall p r a b, t = p ++ r -> stat p a <> Resting -> stat p b <> Resting -> a = b.

(** Then the channel is exactly a bounded queue. *)
Theorem C90_without_overlap :
  forall (ls : list (label V)) s, run (step N) chan_new ls = Some s -> ~ In LDropR ls -> one_at_a_time (history N chan_new ls) ->
  exists (h : list (hev V)) q, seen h = history N chan_new ls /\ atomic true N h q.
Proof.
  intros ls s Hrun Hl Ho. destruct (C90_operations_are_atomic ls Hrun Hl) as (h & q & Hs & Ha). exists h, q. split; [exact Hs|]. rewrite <- Hs in Ho. clear Hrun Hl Hs ls s.
  assert (G : forall h' r, h = h' ++ r -> forall q, atomic false N h' q -> atomic true N h' q).
  2:{ apply (G h []); [now rewrite app_nil_r | exact Ha]. }
  clear Ha q. intros h' r E q Ha. revert r E. induction Ha; intros rr E; try (rewrite <- app_assoc in E; specialize (IHHa _ E)).
  - constructor.
  - now apply A_call.
  - now apply A_ret.
  - now apply A_sent.
  - assert (busy = []) as ->.
    { destruct busy as [|a busy]; [reflexivity|]. exfalso. apply H1. left.
      apply (Ho (seen h0) (seen ([HAct (Snd j) (Full v)] ++ rr))).
      - unfold seen. rewrite <- filter_app. now rewrite <- E.
      - rewrite (seen_stat Ha). apply H2. now left.
      - rewrite (seen_stat Ha). congruence. }
    eapply A_full with (busy := []); eauto.
  - now apply A_cancelled.
  - now apply A_got.
  - now apply A_nothing.
Qed.
End Proofs.

(** In the strict sense it is not so for overlapping operations: while task 0 is in the middle of [try_send], a task that preempts it
    is told first that the channel is full and then that it is empty. *)
Definition anomaly : list (label nat) := [LSplit; LClone 0 1; LTry 0 7; LStep 0; LStep 0; LTry 1 8; LStep 1; LStep 1; LTryRecv; LRStep; LRStep].
Definition anomaly_history : list (hev nat) := [HCall (Snd 0) (Put 7); HCall (Snd 1) (Put 8); HRet (Snd 1) (Full 8); HCall Rcv Take; HRet Rcv Nothing].

Lemma anomaly_not_atomic h q : atomic true 1 h q -> forall k, k <= 5 -> seen h = firstn k anomaly_history ->
  k < 5 /\ (k < 4 -> stat h Rcv = Resting) /\ (k = 2 -> stat h (Snd 1) = Took (Full 8) -> q <> []) /\ (k = 3 -> q <> []) /\
  (k = 4 -> (stat h Rcv = Called Take /\ q <> []) \/ exists v, stat h Rcv = Took (Got v)).
Proof.
  assert (S : forall (h : list (hev nat)) e k, match e with HAct _ _ => false | _ => true end = true -> k <= 5 -> seen (h ++ [e]) = firstn k anomaly_history ->
    exists k', k = S k' /\ seen h = firstn k' anomaly_history /\ nth_error anomaly_history k' = Some e).
  { intros h0 e k He Hk E. unfold seen in *. rewrite filter_app in E. cbn [filter] in E. rewrite He in E.
    do 6 (destruct k as [|k]; [cbn in E; first [destruct (filter _ h0); discriminate E | match type of E with _ = ?l => rewrite (app_removelast_last e (l := l)) in E by discriminate end; apply app_inj_tail in E; destruct E as [E1 E2]; eexists; split; [reflexivity|]; split; [exact E1 | cbn in *; congruence]]|]). lia. }
  assert (T : forall (h : list (hev nat)) a r, seen (h ++ [HAct a r]) = seen h) by (intros; unfold seen; rewrite filter_app; cbn; now rewrite app_nil_r).
  induction 1 as [|h q a c H IH Hst|h q a r H IH Hst|h q j v H IH Hst Hlen|h q j v busy H IH Hst Hnd Hni Hb Hn Hbs|h q j v H IH Hst|h v q H IH Hst|h H IH Hst]; intros k Hk E.
  - destruct k; [|discriminate]. repeat split; try lia; try discriminate.
  - destruct (S h (HCall a c) k eq_refl Hk E) as (k' & -> & E' & Nth). destruct (IH k' ltac:(lia) E') as (I1 & I2 & I3 & I4 & I5).
    destruct k' as [|[|[|[|[|k']]]]]; [| | | | |lia]; cbn in Nth; try discriminate; injection Nth as <- <-; rewrite !stat_snoc; cbn [after actor_eqb Nat.eqb].
    + repeat split; try (intros; lia); try discriminate. intros _. apply I2. lia.
    + repeat split; try (intros; lia); try discriminate. intros _. apply I2. lia.
    + repeat split; try (intros; lia); try discriminate. intros _. left. split; [reflexivity | auto].
  - destruct (S h (HRet a r) k eq_refl Hk E) as (k' & -> & E' & Nth). destruct (IH k' ltac:(lia) E') as (I1 & I2 & I3 & I4 & I5).
    destruct k' as [|[|[|[|[|k']]]]]; [| | | | |lia]; cbn in Nth; try discriminate; injection Nth as <- <-.
    + rewrite !stat_snoc; cbn [after actor_eqb Nat.eqb]. repeat split; try (intros; lia); auto; try discriminate.
    + exfalso. destruct (I5 eq_refl) as [[K _] | [v K]]; congruence.
  - rewrite T in E. destruct (IH k Hk E) as (I1 & I2 & I3 & I4 & I5). rewrite !stat_snoc. cbn [after actor_eqb]. repeat split; auto; try (intros; now destruct q).
    intros K. destruct (I5 K) as [[K1 K2] | K1]; [left; split; [exact K1 | now destruct q] | now right].
  - rewrite T in E. destruct (IH k Hk E) as (I1 & I2 & I3 & I4 & I5). specialize (Hbs eq_refl). subst busy. rewrite !stat_snoc. cbn [after actor_eqb]. repeat split; auto.
    intros _ _. destruct q; [cbn in Hn; lia | discriminate].
  - rewrite T in E. destruct (IH k Hk E) as (I1 & I2 & I3 & I4 & I5). rewrite !stat_snoc. cbn [after actor_eqb]. repeat split; auto.
    intros Ek. destruct (Nat.eqb j 1); [discriminate | auto].
  - rewrite T in E. destruct (IH k Hk E) as (I1 & I2 & I3 & I4 & I5). assert (k = 4) as -> by (destruct (Nat.lt_ge_cases k 4) as [K|K]; [rewrite (I2 K) in Hst; discriminate | lia]).
    rewrite !stat_snoc. cbn [after actor_eqb]. repeat split; try lia. intros _. right. eauto.
  - rewrite T in E. destruct (IH k Hk E) as (I1 & I2 & I3 & I4 & I5). assert (k = 4) as -> by (destruct (Nat.lt_ge_cases k 4) as [K|K]; [rewrite (I2 K) in Hst; discriminate | lia]).
    exfalso. destruct (I5 eq_refl) as [[_ K] | [v K]]; congruence.
Qed.

Theorem C90_full_then_empty_refuted :
  exists ls s, run (step 1) chan_new ls = Some s /\ ~ In LDropR ls /\ history 1 chan_new ls = anomaly_history /\
  forall h q, seen h = history 1 chan_new ls -> ~ atomic true 1 h q.
Proof.
  assert (Eh : history 1 chan_new anomaly = anomaly_history) by reflexivity.
  exists anomaly. destruct (run (step 1) chan_new anomaly) as [s|] eqn:E; [|vm_compute in E; discriminate].
  exists s. split; [reflexivity|]. split; [simpl; intuition discriminate|]. split; [exact Eh|]. intros h q Hs Ha. rewrite Eh in Hs.
  destruct (anomaly_not_atomic Ha (k := 5) ltac:(lia) Hs) as [K _]. lia.
Qed.

(** A case in which operations overlap, with a [send] that waits, and one in which they do not. *)
Definition overlap_run : list (label nat) := [LSplit; LClone 0 1; LTry 0 7; LSend 1 8; LStep 0; LStep 0; LPoll 1 50; LStep 0; LStep 0; LTryRecv; LRStep; LStep 0; LRStep; LRStep; LPoll 1 50;
  LStep 1; LStep 1; LStep 1; LStep 1; LStep 1; LRecv 9; LRStep; LRStep; LRStep; LRStep].
Example C90_case : (exists s, run (step 1) chan_new overlap_run = Some s) /\ ~ In LDropR overlap_run /\
  history 1 chan_new overlap_run =
    [HCall (Snd 0) (Put 7); HCall (Snd 1) (Put 8); HCall Rcv Take; HRet (Snd 0) (Sent 7); HRet Rcv (Got 7); HRet (Snd 1) (Sent 8); HCall Rcv Take; HRet Rcv (Got 8)].
Proof.
  split; [|split].
  - destruct (run (step 1) chan_new overlap_run) as [s|] eqn:E; [eauto | vm_compute in E; discriminate].
  - simpl. intuition discriminate.
  - vm_compute. reflexivity.
Qed.
Definition sequential_run : list (label nat) := [LSplit; LTry 0 7; LStep 0; LStep 0; LStep 0; LStep 0; LStep 0; LTry 0 8; LStep 0; LStep 0].
Definition sequential_history : list (hev nat) := [HCall (Snd 0) (Put 7); HRet (Snd 0) (Sent 7); HCall (Snd 0) (Put 8); HRet (Snd 0) (Full 8)].
Example C90_case_sequential : (exists s, run (step 1) chan_new sequential_run = Some s) /\ history 1 chan_new sequential_run = sequential_history /\ one_at_a_time sequential_history.
Proof.
  split; [|split].
  - destruct (run (step 1) chan_new sequential_run) as [s|] eqn:E; [eauto | vm_compute in E; discriminate].
  - vm_compute. reflexivity.
  - assert (G : forall p r (a : actor), sequential_history = p ++ r -> stat p a <> Resting -> a = Snd 0).
    { intros p r [[|j]|] E Hs; [reflexivity | |]; exfalso; apply Hs; clear Hs; unfold sequential_history in E.
      all: destruct p as [|e1 p]; [reflexivity | injection E as <- E]; destruct p as [|e2 p]; [reflexivity | injection E as <- E]; destruct p as [|e3 p]; [reflexivity | injection E as <- E];
        destruct p as [|e4 p]; [reflexivity | injection E as <- E]; destruct p; [reflexivity | discriminate E]. }
    intros p r a b E Ha Hb. rewrite (G p r a E Ha), (G p r b E Hb). reflexivity.
Qed.
