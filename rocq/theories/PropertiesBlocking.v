(** C72: lower-priority code delays a pending interrupt for at most one critical section.
    Vocabulary: [waiting], [low_step], [inside_call] in Blocking.v; the machine: LockModel.v, LockBackends.v. *)
From Coq Require Import NArith.
From Verif Require Import Base LTS LockModel LockSpec LockProofs LockBackends LockBackendProofs LockSourceProofs LockFinal PropertiesLock Blocking.
Set Implicit Arguments.

(** From any reachable state [s0] on, while interrupt [i] is pending (in every step the hardware does not take it only if
    it is masked, or something of at least its priority is active or taken first): the code of lower priority that
    runs is all inside one call of [lock], whose ceiling is at least the priority of [i] and which was open in [s0] already, and no handler of lower priority starts. *)
Definition delayed_once (B : backend) (A : lapp) m0 x0 : Prop := forall i s0 s l s', In i (l_lines A) -> @mreach B A m0 x0 s0 ->
  greach (@mstep B A) (waiting A i) s0 s -> waiting A i s l -> mstep A s l = Some s' -> low_step A (l_prio A i) s l ->
  inside_call A i s0 s /\ forall j, l <> LTake j.

Theorem C72_basepri_one_section bits A : 1 <= bits <= 7 -> app_ok A (2 ^ bits) -> @delayed_once (bp bits A) A breg0 breg0.
Proof.
  intros Hb Hok i s0 s l s' Hi R. apply (@one_section (bp bits A) A (2 ^ bits) breg0 breg0 _ _ _ (@basepri_ok bits A Hb (proj1 Hok)) Hok); auto.
  - intros c i' j _ _ H X. apply Nat.ltb_lt in X. apply Nat.ltb_lt. lia.
  - intros c. simpl. destruct (is_max bits c); simpl; lia.
  - intros c x. simpl. destruct (is_max bits c); simpl; lia.
Qed.

(** ESP32-C3 / C6: with rising ceilings in nested calls only (see C06). *)
Theorem C72_threshold_one_section_partial A : app_ok A 15 -> (forall c c', l_nest A c c' = true -> c <= c') -> @delayed_once (th A) A treg0 treg0.
Proof.
  intros Hok Hn i s0 s l s' Hi R. apply (@one_section (th A) A 15 treg0 treg0 _ _ _ (@thresh_ok A (proj1 Hok) Hn) Hok); auto.
  - intros i' I. cbv [admits th thresh_backend treg0 mie_off thresh negb andb]. apply Nat.leb_le. exact (proj1 (proj1 Hok i' I)).
  - intros c i' j _ _ H X. apply Nat.ltb_lt in X. apply Nat.ltb_lt. lia.
  - intros c. simpl. destruct (c =? 15); simpl; lia.
  - intros c x. simpl. destruct (c =? 15); simpl; lia.
Qed.

(** Source masking (ARMv6-M, ARMv8-M Baseline): if all interrupt numbers are below 32 (one mask word), no task is bound to a core exception, and
    the interrupts are enabled. *)
Lemma active_len lines irqn exc mask : length (active lines irqn exc mask) <= chunks lines irqn exc.
Proof. unfold active. etransitivity; [|rewrite <- (seq_length (chunks lines irqn exc) 0); reflexivity]. induction (seq 0 _) as [|k l IH]; simpl; [lia|]. destruct (negb _); simpl; lia. Qed.
Theorem C72_source_one_section_partial A irqn m0 : app_ok A 4 ->
  (forall i j, In i (l_lines A) -> In j (l_lines A) -> irqn i = irqn j -> i = j) -> (forall i, In i (l_lines A) -> irqn i < 32) ->
  1 <= length (iser m0) -> (forall i, In i (l_lines A) -> admits (nv A irqn (fun _ => false)) m0 i = true) ->
  @delayed_once (nv A irqn (fun _ => false)) A m0 m0.
Proof.
  intros Hok Hinj H32 Hl Ha i s0 s l s' Hi R. assert (C1 : chunks (l_lines A) irqn (fun _ => false) <= 1).
  { unfold chunks, compute_mask_chunks, all_ids. assert (H : forall l x, x < 32 -> (forall y, In y l -> y < 32) -> fold_left (fun mx id => if mx <? id then id else mx) l x < 32).
    { clear. induction l as [|y l IH]; intros x Hx H; [exact Hx|]. simpl. apply IH; [destruct (x <? y); auto; apply H; now left|intros z I; apply H; now right]. }
    match goal with |- context [fold_left ?f ?l 0] => assert (X : fold_left f l 0 < 32) end.
    { apply H; [lia|]. intros y I. apply in_map_iff in I as (j & <- & J). apply filter_In in J as [J _]. auto. }
    apply Nat.lt_succ_r. apply Nat.div_lt_upper_bound; lia. }
  assert (Hc : chunks (l_lines A) irqn (fun _ => false) <= length (iser m0)) by lia.
  assert (Hinj' : forall i j, In i (l_lines A) -> In j (l_lines A) -> (fun _ => false) i = false -> (fun _ : nat => false) j = false -> irqn i = irqn j -> i = j) by auto.
  apply (@one_section (nv A irqn (fun _ => false)) A 4 m0 m0 _ _ _ (@source_ok A irqn (fun _ => false) m0 (proj1 Hok) Hinj' Hc) Hok); auto.
  - intros c i' j Ij Ii H. unfold sfree. destruct (4 <=? c); [discriminate|]. simpl. rewrite !Nat.ltb_lt. lia.
  - intros c. cbn [enter nv source_backend]. destruct (4 <=? c); [simpl; lia|]. rewrite map_length. etransitivity; [apply active_len|exact C1].
  - intros c x. cbn [leave nv source_backend]. destruct (4 <=? c); [simpl; lia|]. rewrite map_length. etransitivity; [apply active_len|exact C1].
  - intros c Hct. unfold sfree. rewrite orb_false_l. destruct (Nat.leb_spec 4 c); [|reflexivity]. symmetry. apply Nat.ltb_ge. pose proof (proj1 Hok i Hi). lia.
Qed.
Print Assumptions C72_basepri_one_section.
Print Assumptions C72_threshold_one_section_partial.
Print Assumptions C72_source_one_section_partial.

(** Not in general with source masking. *)
Lemma not_inside (B : backend) (A : lapp) i (s0 s : mach B) : length (m_stack s0) < length (m_stack s) -> ~ inside_call A i s0 s.
Proof. intros L (above0 & f0 & f & fs & r & es0 & e0 & es & e & outer & E0 & E & _). rewrite E0, E, app_length in L. simpl in L. lia. Qed.
Definition delayed_twice (B : backend) (A : lapp) m0 x0 i : Prop := exists s0 s l s', In i (l_lines A) /\ @mreach B A m0 x0 s0 /\
  greach (@mstep B A) (waiting A i) s0 s /\ waiting A i s l /\ mstep A s l = Some s' /\ low_step A (l_prio A i) s l /\ ~ inside_call A i s0 s.

(** Boolean checks, for running the counterexamples. *)
Definition waitb (B : backend) (A : lapp) i (s : mach B) l : bool :=
  negb (match l with LTake j => j =? i | _ => false end) && (negb (can_take A s i) || match l with LTake j => l_prio A i <=? l_prio A j | _ => false end).
Lemma waitb_ok (B : backend) (A : lapp) i (s : mach B) l : waitb A i s l = true -> waiting A i s l.
Proof.
  intros H. apply andb_prop in H as [H1 H2]. split.
  - intros ->. rewrite Nat.eqb_refl in H1. discriminate.
  - intros C. rewrite C in H2. simpl in H2. destruct l as [j|t| |r| | |]; try discriminate. apply Nat.leb_le in H2. eauto.
Qed.
Fixpoint gwaitb (B : backend) (A : lapp) i (s : mach B) ls : bool :=
  match ls with [] => true | l :: ls => waitb A i s l && match mstep A s l with Some s' => gwaitb A i s' ls | None => false end end.
Lemma gwaitb_ok (B : backend) (A : lapp) i ls (s : mach B) : gwaitb A i s ls = true -> guarded (@mstep B A) (waiting A i) s ls.
Proof.
  revert s. induction ls as [|l ls IH]; intros s H; simpl in *; [exact I|]. apply andb_prop in H as [H1 H2]. apply waitb_ok in H1.
  destruct (mstep A s l) eqn:E; [|discriminate]. auto.
Qed.
Definition lowb (B : backend) (A : lapp) p (s : mach B) : bool := forallb (fun f => lprio A (f_line f) <? p) (m_stack s).
Lemma twice_check (B : backend) (A : lapp) m0 x0 i pre mid l :
  In i (l_lines A) -> (forall j, l <> LTake j) ->
  match run (@mstep B A) (m_init B m0 x0) pre with
  | Some s0 => gwaitb A i s0 mid && match run (@mstep B A) s0 mid with
      | Some s => waitb A i s l && match mstep A s l with Some _ => true | None => false end && lowb A (l_prio A i) s && (length (m_stack s0) <? length (m_stack s))
      | None => false end
  | None => false end = true -> @delayed_twice B A m0 x0 i.
Proof.
  intros Hi Nl H. destruct (run _ _ pre) as [s0|] eqn:E0; [|discriminate]. apply andb_prop in H as [H1 H]. destruct (run _ s0 mid) as [s|] eqn:E; [|discriminate].
  apply andb_prop in H as [H H5]. apply andb_prop in H as [H H4]. apply andb_prop in H as [H2 H3]. destruct (mstep A s l) as [s'|] eqn:Es; [|discriminate].
  exists s0, s, l, s'. split; [exact Hi|]. split; [now exists pre|]. split; [exists mid; split; [now apply gwaitb_ok|exact E]|]. split; [now apply waitb_ok|]. split; [exact Es|].
  split; [|apply not_inside; now apply Nat.ltb_lt]. split; [|destruct l; auto; now elim (Nl i0)].
  intros f F. unfold lowb in H4. rewrite forallb_forall in H4. now apply Nat.ltb_lt, H4.
Qed.

(** Interrupts in two mask words (numbers 3, 40, 5): task 0, of priority 1, locks resource 1, of ceiling 3.  After the write to the
    first word interrupt 2, of priority 3, is masked, and interrupt 1, of priority 2, is not: its handler runs in full while interrupt 2 waits. *)
Theorem C72_two_words_refuted : exists A irqn m0, app_ok A 4 /\ (forall i j, In i (l_lines A) -> In j (l_lines A) -> irqn i = irqn j -> i = j) /\
  chunks (l_lines A) irqn (fun _ => false) <= length (iser m0) /\ (forall i, In i (l_lines A) -> admits (nv A irqn (fun _ => false)) m0 i = true) /\
  exists i, @delayed_twice (nv A irqn (fun _ => false)) A m0 m0 i.
Proof.
  exists ex_any, ex_irqn, ex_nr. split; [apply ex_app_ok; lia|]. split; [|split; [|split]].
  - intros i j [<-|[<-|[<-|[]]]] [<-|[<-|[<-|[]]]]; vm_compute; auto; discriminate.
  - vm_compute. lia.
  - intros i [<-|[<-|[<-|[]]]]; reflexivity.
  - exists 2. apply (@twice_check (nv ex_any ex_irqn (fun _ => false)) ex_any ex_nr ex_nr 2 [LTake 0; LStart 0; LLock 1; LMicro] [LTake 1; LStart 1] LStop); [vm_compute; auto|discriminate|vm_compute; reflexivity].
Qed.
(** A core exception (interrupt 1, e.g. SysTick) is not masked: the same with one mask word. *)
Theorem C72_exception_refuted : exists A irqn exc m0, app_ok A 4 /\ (forall i j, In i (l_lines A) -> In j (l_lines A) -> irqn i = irqn j -> i = j) /\
  (forall i, In i (l_lines A) -> irqn i < 32) /\ 1 <= length (iser m0) /\ (forall i, In i (l_lines A) -> admits (nv A irqn exc) m0 i = true) /\
  exists i, exc i = false /\ @delayed_twice (nv A irqn exc) A m0 m0 i.
Proof.
  exists ex_any, (fun i => i), (fun i => i =? 1), (mkNr [5]%N false). split; [apply ex_app_ok; lia|]. split; [auto|]. split; [|split; [|split]].
  - intros i [<-|[<-|[<-|[]]]]; lia.
  - simpl. lia.
  - intros i [<-|[<-|[<-|[]]]]; reflexivity.
  - exists 2. split; [reflexivity|].
    apply (@twice_check (nv ex_any (fun i => i) (fun i => i =? 1)) ex_any (mkNr [5]%N false) (mkNr [5]%N false) 2 [LTake 0; LStart 0; LLock 1; LMicro; LMicro] [LTake 1; LStart 1] LStop); [vm_compute; auto|discriminate|vm_compute; reflexivity].
Qed.
Print Assumptions C72_two_words_refuted.
Print Assumptions C72_exception_refuted.

(** Task 0 holds resources 1 and 0 when interrupt 1 becomes pending; it runs on, inside the call on resource 1, while that waits. *)
Definition wait_case (B : backend) (A : lapp) m0 x0 i pre mid l : bool :=
  match run (@mstep B A) (m_init B m0 x0) pre with
  | Some s0 => gwaitb A i s0 mid && match run (@mstep B A) s0 mid with
      | Some s => waitb A i s l && match mstep A s l with Some _ => true | None => false end && lowb A (l_prio A i) s
      | None => false end
  | None => false end.
Lemma wait_case_ok (B : backend) (A : lapp) m0 x0 i pre mid l : (forall j, l <> LTake j) -> wait_case B A m0 x0 i pre mid l = true ->
  exists s0 s s', @mreach B A m0 x0 s0 /\ greach (@mstep B A) (waiting A i) s0 s /\ waiting A i s l /\ mstep A s l = Some s' /\ low_step A (l_prio A i) s l.
Proof.
  unfold wait_case. intros Nl H. destruct (run _ _ pre) as [s0|] eqn:E0; [|discriminate]. apply andb_prop in H as [H1 H]. destruct (run _ s0 mid) as [s|] eqn:E; [|discriminate].
  apply andb_prop in H as [H H4]. apply andb_prop in H as [H2 H3]. destruct (mstep A s l) as [s'|] eqn:Es; [|discriminate].
  exists s0, s, s'. split; [now exists pre|]. split; [exists mid; split; [now apply gwaitb_ok|exact E]|]. split; [now apply waitb_ok|]. split; [exact Es|].
  split; [|destruct l; auto; now elim (Nl i0)]. intros f F. unfold lowb in H4. rewrite forallb_forall in H4. now apply Nat.ltb_lt, H4.
Qed.
Example C72_basepri_case : exists s0 s s', @mreach (bp 3 ex_any) ex_any breg0 breg0 s0 /\ greach (@mstep (bp 3 ex_any) ex_any) (waiting ex_any 1) s0 s /\
  waiting ex_any 1 s LUnlock /\ mstep ex_any s LUnlock = Some s' /\ low_step ex_any (l_prio ex_any 1) s LUnlock.
Proof. apply (@wait_case_ok (bp 3 ex_any) ex_any breg0 breg0 1 ex_sched [LUnlock; LMicro; LMicro] LUnlock); [discriminate|vm_compute; reflexivity]. Qed.
(** Interrupt 2 is taken in between. *)
Example C72_threshold_case : exists s0 s s', @mreach (th ex_inc) ex_inc treg0 treg0 s0 /\ greach (@mstep (th ex_inc) ex_inc) (waiting ex_inc 1) s0 s /\
  waiting ex_inc 1 s LUnlock /\ mstep ex_inc s LUnlock = Some s' /\ low_step ex_inc (l_prio ex_inc 1) s LUnlock.
Proof. apply (@wait_case_ok (th ex_inc) ex_inc treg0 treg0 1 [LTake 0; LStart 0; LLock 0; LMicro; LMicro; LLock 1; LMicro; LMicro] [LUnlock; LMicro; LMicro; LTake 2; LRet] LUnlock); [discriminate|vm_compute; reflexivity]. Qed.
Example C72_source_case : (forall i, In i (l_lines ex_any) -> admits (nv ex_any (fun i => i) (fun _ => false)) (mkNr [7]%N false) i = true) /\
  exists s0 s s', @mreach (nv ex_any (fun i => i) (fun _ => false)) ex_any (mkNr [7]%N false) (mkNr [7]%N false) s0 /\
  greach (@mstep (nv ex_any (fun i => i) (fun _ => false)) ex_any) (waiting ex_any 1) s0 s /\
  waiting ex_any 1 s LUnlock /\ mstep ex_any s LUnlock = Some s' /\ low_step ex_any (l_prio ex_any 1) s LUnlock.
Proof.
  split; [intros i [<-|[<-|[<-|[]]]]; reflexivity|].
  apply (@wait_case_ok (nv ex_any (fun i => i) (fun _ => false)) ex_any (mkNr [7]%N false) (mkNr [7]%N false) 1 ex_sched [LUnlock; LMicro; LMicro] LUnlock); [discriminate|vm_compute; reflexivity].
Qed.
