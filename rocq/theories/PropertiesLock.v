(** Properties C01-C06 and C13: resource locks on the three masking backends.
    Vocabulary: LockSpec.v; machine and backends: LockModel.v, LockBackends.v. *)
From Coq Require Import NArith.
From Verif Require Import Base LTS LockModel LockSpec LockProofs LockBackends LockBackendProofs LockSourceProofs LockFinal.
Set Implicit Arguments.

(** The machine with each backend, started in thread mode with nothing masked. *)
Definition bp (bits : nat) (A : lapp) : backend := basepri_backend bits (l_prio A).
Definition bp_reach bits A : mach (bp bits A) -> Prop := @mreach (bp bits A) A breg0 breg0.
Definition nv (A : lapp) irqn exc : backend := source_backend (l_lines A) (l_prio A) irqn exc.
Definition nv_reach A irqn exc m0 : mach (nv A irqn exc) -> Prop := @mreach (nv A irqn exc) A m0 m0.
Definition th (A : lapp) : backend := thresh_backend (l_prio A).
Definition th_reach A : mach (th A) -> Prop := @mreach (th A) A treg0 treg0.

(** Boolean versions, for the examples. *)
Definition holdsb (B : backend) (f : frame B) (r : nat) : bool := existsb (fun e => (e_res e =? r) && match e_ph e with PHeld => true | _ => false end) (f_ents f).
Lemma holdsb_spec (B : backend) (f : frame B) r : holdsb f r = true -> holds f r.
Proof.
  intros H. apply existsb_exists in H as (e & He & H). apply andb_prop in H as [H1 H2]. apply Nat.eqb_eq in H1.
  exists e. destruct (e_ph e) eqn:E; try discriminate. auto.
Qed.
Definition top1 (B : backend) (s : mach B) (p : frame B -> bool) : bool := match m_stack s with f :: _ => p f | [] => false end.
Definition top2 (B : backend) (s : mach B) (p : frame B -> frame B -> bool) : bool := match m_stack s with g :: f :: _ => p g f | _ => false end.
Lemma run_check (B : backend) (o : option (mach B)) (P : mach B -> bool) : match o with Some s => P s | None => false end = true -> exists s, o = Some s /\ P s = true.
Proof. destruct o; [eauto|discriminate]. Qed.

Lemma two_holders (B : backend) (A : lapp) (s : mach B) g f below r : mutual_exclusion A s -> m_stack s = g :: f :: below -> holds f r -> holds g r -> False.
Proof. intros X E Hf Hg. destruct (X r [g] f below E Hf) as (_ & H & _). exact (H g (or_introl eq_refl) Hg). Qed.

(** An example application: interrupts 0, 1, 2 with priorities 1, 2, 3; tasks 0, 1, 2 bound to them, task 3 in
    thread mode.  Resource 0: tasks 0 and 1; resource 1: tasks 1 and 2, and 0; resource 2: tasks 0 and 3. *)
Definition ex_uses (t r : nat) : bool :=
  match r, t with 0, 0 | 0, 1 | 1, 0 | 1, 1 | 1, 2 | 2, 0 | 2, 3 => true | _, _ => false end.
Definition ex_app (nest : nat -> nat -> bool) : lapp :=
  {| l_lines := [0; 1; 2]; l_prio := fun i => match i with 0 => 1 | 1 => 2 | _ => 3 end;
     l_line := fun t => match t with 0 | 1 | 2 => Some t | _ => None end; l_uses := ex_uses;
     l_ceil := fun r => match r with 0 => 2 | 1 => 3 | _ => 1 end; l_nest := nest |}.
Lemma ex_app_ok nest top : 3 <= top -> app_ok (ex_app nest) top.
Proof.
  intros Ht. repeat split; simpl.
  - destruct H as [<-|[<-|[<-|[]]]]; lia.
  - destruct H as [<-|[<-|[<-|[]]]]; lia.
  - intros [|[|[|[|t]]]] [|[|[|r]]] H; simpl in *; try discriminate; unfold tprio, lprio; simpl; lia.
  - intros [|[|[|r]]]; lia.
Qed.

Section BasepriProps.
Context (bits : nat) (A : lapp) (Hbits : 1 <= bits <= 7) (Hok : app_ok A (2 ^ bits)).
Notation B := (bp bits A).
Let K : backend_ok B A (2 ^ bits) breg0 (bgood bits) (fun _ _ => True) (fun c i => c <? l_prio A i) := @basepri_ok bits A Hbits (proj1 Hok).

(** * C01 *)
Theorem C01_basepri_mutual_exclusion (s : mach B) : bp_reach s -> mutual_exclusion A s.
Proof.
  intros R r. refine (gen_excl K Hok _ R). intros i t Hin Hl Hu. apply Nat.ltb_ge. pose proof (proj1 (proj2 Hok) t r Hu) as H. unfold tprio in H. now rewrite Hl in H.
Qed.

(** * C02 *)
(** The masking registers are determined by what is going on: whenever the same handlers with the same open locks
    are active again (in particular after a lock call, or after preempting handlers have returned), the registers
    hold the same values, and when nothing is going on they are as after start-up. *)
Theorem C02_basepri_restored (s1 s2 : mach B) : bp_reach s1 -> bp_reach s2 -> activity s1 = activity s2 -> m_mask s1 = m_mask s2.
Proof. exact (gen_restore K Hok (s1 := s1) (s2 := s2)). Qed.
Theorem C02_basepri_idle (s : mach B) : bp_reach s -> all_idle s -> m_mask s = breg0.
Proof. exact (gen_idle K Hok (s := s)). Qed.
(** No over-blocking: an interrupt above the running handlers and above the ceilings of all open locks is taken. *)
Theorem C02_not_overblocked (s : mach B) i : bp_reach s -> In i (l_lines A) ->
  (forall f, In f (m_stack s) -> lprio A (f_line f) < l_prio A i) ->
  (forall f r, In f (m_stack s) -> in_lock f r -> l_ceil A r < l_prio A i) -> can_take A s i = true.
Proof.
  intros R Hin H1 H2. refine (gen_no_overblock K Hok i R Hin eq_refl H1 _). intros f r Hf Hl. apply Nat.ltb_lt. eauto.
Qed.
(** ... and only such interrupts are taken. *)
Theorem C02_masked (s : mach B) i : bp_reach s -> can_take A s i = true ->
  (forall f, In f (m_stack s) -> lprio A (f_line f) < l_prio A i) /\ (forall f r, In f (m_stack s) -> holds f r -> l_ceil A r < l_prio A i).
Proof. intros R H. destruct (gen_take K Hok i R H) as (_ & H1 & H2). split; [exact H1|]. intros f r Hf Hh. apply Nat.ltb_lt. exact (H2 f r Hf Hh). Qed.

(** * C13 *)
(** Only higher-priority tasks delay a task: whatever has preempted a handler has a higher priority. *)
Theorem C13_delayed_only_by_higher (s : mach B) above f below g :
  bp_reach s -> m_stack s = above ++ f :: below -> In g above -> lprio A (f_line f) < lprio A (f_line g).
Proof. exact (@gen_increasing B A (2 ^ bits) breg0 breg0 _ _ _ K Hok s above f below g). Qed.
(** [lock] never waits: a task inside none of its own pending lock operations can always start a lock of any
    resource it uses (the borrow checker rules out one it has already locked), and goes on without waiting: one
    register write, then the closure runs. *)
Theorem C13_lock_never_waits (s : mach B) f fs t r :
  bp_reach s -> (forall c c', l_nest A c c' = true) -> m_stack s = f :: fs -> f_task f = Some t -> calm (f_ents f) = true -> l_uses A t r = true -> ~ in_lock f r ->
  exists s1 s2 s3, mstep A s (LLock r) = Some s1 /\ mstep A s1 LMicro = Some s2 /\ mstep A s2 LMicro = Some s3 /\
    exists f', m_stack s3 = f' :: fs /\ f_line f' = f_line f /\ f_task f' = Some t /\ holds f' r.
Proof.
  intros R Hn E Et Hc Hu Hl. unfold mstep at 1. rewrite E, Et, Hu, Hc. replace (nest_ok A (f_ents f) r) with true by (unfold nest_ok; destruct (f_ents f); auto; now rewrite Hn).
  replace (locked (f_ents f) r) with false by (symmetry; apply not_true_is_false; intros X; apply locked_spec in X; exact (Hl X)). simpl.
  destruct (is_max bits (l_ceil A r)) eqn:Em; eexists _, _, _; (split; [reflexivity|]); unfold mstep, micro; simpl; rewrite Em; simpl;
    (split; [reflexivity|]); simpl; rewrite Em; simpl; (split; [reflexivity|]); simpl; eexists; repeat split; simpl; auto; eexists; (split; [left; reflexivity|split; reflexivity]).
Qed.
(** No deadlock: in every reachable state the running handler can go on, unless everything is idle and nothing is
    masked; and without new interrupts, tasks or locks everything ends after finitely many steps, whatever the order. *)
Theorem C13_no_deadlock (s : mach B) : bp_reach s ->
  ((exists l s', finishing l /\ mstep A s l = Some s') \/ (all_idle s /\ m_mask s = breg0)) /\
  exists n, forall ls s', Forall finishing ls -> run (@mstep B A) s ls = Some s' -> length ls <= n.
Proof. exact (@gen_finish B A (2 ^ bits) breg0 breg0 _ _ _ K Hok s). Qed.
(** A handler is dispatched only above the ceilings of all locks held. *)
Theorem C13_dispatched_above_ceilings (s s' : mach B) i : bp_reach s -> mstep A s (LTake i) = Some s' ->
  forall f r, In f (m_stack s) -> holds f r -> l_ceil A r < l_prio A i.
Proof.
  intros R H. unfold mstep in H. destruct (m_stack s) as [|f0 fs] eqn:E; [discriminate|]. destruct (can_take A s i) eqn:Et; [|discriminate].
  rewrite <- E. exact (proj2 (@C02_masked s i R Et)).
Qed.
(** Single blocking: at any time at most one handler of priority below [P] holds locks with ceilings >= [P]. *)
Theorem C13_single_blocking (s : mach B) P above f mid g below r r' : bp_reach s -> m_stack s = above ++ f :: mid ++ g :: below ->
  lprio A (f_line f) < P -> holds f r -> P <= l_ceil A r -> holds g r' -> P <= l_ceil A r' -> False.
Proof.
  intros R E Hp Hf Hc Hg Hc'. pose proof (wf_reach K Hok R) as W. rewrite E in W.
  assert (E2 : above ++ f :: mid ++ g :: below = (above ++ f :: mid) ++ g :: below) by (rewrite <- app_assoc; reflexivity). rewrite E2 in W.
  destruct (wf_above K Hok _ _ _ W f) as (i & Hl & _ & Hfr & _); [apply in_app_iff; right; now left|].
  specialize (Hfr g r' (or_introl eq_refl) Hg). apply Nat.ltb_lt in Hfr. rewrite Hl in Hp. simpl in Hp. lia.
Qed.
(** ... and when it has left them, and no other handler of priority >= P is active, an interrupt of priority P is
    taken at once. *)
Theorem C13_blocked_once (s : mach B) i : bp_reach s -> In i (l_lines A) ->
  (forall f, In f (m_stack s) -> lprio A (f_line f) < l_prio A i) ->
  can_take A s i = false -> exists f r, In f (m_stack s) /\ in_lock f r /\ l_prio A i <= l_ceil A r.
Proof.
  intros R Hin Hp Hn.
  destruct (existsb (fun f => existsb (fun e => l_prio A i <=? l_ceil A (e_res e)) (f_ents f)) (m_stack s)) eqn:Ex.
  - apply existsb_exists in Ex as (f & Hf & Ex). apply existsb_exists in Ex as (e & He & Ex). apply Nat.leb_le in Ex.
    exists f, (e_res e). repeat split; auto. exists e; auto.
  - exfalso. rewrite (C02_not_overblocked i R Hin Hp) in Hn; [discriminate|]. intros f r Hf (e & He & Er).
    apply Nat.nle_gt. intros X. enough (existsb (fun f => existsb (fun e => l_prio A i <=? l_ceil A (e_res e)) (f_ents f)) (m_stack s) = true) by congruence.
    apply existsb_exists. exists f. split; [exact Hf|]. apply existsb_exists. exists e. split; [exact He|]. apply Nat.leb_le. congruence.
Qed.
End BasepriProps.
Print Assumptions C01_basepri_mutual_exclusion.
Print Assumptions C02_basepri_restored.
Print Assumptions C02_basepri_idle.
Print Assumptions C02_not_overblocked.
Print Assumptions C02_masked.
Print Assumptions C13_delayed_only_by_higher.
Print Assumptions C13_lock_never_waits.
Print Assumptions C13_no_deadlock.
Print Assumptions C13_dispatched_above_ceilings.
Print Assumptions C13_single_blocking.
Print Assumptions C13_blocked_once.

(** Task 0 (priority 1) locks resource 1 and, inside, resource 0; no other task of the resources can start; after
    both are unlocked interrupt 2 preempts; at the end everything is as at the start. *)
Definition ex_any := ex_app (fun _ _ => true).
Definition ex_sched : list mlabel := [LTake 0; LStart 0; LLock 1; LMicro; LMicro; LLock 0; LMicro; LMicro].
Example C01_case : exists s : mach (bp 3 ex_any), bp_reach s /\ app_ok ex_any (2 ^ 3) /\
  (exists f fs, m_stack s = f :: fs /\ holds f 0 /\ holds f 1) /\
  can_take ex_any s 1 = false /\ can_take ex_any s 2 = false /\ basepri (m_mask s) = 160.
Proof.
  destruct (@run_check (bp 3 ex_any) (run (@mstep (bp 3 ex_any) ex_any) (m_init (bp 3 ex_any) breg0 breg0) ex_sched)
    (fun s => top1 s (fun f => holdsb f 0 && holdsb f 1) && negb (can_take ex_any s 1) && negb (can_take ex_any s 2) && (basepri (m_mask s) =? 160))) as (s & E & H); [vm_compute; reflexivity|].
  exists s. split; [eexists; exact E|]. split; [apply ex_app_ok; vm_compute; lia|]. clear E. apply andb_prop in H as [H H4]. apply andb_prop in H as [H H3]. apply andb_prop in H as [H1 H2].
  apply negb_true_iff in H2, H3. apply Nat.eqb_eq in H4. repeat split; auto.
  unfold top1 in H1. destruct (m_stack s) as [|f fs]; [discriminate|]. apply andb_prop in H1 as [H1 H5]. exists f, fs. repeat split; auto; now apply holdsb_spec.
Qed.
Definition idleb (B : backend) (s : mach B) : bool := match m_stack s with [f] => match f_line f, f_task f, f_ents f with None, None, [] => true | _, _, _ => false end | _ => false end.
Example C02_case : exists s2 : mach (bp 3 ex_any), bp_reach s2 /\ activity (m_init (bp 3 ex_any) breg0 breg0) = activity s2 /\ all_idle s2 /\
  run (@mstep (bp 3 ex_any) ex_any) (m_init (bp 3 ex_any) breg0 breg0)
    (ex_sched ++ [LUnlock; LMicro; LMicro; LUnlock; LMicro; LMicro; LTake 2; LStart 2; LStop; LRet; LStop; LRet]) = Some s2.
Proof.
  destruct (@run_check (bp 3 ex_any) (run (@mstep (bp 3 ex_any) ex_any) (m_init (bp 3 ex_any) breg0 breg0) (ex_sched ++ [LUnlock; LMicro; LMicro; LUnlock; LMicro; LMicro; LTake 2; LStart 2; LStop; LRet; LStop; LRet]))
    (@idleb _)) as (s & E & H); [vm_compute; reflexivity|].
  exists s. split; [eexists; exact E|].
  assert (Ha : all_idle s). { clear E. unfold idleb in H. unfold all_idle, activity. destruct (m_stack s) as [|f [|]]; try discriminate. destruct f as [[] [] ? []]; try discriminate. reflexivity. }
  split; [symmetry; exact Ha|]. split; [exact Ha|exact E].
Qed.

(** * C03 *)
Theorem C03_priority_mapping_partial bits l : 1 <= bits <= 7 -> 1 <= l <= 2 ^ bits ->
  exists h, logical2hw l bits = Some h /\ h < 256 /\ h mod 2 ^ (8 - bits) = 0 /\
    forall l', 1 <= l' <= 2 ^ bits -> exists h', logical2hw l' bits = Some h' /\ (h < h' <-> l' < l) /\ (h = h' -> l = l').
Proof.
  intros Hb Hl. exists ((2 ^ bits - l) * 2 ^ (8 - bits)). assert (P : 2 ^ 8 = 2 ^ bits * 2 ^ (8 - bits)) by (rewrite <- Nat.pow_add_r; f_equal; lia).
  assert (P2 : 0 < 2 ^ (8 - bits)) by (apply Nat.neq_0_lt_0, Nat.pow_nonzero; lia).
  split; [now apply hw_value|]. split; [change 256 with (2 ^ 8); rewrite P; apply Nat.mul_lt_mono_pos_r; lia|]. split; [apply Nat.mod_mul; lia|].
  intros l' Hl'. exists ((2 ^ bits - l') * 2 ^ (8 - bits)). split; [now apply hw_value|]. split.
  - rewrite <- Nat.mul_lt_mono_pos_r by exact P2. lia.
  - intros X. apply Nat.mul_cancel_r in X; lia.
Qed.
Print Assumptions C03_priority_mapping_partial.
(** The priority chosen for a monotonic's timer interrupt is a legal one, and not above the limit unless that is 0. *)
Theorem C03_monotonic_priority bits limit : 1 <= bits <= 7 -> exists p, monotonic_prio limit bits = Some p /\ 1 <= p <= 2 ^ bits /\ (1 <= limit -> p <= limit).
Proof.
  intros Hb. unfold monotonic_prio, shl8. assert (bits <? 8 = true) as -> by (apply Nat.ltb_lt; lia).
  assert (2 ^ bits < 256). { change 256 with (2 ^ 8). apply Nat.pow_lt_mono_r; lia. }
  assert (1 <= 2 ^ bits). { apply Nat.neq_0_lt_0, Nat.pow_nonzero. lia. }
  rewrite Nat.mul_1_l, Nat.mod_small by lia. eexists. split; [reflexivity|]. lia.
Qed.
Print Assumptions C03_monotonic_priority.
(** With all 8 bits implemented the computation overflows for every priority. *)
Theorem C03_eight_bits_refuted : forall l, logical2hw l 8 = None.
Proof. reflexivity. Qed.
Print Assumptions C03_eight_bits_refuted.
Example C03_case : logical2hw 1 4 = Some 240 /\ logical2hw 15 4 = Some 16 /\ logical2hw 16 4 = Some 0 /\ monotonic_prio 20 4 = Some 16.
Proof. vm_compute. auto. Qed.

(** * C04 *)
Section SourceProps.
Context (A : lapp) (irqn : nat -> nat) (exc : nat -> bool) (m0 : nreg) (Hok : app_ok A 4)
        (Hinj : forall i j, In i (l_lines A) -> In j (l_lines A) -> exc i = false -> exc j = false -> irqn i = irqn j -> i = j)
        (Hlen : chunks (l_lines A) irqn exc <= length (iser m0)).
Notation B := (nv A irqn exc).
Let K : backend_ok B A 4 m0 (sgood A irqn exc) (fun _ _ => True) (sfree A exc) := @source_ok A irqn exc m0 (proj1 Hok) Hinj Hlen.

(** The generated masks exist (no panic), and the mask of ceiling [c] has exactly the bits of the interrupts of
    priority 1..c. *)
Theorem C04_mask_exact c : c <= 3 ->
  (forall p, create_mask (chunks (l_lines A) irqn exc) (ids_at (l_lines A) (l_prio A) irqn exc p) <> None) /\
  forall n, mbit (compute_mask (chunks (l_lines A) irqn exc) (masks (l_lines A) (l_prio A) irqn exc) c) n = true <->
    exists i, In i (l_lines A) /\ exc i = false /\ 1 <= l_prio A i <= c /\ irqn i = n.
Proof.
  intros Hc. split; [|exact (proj2 (@compute_mask_spec (l_lines A) (l_prio A) irqn exc c Hc))].
  intros p. rewrite (proj1 (proj2 (@mask_at_spec (l_lines A) (l_prio A) irqn exc p))). discriminate.
Qed.
(** Mutual exclusion on every resource that no exception-bound task uses. *)
Theorem C04_source_mutual_exclusion (s : mach B) r : nv_reach m0 s ->
  (forall t i, l_uses A t r = true -> l_line A t = Some i -> exc i = false) -> excl_on A r s.
Proof.
  intros R He. refine (gen_excl K Hok _ R). intros i t Hin Hl Hu. unfold sfree. destruct (4 <=? l_ceil A r); [reflexivity|].
  rewrite (He t i Hu Hl). simpl. apply Nat.ltb_ge. pose proof (proj1 (proj2 Hok) t r Hu) as H. unfold tprio in H. now rewrite Hl in H.
Qed.
(** The enabled interrupts are a function of what is going on: after a lock call exactly those enabled before. *)
Theorem C04_source_restored (s1 s2 : mach B) : nv_reach m0 s1 -> nv_reach m0 s2 -> activity s1 = activity s2 -> m_mask s1 = m_mask s2.
Proof. exact (gen_restore K Hok (s1 := s1) (s2 := s2)). Qed.
Theorem C04_source_idle (s : mach B) : nv_reach m0 s -> all_idle s -> m_mask s = m0.
Proof. exact (gen_idle K Hok (s := s)). Qed.
Theorem C04_not_overblocked (s : mach B) i : nv_reach m0 s -> In i (l_lines A) -> admits B m0 i = true ->
  (forall f, In f (m_stack s) -> lprio A (f_line f) < l_prio A i) ->
  (forall f r, In f (m_stack s) -> in_lock f r -> l_ceil A r < l_prio A i) -> can_take A s i = true.
Proof.
  intros R Hin Ha H1 H2. refine (gen_no_overblock K Hok i R Hin Ha H1 _). intros f r Hf Hl. unfold sfree.
  specialize (H2 f r Hf Hl). pose proof (proj1 Hok i Hin) as H. destruct (Nat.leb_spec 4 (l_ceil A r)); [lia|]. apply orb_true_iff. right. now apply Nat.ltb_lt.
Qed.

(** * C05 *)
(** Exceptions are not maskable by source: mutual exclusion including exception-bound tasks holds on resources
    whose ceiling is at least 4 (a critical section is used), or that no exception-bound task uses (C04). *)
Theorem C05_exceptions_excluded_partial (s : mach B) r : nv_reach m0 s -> 4 <= l_ceil A r -> excl_on A r s.
Proof.
  intros R Hc. refine (gen_excl K Hok _ R). intros i t Hin Hl Hu. unfold sfree. now destruct (Nat.leb_spec 4 (l_ceil A r)); [|lia].
Qed.
End SourceProps.
Print Assumptions C04_mask_exact.
Print Assumptions C04_source_mutual_exclusion.
Print Assumptions C04_source_restored.
Print Assumptions C04_source_idle.
Print Assumptions C04_not_overblocked.
Print Assumptions C05_exceptions_excluded_partial.

(** Interrupt numbers 3, 40 and 5; two mask words. *)
Definition ex_irqn (i : nat) : nat := match i with 0 => 3 | 1 => 40 | _ => 5 end.
Definition ex_nr : nreg := mkNr [40; 256]%N false.
Example C04_case : exists s : mach (nv ex_any ex_irqn (fun _ => false)), nv_reach ex_nr s /\ app_ok ex_any 4 /\
  chunks (l_lines ex_any) ex_irqn (fun _ => false) = 2 /\ (exists f fs, m_stack s = f :: fs /\ holds f 0 /\ holds f 2) /\
  can_take ex_any s 1 = false /\ can_take ex_any s 2 = true /\ getw (iser (m_mask s)) 0 = 32%N.
Proof.
  destruct (@run_check _ (run (@mstep (nv ex_any ex_irqn (fun _ => false)) ex_any) (m_init (nv ex_any ex_irqn (fun _ => false)) ex_nr ex_nr) [LTake 0; LStart 0; LLock 2; LMicro; LMicro; LLock 0; LMicro; LMicro; LMicro])
    (fun s => top1 s (fun f => holdsb f 0 && holdsb f 2) && negb (can_take ex_any s 1) && can_take ex_any s 2 && (getw (iser (m_mask s)) 0 =? 32)%N)) as (s & E & H); [vm_compute; reflexivity|].
  exists s. split; [eexists; exact E|]. split; [apply ex_app_ok; vm_compute; lia|]. split; [reflexivity|]. clear E. apply andb_prop in H as [H H4]. apply andb_prop in H as [H H3]. apply andb_prop in H as [H1 H2].
  apply negb_true_iff in H2. apply N.eqb_eq in H4. repeat split; auto.
  unfold top1 in H1. destruct (m_stack s) as [|f fs]; [discriminate|]. apply andb_prop in H1 as [H1 H5]. exists f, fs. repeat split; auto; now apply holdsb_spec.
Qed.

(** The same application with interrupt 2 a core exception (e.g. SysTick): it preempts a lock on resource 1, which
    its task uses. *)
Theorem C05_exception_task_excluded_refuted :
  exists (A : lapp) exc m0 (s : mach (nv A ex_irqn exc)), app_ok A 4 /\ nv_reach m0 s /\
    (exists f g below, m_stack s = g :: f :: below /\ holds f 1 /\ f_task g = Some 2 /\ l_uses A 2 1 = true /\ holds g 1) /\ ~ mutual_exclusion A s.
Proof.
  exists ex_any, (fun i => i =? 2), ex_nr.
  destruct (@run_check _ (run (@mstep (nv ex_any ex_irqn (fun i => i =? 2)) ex_any) (m_init (nv ex_any ex_irqn (fun i => i =? 2)) ex_nr ex_nr)
      [LTake 0; LStart 0; LLock 1; LMicro; LMicro; LMicro; LTake 2; LStart 2; LLock 1; LMicro; LMicro; LMicro])
    (fun s => top2 s (fun g f => holdsb f 1 && holdsb g 1 && match f_task g with Some 2 => true | _ => false end))) as (s & E & H); [vm_compute; reflexivity|].
  exists s. split; [apply ex_app_ok; lia|]. split; [eexists; exact E|]. clear E.
  unfold top2 in H. destruct (m_stack s) as [|g [|f below]] eqn:Es; try discriminate. apply andb_prop in H as [H H3]. apply andb_prop in H as [H1 H2].
  apply holdsb_spec in H1, H2. split.
  - exists f, g, below. destruct (f_task g) as [[|[|[|]]]|]; try discriminate. auto 8.
  - intros X. exact (two_holders X Es H1 H2).
Qed.
Print Assumptions C05_exception_task_excluded_refuted.

(** * C06 *)
Section ThreshProps.
Context (A : lapp) (Hok : app_ok A 15) (Hnest : forall c c', l_nest A c c' = true -> c <= c').
Notation B := (th A).
Let K : backend_ok B A 15 treg0 (fun m => 1 <= thresh m) (fun m c => thresh m <= c + 1) (fun c i => c <? l_prio A i) := @thresh_ok A (proj1 Hok) Hnest.
(** If no task nests a lock inside one of higher ceiling. *)
Theorem C06_threshold_mutual_exclusion_partial (s : mach B) : th_reach s -> mutual_exclusion A s.
Proof.
  intros R r. refine (gen_excl K Hok _ R). intros i t Hin Hl Hu. apply Nat.ltb_ge. pose proof (proj1 (proj2 Hok) t r Hu) as H. unfold tprio in H. now rewrite Hl in H.
Qed.
End ThreshProps.
(** Any nesting: the registers are restored, and nothing is masked too much. *)
Section ThreshAny.
Context (A : lapp) (Hok : app_ok A 15).
Notation B := (th A).
Let K : backend_base B A 15 treg0 (fun m => 1 <= thresh m) (fun _ _ => True) (fun c i => c <? l_prio A i) := @thresh_base A (proj1 Hok).
Theorem C06_threshold_restored (s1 s2 : mach B) : th_reach s1 -> th_reach s2 -> activity s1 = activity s2 -> m_mask s1 = m_mask s2.
Proof. exact (gen_restore K Hok (s1 := s1) (s2 := s2)). Qed.
Theorem C06_threshold_idle (s : mach B) : th_reach s -> all_idle s -> m_mask s = treg0.
Proof. exact (gen_idle K Hok (s := s)). Qed.
Theorem C06_not_overblocked (s : mach B) i : th_reach s -> In i (l_lines A) ->
  (forall f, In f (m_stack s) -> lprio A (f_line f) < l_prio A i) ->
  (forall f r, In f (m_stack s) -> in_lock f r -> l_ceil A r < l_prio A i) -> can_take A s i = true.
Proof.
  intros R Hin H1 H2. refine (gen_no_overblock K Hok i R Hin _ H1 _).
  - cbv [admits th thresh_backend treg0 mie_off thresh negb andb]. apply Nat.leb_le. exact (proj1 (proj1 Hok i Hin)).
  - intros f r Hf Hl. apply Nat.ltb_lt. eauto.
Qed.
End ThreshAny.
Print Assumptions C06_threshold_mutual_exclusion_partial.
Print Assumptions C06_threshold_restored.
Print Assumptions C06_threshold_idle.
Print Assumptions C06_not_overblocked.

Definition ex_inc := ex_app Nat.leb.
Example C06_case : exists s : mach (th ex_inc), th_reach s /\ app_ok ex_inc 15 /\ (forall c c', l_nest ex_inc c c' = true -> c <= c') /\
  (exists f fs, m_stack s = f :: fs /\ holds f 0 /\ holds f 1) /\ can_take ex_inc s 1 = false /\ can_take ex_inc s 2 = false /\ thresh (m_mask s) = 4.
Proof.
  destruct (@run_check _ (run (@mstep (th ex_inc) ex_inc) (m_init (th ex_inc) treg0 treg0) [LTake 0; LStart 0; LLock 0; LMicro; LMicro; LLock 1; LMicro; LMicro])
    (fun s => top1 s (fun f => holdsb f 0 && holdsb f 1) && negb (can_take ex_inc s 1) && negb (can_take ex_inc s 2) && (thresh (m_mask s) =? 4))) as (s & E & H); [vm_compute; reflexivity|].
  exists s. split; [eexists; exact E|]. split; [apply ex_app_ok; lia|]. split; [intros c c'; apply Nat.leb_le|]. clear E.
  apply andb_prop in H as [H H4]. apply andb_prop in H as [H H3]. apply andb_prop in H as [H1 H2].
  apply negb_true_iff in H2, H3. apply Nat.eqb_eq in H4. repeat split; auto.
  unfold top1 in H1. destruct (m_stack s) as [|f fs]; [discriminate|]. apply andb_prop in H1 as [H1 H5]. exists f, fs. repeat split; auto; now apply holdsb_spec.
Qed.

(** Any nesting: locking resource 0 (ceiling 2) inside resource 1 (ceiling 3) writes a lower threshold; interrupt 2
    preempts and its task enters resource 1 as well. *)
Theorem C06_any_nesting_refuted :
  exists (A : lapp) (s : mach (th A)), app_ok A 15 /\ th_reach s /\
    (exists f g below, m_stack s = g :: f :: below /\ holds f 1 /\ holds g 1) /\ ~ mutual_exclusion A s.
Proof.
  exists ex_any.
  destruct (@run_check _ (run (@mstep (th ex_any) ex_any) (m_init (th ex_any) treg0 treg0) (ex_sched ++ [LTake 2; LStart 2; LLock 1; LMicro; LMicro]))
    (fun s => top2 s (fun g f => holdsb f 1 && holdsb g 1))) as (s & E & H); [vm_compute; reflexivity|].
  exists s. split; [apply ex_app_ok; lia|]. split; [eexists; exact E|]. clear E.
  unfold top2 in H. destruct (m_stack s) as [|g [|f below]] eqn:Es; try discriminate. apply andb_prop in H as [H1 H2].
  apply holdsb_spec in H1, H2. split.
  - exists f, g, below. auto.
  - intros X. exact (two_holders X Es H1 H2).
Qed.
Print Assumptions C06_any_nesting_refuted.

(** * C52 *)
(** [NVIC::mask] by a task that preempts the lock: interrupt number [n] is disabled. *)
Definition nvic_mask (n : nat) (m : nreg) : nreg := mkNr (setw (iser m) (n / 32) (N.ldiff (getw (iser m) (n / 32)) (N.shiftl 1 (N.of_nat (n mod 32))))) (nprimask m).

(** Whatever the enabled interrupts [mid] are when the closure returns: afterwards an interrupt is enabled only if
    it is enabled in [mid] or was on entry, and interrupts whose mask word has none of the interrupts the lock
    disabled are left alone. *)
Theorem C52_only_reenables_partial A irqn exc m mid c n : c < 4 -> chunks (l_lines A) irqn exc <= length (iser mid) ->
  let B := nv A irqn exc in
  let after := applyl (leave B c (save B m c)) mid in
  (mbit (iser mid) n = true -> mbit (iser after) n = true) /\
  (mbit (iser after) n = true -> mbit (iser mid) n = true \/ mbit (iser m) n = true) /\
  (getw (compute_mask (chunks (l_lines A) irqn exc) (masks (l_lines A) (l_prio A) irqn exc) c) (n / 32) = 0%N -> mbit (iser after) n = mbit (iser mid) n).
Proof.
  intros Hc Hl B after. destruct (@leave_prefix A irqn exc m c (length (leave B c (save B m c))) mid Hl Hc) as (_ & _ & G). fold B in G.
  rewrite firstn_all in G. fold after in G.
  rewrite firstn_all2 in G by (unfold B, nv; cbv [leave save source_backend]; destruct (Nat.leb_spec 4 c); [lia|now rewrite map_length]).
  unfold mbit. rewrite G.
  destruct (existsb (Nat.eqb (n / 32)) (active (l_lines A) irqn exc (compute_mask (chunks (l_lines A) irqn exc) (masks (l_lines A) (l_prio A) irqn exc) c))) eqn:E.
  - apply existsb_in in E. unfold B, nv. rewrite saved_word by assumption. rewrite N.lor_spec. apply active_in in E as [_ E].
    repeat split; [intros ->; reflexivity|intros X; apply orb_prop in X; tauto|contradiction].
  - repeat split; auto.
Qed.
Print Assumptions C52_only_reenables_partial.

(** An interrupt disabled by a preempting task while the lock was held is enabled again when the lock is left,
    although the lock had not disabled it. *)
Theorem C52_reenables_refuted :
  exists (A : lapp) m n, app_ok A 4 /\ let B := nv A ex_irqn (fun _ => false) in
    let mid := nvic_mask n (applyl (enter B 1) m) in let after := applyl (leave B 1 (save B m 1)) mid in
    mbit (compute_mask (chunks (l_lines A) ex_irqn (fun _ => false)) (masks (l_lines A) (l_prio A) ex_irqn (fun _ => false)) 1) n = false /\
    mbit (iser m) n = true /\ mbit (iser mid) n = false /\ mbit (iser after) n = true.
Proof. exists ex_any, ex_nr, 5. split; [apply ex_app_ok; lia|]. vm_compute. repeat split. Qed.
Print Assumptions C52_reenables_refuted.
