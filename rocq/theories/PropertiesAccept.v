(** C58 and C59: what the macro tells the timer drivers about priorities, and which applications it accepts. *)
From Verif Require Import Base AppModel AppSpec AppAcceptSpec AppProofs AppFinal AppAccept AppAcceptChecks LockBackends PropertiesLock PropertiesApp.
Set Implicit Arguments.
Open Scope string_scope.
Open Scope list_scope.

(** * C58 *)
Lemma fold_min l p : (forall q, In q (p :: l) -> fold_left Nat.min l p <= q) /\ In (fold_left Nat.min l p) (p :: l).
Proof.
  revert p. induction l as [|r l IH]; intros p; simpl; [split; [intros q [->|[]]; auto|auto]|]. destruct (IH (Nat.min p r)) as [I1 I2]. split.
  - assert (fold_left Nat.min l (Nat.min p r) <= Nat.min p r) by (apply I1; now left). intros q [<-|[<-|H']]; [lia|lia|]. apply I1. now right.
  - destruct I2 as [I2|I2]; [|auto]. rewrite <- I2. destruct (Nat.min_spec p r) as [[_ ->]|[_ ->]]; auto.
Qed.
(** The timer's interrupt gets a legal priority; it never delays a hardware task: it is below all of them, or at priority 1 if one of
    them has priority 1; and it is the highest such. *)
Theorem C58_timer_priority bits disp items x : 1 <= bits <= 7 -> expand (Cortex bits) disp items = Some x ->
  exists p, monotonic_prio (async_limit (Cortex bits) (x_app x)) bits = Some p /\ 1 <= p <= 2 ^ bits /\
    (forall n d q sh lo, src_task items n (KHard d) q sh lo -> p < q \/ (p = 1 /\ q = 1)) /\
    (forall p', p' <= 2 ^ bits -> (forall n d q sh lo, src_task items n (KHard d) q sh lo -> p' < q) -> p' <= p).
Proof.
  intros Hb Hx. assert (HxA := Hx). apply expand_accepted in Hx as [a H].
  assert (B : 2 ^ bits < 256) by (change 256 with (2 ^ 8); apply Nat.pow_lt_mono_r; lia). assert (B1 : 1 <= 2 ^ bits) by (apply Nat.neq_0_lt_0, Nat.pow_nonzero; lia).
  unfold monotonic_prio, shl8. assert (bits <? 8 = true)%nat as -> by (apply Nat.ltb_lt; lia). rewrite Nat.mul_1_l, Nat.mod_small by lia. eexists. split; [reflexivity|]. split; [lia|].
  assert (Q : forall q, In q (map (fun t => hw_prio (snd t)) (ap_hw (x_app x))) <-> exists n d sh lo, src_task items n (KHard d) q sh lo).
  { intros q. rewrite (acc_hw H), in_map_iff. split.
    - intros ([n t] & <- & I). assert (G : exists n sh lo, src_task items n (KHard (hw_binds t)) (hw_prio t) sh lo) by (apply (hw_src (ac_parsed H)); eauto). destruct G as (m & sh & lo & G). exists m, (hw_binds t), sh, lo. exact G.
    - intros (n & d & sh & lo & T). assert (G : exists n sh lo, src_task items n (KHard d) q sh lo) by eauto. apply (hw_src (ac_parsed H)) in G as (t & m & I & _ & E). exists (m, t). auto. }
  assert (Pos : forall q n d sh lo, src_task items n (KHard d) q sh lo -> 1 <= q <= 2 ^ bits).
  { intros q n d sh lo T. assert (T' := T). apply (pd_task (ac_parsed H)) in T'. split; [exact (proj2 (wf_prio (pd_wf (ac_parsed H)) T') _ eq_refl)|].
    inversion T' as [|? t G|]; subst. pose proof (ac_prio H) as F. rewrite forallb_forall in F. cbn [configured] in F.
    specialize (F (hw_binds t, hw_prio t)). cbn [snd prio_supported] in F. apply Nat.leb_le. apply F. unfold to_configure. apply in_app_iff. right. rewrite (acc_hw H). apply in_map_iff. exists (n, t). auto. }
  unfold async_limit, max_async_prio. destruct (map (fun t => hw_prio (snd t)) (ap_hw (x_app x))) as [|q0 l] eqn:E.
  - split; [|intros; lia]. intros n d q sh lo T. exfalso. apply (proj2 (Q q)). eauto.
  - destruct (fold_min l q0) as [M1 M2]. set (m := fold_left Nat.min l q0) in *. assert (Hm := M2). apply Q in Hm as (n0 & d0 & sh0 & lo0 & Tm). destruct (Pos _ _ _ _ _ Tm) as [P1 P2]. split.
    + intros n d q sh lo T. destruct (Pos _ _ _ _ _ T) as [P3 P4]. assert (m <= q) by (apply M1, Q; eauto). lia.
    + intros p' _ H'. specialize (H' _ _ _ _ _ Tm). lia.
Qed.
Print Assumptions C58_timer_priority.
Definition fast_items : list item := base [] [] ++ [hw "hard" "UART0" 5 [] None; hw "rt" "UART1" 7 [] None; sw "soft" 6 [] None []].
Definition slow_items : list item := base [] [] ++ [hw "hard" "UART0" 1 [] None; hw "rt" "UART1" 7 [] None].
Example C58_case : (exists x, expand (Cortex 3) ["SSI0"] fast_items = Some x /\ monotonic_prio (async_limit (Cortex 3) (x_app x)) 3 = Some 4) /\
  (exists x, expand (Cortex 3) ["SSI0"] slow_items = Some x /\ monotonic_prio (async_limit (Cortex 3) (x_app x)) 3 = Some 1) /\
  (exists x, expand (Cortex 3) [] (base [] []) = Some x /\ monotonic_prio (async_limit (Cortex 3) (x_app x)) 3 = Some 8).
Proof. repeat split; eexists; (split; [vm_compute; reflexivity|vm_compute; reflexivity]). Qed.

(** * C59 *)
(** With one [#[shared]] and one [#[local]] struct, an application is accepted if and only if it follows the rules.  (ESP32-C6: with at most
    eight hardware tasks; beyond twelve handlers the priority of some is not checked, see C53.) *)
Theorem C59_accepted_iff_rules b disp items : how_many is_shared items = 1 -> how_many is_local items = 1 -> (b = Esp32c6 -> length (flat_map bound items) <= 8) ->
  ((exists x, expand b disp items = Some x) <-> module_ok items /\ resources_ok items /\ target_ok b disp items).
Proof. apply expand_iff. Qed.
Print Assumptions C59_accepted_iff_rules.

(** Every accepted application has both structs, and only the last [#[shared]] struct and the last [#[local]] struct can have fields. *)
Lemma no_dups_grow {V} (l acc m : list (ident * V)) : no_dups acc l = Some m -> m = acc ++ l.
Proof. revert acc. induction l as [|[k v] l IH]; simpl; intros acc E; [injection E as <-; now rewrite app_nil_r|]. destruct (ihas acc k); [discriminate|]. apply IH in E. now rewrite <- app_assoc in E. Qed.
Lemma structs_inv items s s' : parse_items s items = Some s' ->
  (p_sid s' <> None -> p_sid s = None -> 1 <= how_many is_shared items) /\ (p_lid s' <> None -> p_lid s = None -> 1 <= how_many is_local items) /\
  (p_shared s <> [] -> how_many is_shared items = 0) /\ (p_local s <> [] -> how_many is_local items = 0) /\
  (forall l1 n f fs l2, items = l1 ++ IShared n (f :: fs) :: l2 -> how_many is_shared l2 = 0) /\
  (forall l1 n f fs l2, items = l1 ++ ILocal n (f :: fs) :: l2 -> how_many is_local l2 = 0).
Proof.
  revert s. induction items as [|i items IH]; intros s E.
  - simpl in E. injection E as <-. repeat split; try reflexivity; try congruence; intros; destruct l1; discriminate.
  - cbn [parse_items] in E. destruct (parse_item s i) as [s1|] eqn:E1; [|discriminate]. destruct (IH _ E) as (I1 & I2 & I3 & I4 & I5 & I6).
    assert (K : (is_shared i = true -> p_shared s = [] /\ p_sid s1 <> None /\ p_lid s1 = p_lid s /\ p_local s1 = p_local s /\ forall n fs, i = IShared n fs -> p_shared s1 = fs) /\
      (is_local i = true -> p_local s = [] /\ p_lid s1 <> None /\ p_sid s1 = p_sid s /\ p_shared s1 = p_shared s /\ forall n fs, i = ILocal n fs -> p_local s1 = fs) /\
      (is_shared i = false -> p_sid s1 = p_sid s /\ p_shared s1 = p_shared s) /\ (is_local i = false -> p_lid s1 = p_lid s /\ p_local s1 = p_local s)).
    { clear - E1. destruct i as [n lo sn ln|n sh lo|n r|n fs|n fs]; cbn [parse_item] in E1; cbn [is_shared is_local].
      - destruct (init_args lo); [|discriminate]. destruct (p_init s); [discriminate|]. destruct (mem n (p_seen s)); [discriminate|]. injection E1 as <-. repeat split; discriminate.
      - destruct (mk_args sh lo); [|discriminate]. destruct (p_idle s); [discriminate|]. destruct (mem n (p_seen s)); [discriminate|]. injection E1 as <-. repeat split; discriminate.
      - destruct (ihas _ _ || ihas _ _); [discriminate|]. destruct (task_args r) as [[t|t]|]; [|destruct (mem n (p_seen s)); [discriminate|]; injection E1 as <-; repeat split; discriminate|discriminate].
        destruct (mem (hw_binds t) (p_bind s)); [discriminate|]. destruct (mem n (p_seen s)); [discriminate|]. injection E1 as <-; repeat split; discriminate.
      - destruct (p_shared s); [|discriminate]. destruct (no_dups [] fs) as [m|] eqn:N; [|discriminate]. apply no_dups_grow in N. simpl in N. subst m. injection E1 as <-. repeat split; try discriminate. intros n' fs' [= <- <-]. reflexivity.
      - destruct (p_local s); [|discriminate]. destruct (no_dups [] fs) as [m|] eqn:N; [|discriminate]. apply no_dups_grow in N. simpl in N. subst m. injection E1 as <-. repeat split; try discriminate. intros n' fs' [= <- <-]. reflexivity. }
    destruct K as (K1 & K2 & K3 & K4). rewrite !how_many_cons. repeat split.
    + intros X Y. destruct (is_shared i); [lia|]. destruct (K3 eq_refl) as [K _]. specialize (I1 X ltac:(congruence)). lia.
    + intros X Y. destruct (is_local i); [lia|]. destruct (K4 eq_refl) as [K _]. specialize (I2 X ltac:(congruence)). lia.
    + intros X. destruct (is_shared i); [destruct (K1 eq_refl) as [Z _]; congruence|]. destruct (K3 eq_refl) as [_ K]. rewrite I3 by congruence. reflexivity.
    + intros X. destruct (is_local i); [destruct (K2 eq_refl) as [Z _]; congruence|]. destruct (K4 eq_refl) as [_ K]. rewrite I4 by congruence. reflexivity.
    + intros l1 n f fs l2 Z. destruct l1 as [|j l1]; simpl in Z; injection Z as -> Z; [|exact (I5 l1 n f fs l2 Z)]. subst l2. destruct (K1 eq_refl) as (_ & _ & _ & _ & K). specialize (K _ _ eq_refl). apply I3. congruence.
    + intros l1 n f fs l2 Z. destruct l1 as [|j l1]; simpl in Z; injection Z as -> Z; [|exact (I6 l1 n f fs l2 Z)]. subst l2. destruct (K2 eq_refl) as (_ & _ & _ & _ & K). specialize (K _ _ eq_refl). apply I4. congruence.
Qed.
Theorem C59_structs b disp items x : expand b disp items = Some x ->
  1 <= how_many is_shared items /\ 1 <= how_many is_local items /\
  (forall l1 n f fs l2, items = l1 ++ IShared n (f :: fs) :: l2 -> how_many is_shared l2 = 0) /\
  (forall l1 n f fs l2, items = l1 ++ ILocal n (f :: fs) :: l2 -> how_many is_local l2 = 0).
Proof.
  intros Hx. apply expand_accepted in Hx as [a H]. pose proof (ac_parse H) as E. unfold parse_app in E. destruct (parse_disp [] disp); [|discriminate]. destruct (parse_items pst0 items) as [s|] eqn:Es; [|discriminate].
  destruct (structs_inv _ _ Es) as (I1 & I2 & _ & _ & I5 & I6). destruct (p_sid s); [|discriminate]. destruct (p_lid s); [|discriminate]. repeat split; auto; [apply I1|apply I2]; simpl; congruence.
Qed.
Print Assumptions C59_structs.
(** Two [#[shared]] structs are accepted if the first has no fields, whatever its name: the rule "one struct" is not enforced. *)
Theorem C59_one_struct_refuted : exists x, expand (Cortex 3) ex_disp (IShared "Old" [] :: ex_items) = Some x /\ how_many is_shared (IShared "Old" [] :: ex_items) = 2.
Proof. eexists. split; [vm_compute; reflexivity|reflexivity]. Qed.
Print Assumptions C59_one_struct_refuted.

(** The example follows the rules; each rule rejects something. *)
Example C59_case : how_many is_shared ex_items = 1 /\ how_many is_local ex_items = 1 /\ module_ok ex_items /\ resources_ok ex_items /\ target_ok (Cortex 3) ex_disp ex_items.
Proof. split; [reflexivity|]. split; [reflexivity|]. apply C59_accepted_iff_rules; [reflexivity|reflexivity|discriminate|]. exists ex_x. exact ex_accepted. Qed.
Example C59_rejected_case :
  (* a task twice; an interrupt twice; an undeclared resource; a mixed access; lock_free at two priorities; a local used twice *)
  Forall (fun l => ~ (module_ok l /\ resources_ok l /\ target_ok (Cortex 3) [] l))
    [base [] [] ++ [hw "t" "A" 1 [] None; hw "t" "B" 1 [] None];
     base [] [] ++ [hw "t" "A" 1 [] None; hw "u" "A" 1 [] None];
     base [] [] ++ [hw "t" "A" 1 [("x", Exclusive)] None];
     base [("x", mkSR 1 false)] [] ++ [hw "t" "A" 1 [("x", Exclusive)] None; hw "u" "B" 1 [("x", SharedRef)] None];
     base [("x", mkSR 1 true)] [] ++ [hw "t" "A" 1 [("x", Exclusive)] None; hw "u" "B" 2 [("x", Exclusive)] None];
     base [] [("x", 1)] ++ [hw "t" "A" 1 [] (Some [("x", External)]); hw "u" "B" 1 [] (Some [("x", External)])]].
Proof. repeat constructor; rewrite <- C59_accepted_iff_rules by (reflexivity || discriminate); intros [x X]; vm_compute in X; discriminate X. Qed.
