(** The accepted application as a whole running system: SystemModel instantiated with what the macro generates. *)
From Verif Require Import Base LTS AppModel AppSpec AppProofs AppAnalysis AppChecks AppFinal AppRun LockModel LockSpec ExecModel SystemModel SystemSpec SystemProofs.
From Coq Require Import String.
Open Scope list_scope.
Set Implicit Arguments.

(** Tasks are numbered as in [AppRun.lapp_of]. *)
Definition number (x : expansion) (n : ident) : option nat := find_index (fun t => String.eqb (fst t) n) (run_tasks x).
Definition numbers (x : expansion) (ns : list ident) : list nat := flat_map (fun n => match number x n with Some t => [t] | None => [] end) ns.
(** The first handlers are those of the hardware tasks (codegen/hardware_tasks.rs 24-49: each calls its task), the others
    dispatchers, each polling the tasks of its priority (async_dispatchers.rs 41-90); thread mode runs idle (main.rs 17-25)
    or the tasks of priority 0.  [A]: the application of the lock machine; [env]: interrupt handlers that are no tasks. *)
Definition sys_of (x : expansion) (A : lapp) (unpend : bool) (env : list nat) : sapp := {|
  sa_lock := A;
  sa_hw := fun i => match nth_error (ap_hw (x_app x)) i with Some (n, _) => number x n | None => None end;
  sa_polls := fun k => match k with
                       | Some i => if i <? List.length (ap_hw (x_app x)) then [] else match nth_error (vectors x) i with Some (_, ns) => numbers x ns | None => [] end
                       | None => match ap_idle (x_app x) with Some _ => [] | None => numbers x (chan x 0) end
                       end;
  sa_idle := match ap_idle (x_app x) with Some (n, _) => number x n | None => None end;
  sa_unpend := unpend;
  sa_env := env |}.

Section Acc.
Context (b : bkind) (disp : list ident) (items : list item) (a : app) (x : expansion) (H : accepted b disp items a x) (Hb : binds_free b items x).

Lemma number_in n t : number x n = Some t -> exists ar, nth_error (run_tasks x) t = Some (n, ar).
Proof.
  unfold number. intros E. destruct (find_index_some _ _ (EmptyString, mkArgs [] []) E) as [L M]. apply String.eqb_eq in M. destruct (nth_error (run_tasks x) t) as [[m ar]|] eqn:En; [|exfalso; exact (proj2 (nth_error_Some _ _) L En)].
  rewrite (nth_error_nth _ _ _ En) in M. simpl in M. subst. eauto.
Qed.
Lemma number_some n ar : In (n, ar) (run_tasks x) -> exists t, number x n = Some t.
Proof.
  intros I. unfold number. destruct (find_index _ _) eqn:E; [eauto|]. apply (@find_index_none _ _ _ (n, ar)) in E; [|exact I]. simpl in E. now rewrite String.eqb_refl in E.
Qed.
Lemma numbers_in ns t : In t (numbers x ns) <-> exists n, In n ns /\ number x n = Some t.
Proof.
  unfold numbers. rewrite in_flat_map. split; intros (n & I & E); exists n; (split; [exact I|]); destruct (number x n); simpl in *; try tauto; try discriminate; intuition congruence.
Qed.
Lemma line_of n t i : number x n = Some t -> i < List.length (vectors x) -> In n (snd (nth i (vectors x) no_vec)) -> l_line (lapp_of x) t = Some i.
Proof.
  intros E L I. destruct (number_in _ E) as [ar En]. cbn [lapp_of l_line]. rewrite En. destruct (find_index (fun v => mem n (snd v)) (vectors x)) as [j|] eqn:F.
  - apply find_index_some with (d := no_vec) in F as [Lj M]. apply mem_in in M. f_equal. pose proof (vec_unique H _ _ n (nth_In _ _ L) (nth_In _ _ Lj) I M) as Q.
    pose proof (vectors_NoDup H Hb) as N. apply (proj1 (NoDup_nth _ EmptyString) N); rewrite ?map_length; auto.
    pose proof (map_nth (fun v : ident * nat * list ident => fst (fst v)) (vectors x) no_vec) as Mn. cbn [no_vec fst] in Mn. now rewrite !Mn, Q.
  - apply (@find_index_none _ _ _ (nth i (vectors x) no_vec)) in F; [|now apply nth_In]. apply mem_in in I. congruence.
Qed.
Lemma hw_vec i n h : nth_error (ap_hw (x_app x)) i = Some (n, h) -> i < List.length (vectors x) /\ nth i (vectors x) no_vec = (hw_binds h, hw_prio h, [n]).
Proof.
  intros E. assert (L : i < List.length (ap_hw (x_app x))) by (apply nth_error_Some; congruence). split; [unfold vectors; rewrite app_length, map_length; lia|].
  unfold vectors. rewrite app_nth1 by (rewrite map_length; exact L). apply nth_error_nth. rewrite nth_error_map, E. reflexivity.
Qed.
Lemma hw_num i n h : nth_error (ap_hw (x_app x)) i = Some (n, h) -> exists t, number x n = Some t.
Proof.
  intros E. apply nth_error_In in E. apply (@number_some n (hw_args h)). unfold run_tasks. apply in_app_iff. right. apply in_app_iff. left. apply in_map_iff. now exists (n, h).
Qed.
Lemma zero_line n k sh lo t : src_task items n k 0 sh lo -> number x n = Some t -> l_line (lapp_of x) t = None.
Proof.
  intros T E. destruct (number_in _ E) as [ar En]. cbn [lapp_of l_line]. rewrite En. destruct (find_index (fun v => mem n (snd v)) (vectors x)) as [j|] eqn:F; [|reflexivity]. exfalso.
  apply find_index_some with (d := no_vec) in F as [Lj M]. apply mem_in in M. pose proof (nth_In _ no_vec Lj) as V. pose proof (vec_prio H _ V). destruct (@vec_runs _ _ _ _ _ H _ _ V M) as (k' & sh' & lo' & T' & _). destruct (src_unique H T T') as (_ & Q & _). lia.
Qed.
Lemma sys_ok u env : sapp_ok (sys_of x (lapp_of x) u env).
Proof.
  constructor; cbn [sys_of sa_lock sa_hw sa_polls sa_idle].
  - apply seq_NoDup.
  - cbn [lapp_of l_lines l_prio]. intros i I. apply in_seq in I. eapply vec_prio; [exact H|]. apply nth_In. lia.
  - intros i t _ E. destruct (nth_error (ap_hw (x_app x)) i) as [[n h]|] eqn:En; [|discriminate]. destruct (hw_vec _ En) as [L V]. apply (@line_of n t i E L). rewrite V. now left.
  - intros [i|] t I.
    + destruct (Nat.ltb_spec i (List.length (ap_hw (x_app x)))) as [L|L]; [destruct I|]. destruct (nth_error (vectors x) i) as [[v ns]|] eqn:Ev; [|destruct I].
      apply numbers_in in I as (n & I & E). assert (Li : i < List.length (vectors x)) by (apply nth_error_Some; congruence). split; [|split].
      * apply (@line_of n t i E Li). now rewrite (nth_error_nth _ _ _ Ev).
      * apply in_seq. lia.
      * apply nth_error_None in L. now rewrite L.
    + destruct (ap_idle (x_app x)); [destruct I|]. split; [|reflexivity]. apply numbers_in in I as (n & I & E). apply (chan_in H) in I as (sh & lo & T). eapply zero_line; eauto.
  - intros t E. destruct (ap_idle (x_app x)) as [[n ar]|] eqn:Ei; [|discriminate]. rewrite (acc_idle H) in Ei. pose proof (@T_idle a n ar Ei) as T. destruct ar as [sh lo]. apply (pd_task (ac_parsed H)) in T. eapply zero_line; eauto.
Qed.

(** What the dispatchers poll, in terms of the source: task [n] of priority [p] is polled by the handler of [p], or in
    thread mode; hardware tasks are called by their own handlers. *)
Lemma polled n p sh lo A u env : src_task items n KSoft p sh lo -> exists t k, number x n = Some t /\ In t (sa_polls (sys_of x A u env) k) /\ lprio (lapp_of x) k = p /\ l_line (lapp_of x) t = k.
Proof.
  intros T. assert (Hn : exists t, number x n = Some t).
  { pose proof T as T'. apply (pd_task (ac_parsed H)) in T'. inversion T' as [| |? s G]; subst. apply (@number_some n (mkArgs sh lo)). unfold run_tasks. apply in_app_iff. right. apply in_app_iff. right. apply in_map_iff. exists (n, s). rewrite (acc_sw H). split; [|exact G]. simpl. congruence. }
  destruct Hn as [t Hn]. exists t. destruct (Nat.eq_dec p 0) as [-> |Np].
  - exists None. split; [exact Hn|]. split; [|split; [reflexivity|eapply zero_line; eauto]]. cbn [sys_of sa_polls]. rewrite (acc_idle H). destruct (ap_idle a) as [[m ar]|] eqn:Ei.
    + exfalso. pose proof (ac_zero H) as Z. unfold zero_error in Z. rewrite Ei in Z. apply (pd_task (ac_parsed H)) in T. remember 0 as z eqn:Ez in T. inversion T as [| |? s G]; subst.
      assert (X : existsb (fun t : ident * swtask => (sw_prio (snd t) =? 0)%nat && true) (ap_sw a) = true); [|congruence]. apply existsb_exists. exists (n, s). split; [exact G|]. simpl. rewrite H2. reflexivity.
    + apply numbers_in. exists n. split; [|exact Hn]. apply (chan_in H). eauto.
  - destruct (proj2 (ints_prio H p)) as [d I]; [split; [lia|eauto]|]. apply In_nth_error in I as [j Ej].
    assert (Ev : nth_error (vectors x) (List.length (ap_hw (x_app x)) + j) = Some (d, p, chan x p)).
    { unfold vectors. rewrite nth_error_app2 by (rewrite map_length; lia). rewrite map_length. replace (_ + j - _) with j by lia. now rewrite nth_error_map, Ej. }
    exists (Some (List.length (ap_hw (x_app x)) + j)). assert (Ic : In n (chan x p)) by (apply (chan_in H); eauto). split; [exact Hn|]. split; [|split].
    + cbn [sys_of sa_polls]. replace (_ + j <? _) with false by (symmetry; apply Nat.ltb_ge; lia). rewrite Ev. apply numbers_in. eauto.
    + cbn [lprio lapp_of l_prio]. now rewrite (nth_error_nth _ _ _ Ev).
    + apply (@line_of n); [exact Hn|apply nth_error_Some; congruence|]. now rewrite (nth_error_nth _ _ _ Ev).
Qed.
Lemma called n i p sh lo A u env : src_task items n (KHard i) p sh lo -> exists t j, number x n = Some t /\ sa_hw (sys_of x A u env) j = Some t /\ In j (l_lines (lapp_of x)) /\ l_prio (lapp_of x) j = p /\ fst (fst (nth j (vectors x) no_vec)) = i.
Proof.
  intros T. apply (src_hw H) in T. rewrite <- (acc_hw H) in T. apply In_nth_error in T as [j Ej]. destruct (hw_num _ Ej) as [t Et]. destruct (hw_vec _ Ej) as [L V]. exists t, j. split; [exact Et|]. split; [|split; [|split]].
  - cbn [sys_of sa_hw]. now rewrite Ej.
  - apply in_seq. lia.
  - cbn [lapp_of l_prio]. now rewrite V.
  - now rewrite V.
Qed.
End Acc.
