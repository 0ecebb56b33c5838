(** The accepted application as it runs: the handlers the macro generates, as an application of the machine of
    LockModel. *)
From Verif Require Import Base LTS AppModel AppSpec AppProofs AppAnalysis AppChecks AppFinal LockModel LockSpec.
Set Implicit Arguments.

Fixpoint find_index {V} (f : V -> bool) (l : list V) : option nat :=
  match l with [] => None | v :: l' => if f v then Some 0 else match find_index f l' with Some i => Some (S i) | None => None end end.
Definition no_vec : ident * nat * list ident := (EmptyString, 0, []).
(** idle, hardware tasks, software tasks *)
Definition run_tasks (x : expansion) : list (ident * args) :=
  match ap_idle (x_app x) with Some (n, ar) => [(n, ar)] | None => [] end ++
  map (fun t => (fst t, hw_args (snd t))) (ap_hw (x_app x)) ++ map (fun t => (fst t, sw_args (snd t))) (ap_sw (x_app x)).
(** Interrupt lines are the generated handlers, at the priority each is configured with; a task runs in the handler
    that calls it, or in thread mode; it may lock the shared resources it lists without [&] (codegen/
    shared_resources_struct.rs 33-80: [&x] and lock_free resources are handed out as references instead), with the
    ceiling the macro passes to [lock].  Resources and tasks are numbered. *)
Definition lapp_of (x : expansion) : lapp := {|
  l_lines := seq 0 (length (vectors x));
  l_prio := fun i => snd (fst (nth i (vectors x) no_vec));
  l_line := fun t => match nth_error (run_tasks x) t with Some (n, _) => find_index (fun v => mem n (snd v)) (vectors x) | None => None end;
  l_uses := fun t r => match nth_error (run_tasks x) t, nth_error (ap_shared (x_app x)) r with
                       | Some (_, ar), Some (rn, s) => negb (sr_lock_free s) && match iget (a_shared ar) rn with Some Exclusive => true | _ => false end
                       | _, _ => false
                       end;
  l_ceil := fun r => match nth_error (ap_shared (x_app x)) r with Some (rn, _) => ceiling x rn | None => 0 end;
  l_nest := fun _ _ => true |}.

Lemma find_index_some {V} (f : V -> bool) l i d : find_index f l = Some i -> i < length l /\ f (nth i l d) = true.
Proof.
  revert i. induction l as [|v l IH]; intros i; simpl; [discriminate|]. destruct (f v) eqn:E; [intros [= <-]; split; [lia|auto]|].
  destruct (find_index f l) as [j|]; [|discriminate]. intros [= <-]. destruct (IH j eq_refl). split; [lia|auto].
Qed.
Lemma find_index_none {V} (f : V -> bool) l v : find_index f l = None -> In v l -> f v = false.
Proof.
  induction l as [|w l IH]; simpl; [tauto|]. destruct (f w) eqn:E; [discriminate|]. destruct (find_index f l) as [j|]; [discriminate|]. intros _ [<-|H]; [auto|now apply IH].
Qed.

Lemma bkind_slic (b : bkind) : b = Slic \/ b <> Slic.
Proof. destruct b; auto; right; discriminate. Qed.

Section Acc.
Context (b : bkind) (disp : list ident) (items : list item) (a : app) (x : expansion) (H : accepted b disp items a x).
Let P := ac_parsed H.
Let W := pd_wf P.

Lemma src_unique n k p sh lo k' p' sh' lo' : src_task items n k p sh lo -> src_task items n k' p' sh' lo' -> k = k' /\ p = p' /\ sh = sh' /\ lo = lo'.
Proof. intros T T'. apply (pd_task P) in T, T'. destruct (task_names_unique W T T') as (-> & -> & [= -> ->]). auto. Qed.
Lemma src_prio n k p sh lo : src_task items n k p sh lo -> p <= 255 /\ (forall i, k = KHard i -> 1 <= p).
Proof. intros T. apply (pd_task P) in T. exact (wf_prio W T). Qed.
Lemma hw_src n t : In (n, t) (ap_hw a) -> src_task items n (KHard (hw_binds t)) (hw_prio t) (a_shared (hw_args t)) (a_local (hw_args t)).
Proof. intros I. apply (pd_task P). replace (mkArgs _ _) with (hw_args t) by now destruct (hw_args t). now apply T_hw. Qed.
Lemma src_hw n i p sh lo : src_task items n (KHard i) p sh lo -> In (n, mkHw i p (mkArgs sh lo)) (ap_hw a).
Proof. intros T. apply (pd_task P) in T. inversion T as [|? t G|]; subst. now destruct t. Qed.

(** The handlers and what they run. *)
Lemma vec_in v : In v (vectors x) <->
  (exists n i p sh lo, src_task items n (KHard i) p sh lo /\ v = (i, p, [n])) \/ (exists p d, In (p, d) (x_ints x) /\ v = (d, p, chan x p)).
Proof.
  unfold vectors. rewrite in_app_iff, !in_map_iff, (acc_hw H). split.
  - intros [((n, t) & <- & I)|((p, d) & <- & I)]; [left|right].
    + apply hw_src in I. do 5 eexists. split; [exact I|reflexivity].
    + exists p, d. auto.
  - intros [(n & i & p & sh & lo & T & ->)|(p & d & I & ->)]; [left|right].
    + apply src_hw in T. exists (n, mkHw i p (mkArgs sh lo)). auto.
    + exists (p, d). auto.
Qed.
Lemma vec_prio v : In v (vectors x) -> 1 <= snd (fst v).
Proof.
  intros I. apply vec_in in I as [(n & i & p & sh & lo & T & ->)|(p & d & I & ->)]; simpl.
  - now apply (proj2 (src_prio T) i).
  - assert (0 < p /\ exists n sh lo, src_task items n KSoft p sh lo) by (apply (ints_prio H); eauto). lia.
Qed.
Lemma vec_runs v n : In v (vectors x) -> In n (snd v) -> exists k sh lo, src_task items n k (snd (fst v)) sh lo /\ (k = KHard (fst (fst v)) /\ snd v = [n] \/ k = KSoft /\ snd v = chan x (snd (fst v)) /\ In (snd (fst v), fst (fst v)) (x_ints x)).
Proof.
  intros I In'. apply vec_in in I as [(m & i & p & sh & lo & T & ->)|(p & d & I & ->)]; simpl in *.
  - destruct In' as [<-|[]]. exists (KHard i), sh, lo. auto.
  - apply (chan_in H) in In' as (sh & lo & T). exists KSoft, sh, lo. auto.
Qed.
Lemma vec_exists n k p sh lo : src_task items n k p sh lo -> 1 <= p -> exists v, In v (vectors x) /\ In n (snd v) /\ snd (fst v) = p.
Proof.
  intros T Hp. destruct k as [|i|].
  - exfalso. apply (pd_task P) in T. inversion T; subst. lia.
  - exists (i, p, [n]). split; [apply vec_in; left; exists n, i, p, sh, lo; auto|simpl; auto].
  - destruct (proj2 (ints_prio H p)) as [d I]; [split; [lia|eauto]|]. exists (d, p, chan x p). split; [apply vec_in; right; exists p, d; auto|]. simpl. split; [apply (chan_in H); eauto|auto].
Qed.
Lemma vec_unique v v' n : In v (vectors x) -> In v' (vectors x) -> In n (snd v) -> In n (snd v') -> v = v'.
Proof.
  intros I I' N N'. destruct (@vec_runs _ _ I N) as (k & sh & lo & T & C). destruct (@vec_runs _ _ I' N') as (k' & sh' & lo' & T' & C'). destruct (src_unique T T') as (E & Ep & _).
  destruct v as [[d p] l], v' as [[d' p'] l']; simpl in *. subst p'. destruct C as [[-> ->]|(-> & -> & C)], C' as [[-> ->]|(-> & -> & C')]; try discriminate.
  - now injection E as ->.
  - now rewrite (@ints_fun _ _ _ _ _ H _ _ _ C C').
Qed.
Definition binds_free : Prop := b = Slic -> forall n i p sh lo, src_task items n (KHard i) p sh lo -> ~ In i (ap_disp (x_app x)).
Lemma hw_not_disp n i p sh lo : binds_free -> src_task items n (KHard i) p sh lo -> ~ In i (ap_disp (x_app x)).
Proof.
  intros F T. destruct (bkind_slic b) as [Hb|Hb]; [now apply (F Hb n i p sh lo)|].
  assert (E : ap_disp (x_app x) = ap_disp a). { pose proof (ac_pre H) as E. unfold preprocess in E. destruct b; try (now injection E as ->). congruence. }
  rewrite E. pose proof (ac_check H) as C. unfold syntax_check in C. rewrite !andb_true_iff in C. destruct C as (_ & C). rewrite forallb_forall in C.
  apply src_hw in T. specialize (C _ T). simpl in C. apply negb_true_iff in C. intros I. apply mem_in in I. congruence.
Qed.
Lemma vectors_NoDup : binds_free -> NoDup (map (fun v => fst (fst v)) (vectors x)).
Proof.
  intros F. unfold vectors. rewrite map_app, !map_map. simpl. destruct (ints_ok H) as (_ & N & D). apply NoDup_app_intro.
  - rewrite (acc_hw H). exact (wf_binds W).
  - rewrite map_ext with (g := snd) by reflexivity. exact N.
  - intros i I I'. rewrite (acc_hw H) in I. apply in_map_iff in I as ((n, t) & <- & I). apply in_map_iff in I' as ((p, d) & E & I'). simpl in E. apply hw_src in I. apply (hw_not_disp F I). simpl. rewrite <- E. apply D. apply in_map_iff. now exists (p, d).
Qed.

(** ** The machine application is well formed *)
Lemma run_task_in t n ar : nth_error (run_tasks x) t = Some (n, ar) -> exists k p, is_task a n k p ar.
Proof.
  intros E. apply nth_error_In in E. unfold run_tasks in E. rewrite (acc_idle H), (acc_hw H), (acc_sw H) in E. apply in_app_iff in E as [E|E].
  - destruct (ap_idle a) as [[m ar']|] eqn:Ei; [|destruct E]. destruct E as [[= <- <-]|[]]. exists KIdle, 0. now apply T_idle.
  - apply in_app_iff in E as [E|E]; apply in_map_iff in E as ((m, t') & [= <- <-] & E); do 2 eexists; [now apply T_hw|now apply T_sw].
Qed.
Lemma run_tprio t n ar k p : nth_error (run_tasks x) t = Some (n, ar) -> is_task a n k p ar -> tprio (lapp_of x) t = p.
Proof.
  intros E T. unfold tprio, lprio. cbn [lapp_of l_line l_prio]. rewrite E. destruct ar as [sh lo]. apply (pd_task P) in T.
  destruct (find_index (fun v => mem n (snd v)) (vectors x)) as [i|] eqn:F.
  - apply find_index_some with (d := no_vec) in F as [L M]. apply mem_in in M. destruct (@vec_runs _ _ (nth_In _ _ L) M) as (k' & sh' & lo' & T' & _). now destruct (src_unique T T') as (_ & -> & _).
  - destruct (Nat.eq_dec p 0) as [->|Hp]; [reflexivity|exfalso]. destruct (vec_exists T) as (v & I & I' & _); [lia|]. apply (find_index_none _ _ v) in F; [|auto]. apply mem_in in I'. congruence.
Qed.
Lemma top_ok top : (forall v, In v (vectors x) -> snd (fst v) <= top) -> forall n k p sh lo, src_task items n k p sh lo -> p <= top.
Proof. intros Hv n k p sh lo T. destruct (Nat.eq_dec p 0) as [->|Hp]; [lia|]. destruct (vec_exists T) as (v & I & _ & <-); [lia|]. now apply Hv. Qed.
Lemma lapp_ok top : (forall v, In v (vectors x) -> snd (fst v) <= top) -> (forall r s, shared_field items r s -> sr_lock_free s = false -> no_clash items r) -> app_ok (lapp_of x) top.
Proof.
  intros Hv Hc. split; [|split].
  - cbn [lapp_of l_lines l_prio]. intros i I. apply in_seq in I. assert (J : In (nth i (vectors x) no_vec) (vectors x)) by (apply nth_In; lia). split; [now apply vec_prio|now apply Hv].
  - intros t r U. cbn [lapp_of l_uses l_ceil] in *. destruct (nth_error (run_tasks x) t) as [[n ar]|] eqn:Et; [|discriminate]. destruct (nth_error (ap_shared (x_app x)) r) as [[rn s]|] eqn:Er; [|discriminate].
    apply andb_prop in U as [U1 U2]. apply negb_true_iff in U1. destruct (iget (a_shared ar) rn) as [[|]|] eqn:G; try discriminate. apply iget_in in G.
    destruct (run_task_in _ Et) as (k & p & T). rewrite (run_tprio _ Et T). assert (U : uses_shared items n p rn Exclusive) by (apply (uses_shared_iff H); eauto).
    apply nth_error_In in Er. rewrite (acc_shared H) in Er. apply (pd_shared P) in Er.
    destruct (@ceiling_no_clash _ _ _ _ _ H rn) as [_ L]; [eauto|eauto|]. eauto.
  - intros r. cbn [lapp_of l_ceil]. destruct (nth_error (ap_shared (x_app x)) r) as [[rn s]|]; [|lia].
    destruct (in_dec string_dec rn (local_accesses a)) as [L|L].
    + apply (in_local_accesses W) in L as (n & k & p & [sh lo] & T & I). assert (U : uses_local items n p rn) by (apply (uses_local_iff H); eauto).
      rewrite (ceiling_clash H U). apply (pd_task P) in T. eapply top_ok; eauto.
    + assert (N : no_clash items rn). { intros n p U. apply L. apply (in_local_accesses W). apply (uses_local_iff H) in U as (k & ar & U). exists n, k, p, ar. exact U. }
      destruct (in_dec string_dec rn (map (fun u => snd (fst u)) (accesses a))) as [M|M].
      * apply in_map_iff in M as ([[p y] ac] & E & M). simpl in E. subst y. destruct (@ceiling_no_clash _ _ _ _ _ H rn N) as [(n & ac' & U) _].
        -- apply in_accesses in M as (n & k & ar & T & I). exists n, p, ac. apply (uses_shared_iff H). eauto.
        -- apply (uses_shared_iff H) in U as (k & [sh lo] & T & _). apply (pd_task P) in T. eapply top_ok; eauto.
      * rewrite (@ceiling_unused _ _ _ _ _ H rn N); [lia|]. intros n p ac U. apply M. apply (uses_shared_iff H) in U as (k & ar & T & I). apply in_map_iff. exists (p, rn, ac). split; [reflexivity|]. apply in_accesses. eauto.
Qed.
End Acc.
