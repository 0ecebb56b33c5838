(** Tasks under [#[cfg]]: what is left of the generated code after rustc has evaluated the attributes.
    The macro keeps the [cfg] attributes of a task (syntax/parse/util.rs 66-82, hardware_task.rs 23-27,
    software_task.rs 24-29) and analyses the application as if every task were there; rustc then drops the items
    that carry the attributes of a disabled task. [on n]: the attributes of task [n] hold. *)
From Verif Require Import Base LTS AppModel AppSpec AppAcceptSpec AppProofs AppAnalysis AppChecks AppFinal AppRun AppStart AppStartProofs LockModel LockSpec.
Set Implicit Arguments.

(** The application as the user thinks of it: the disabled tasks are not written. *)
Definition keep (on : ident -> bool) (items : list item) : list item :=
  filter (fun i => match i with ITask n _ => on n | _ => true end) items.

(** The handlers in the binary. codegen/hardware_tasks.rs 30-49: the handler of a hardware task carries the
    attributes of the task (line 34); codegen/async_dispatchers.rs 40-53, 62-80: the dispatcher does not, the [poll]
    statements in it do (line 47). *)
Definition compiled_vectors (on : ident -> bool) (x : expansion) : list (ident * nat * list ident) :=
  map (fun t => (hw_binds (snd t), hw_prio (snd t), [fst t])) (filter (fun t => on (fst t)) (ap_hw (x_app x))) ++
  map (fun i => (snd i, fst i, filter on (chan x (fst i)))) (x_ints x).
(** codegen/main.rs 17-25: thread mode *)
Definition compiled_thread (on : ident -> bool) (x : expansion) : list ident :=
  match ap_idle (x_app x) with Some (n, _) => [n] | None => filter on (chan x 0) end.
(** codegen/pre_init.rs 9-26, bindings/cortex.rs 204-265 (esp32c3.rs 85-118, esp32c6.rs 90-123): the statements of start-up
    carry no attributes of tasks, so [main_code] of AppStart is what runs.  An interrupt taken without a handler in the binary goes
    to the default handler of the runtime crate, which never returns. *)

(** The compiled application on the machine of LockModel: as [lapp_of], without the disabled tasks. *)
Definition lapp_cfg (on : ident -> bool) (x : expansion) : lapp := {|
  l_lines := l_lines (lapp_of x);
  l_prio := l_prio (lapp_of x);
  l_line := fun t => match nth_error (run_tasks x) t with
                     | Some (n, _) => if on n || negb (mem n (map fst (ap_hw (x_app x)) ++ map fst (ap_sw (x_app x)))) then l_line (lapp_of x) t else Some (length (vectors x))
                     | None => None
                     end;
  l_uses := fun t r => match nth_error (run_tasks x) t with
                       | Some (n, _) => (on n || negb (mem n (map fst (ap_hw (x_app x)) ++ map fst (ap_sw (x_app x))))) && l_uses (lapp_of x) t r
                       | None => false
                       end;
  l_ceil := l_ceil (lapp_of x);
  l_nest := l_nest (lapp_of x) |}.

(** ** Dropping tasks *)
Section Keep.
Context (on : ident -> bool) (items : list item).
Lemma keep_in i : In i (keep on items) -> In i items.
Proof. unfold keep. intros I. now apply filter_In in I as [I _]. Qed.
Lemma keep_task n r : In (ITask n r) (keep on items) <-> In (ITask n r) items /\ on n = true.
Proof. unfold keep. rewrite filter_In. reflexivity. Qed.
Lemma in_keep i : In i items -> (forall n r, i <> ITask n r) -> In i (keep on items).
Proof. intros I N. unfold keep. apply filter_In. split; [exact I|]. destruct i; auto. now destruct (N name raw). Qed.
Lemma src_keep n k p sh lo : src_task (keep on items) n k p sh lo -> src_task items n k p sh lo.
Proof. intros T. inversion T; subst; [apply S_idle|eapply S_hard|eapply S_soft]; eauto using keep_in. Qed.
Lemma src_keep_on n k p sh lo : src_task (keep on items) n k p sh lo -> k = KIdle \/ on n = true.
Proof. intros T. inversion T as [|? ? ? I|? ? I]; subst; [auto|right..]; now apply keep_task in I. Qed.
Lemma keep_src n k p sh lo : src_task items n k p sh lo -> k = KIdle \/ on n = true -> src_task (keep on items) n k p sh lo.
Proof.
  intros T [-> | C]; inversion T; subst.
  - apply S_idle. apply in_keep; [assumption|discriminate].
  - apply S_idle. apply in_keep; [assumption|discriminate].
  - eapply S_hard; [apply keep_task; eauto|assumption].
  - eapply S_soft; [apply keep_task; eauto|assumption].
Qed.
Lemma uses_shared_keep n p x ac : uses_shared (keep on items) n p x ac -> uses_shared items n p x ac.
Proof. intros (k & sh & lo & T & I). exists k, sh, lo. split; [now apply src_keep|exact I]. Qed.
Lemma uses_local_keep n p x : uses_local (keep on items) n p x -> uses_local items n p x.
Proof. intros (k & sh & lo & T & I). exists k, sh, lo. split; [now apply src_keep|exact I]. Qed.
Lemma shared_field_keep x r : shared_field (keep on items) x r <-> shared_field items x r.
Proof. split; intros (s & fs & I & J); exists s, fs; (split; [|exact J]); [now apply keep_in|apply in_keep; [exact I|discriminate]]. Qed.
Lemma local_field_keep x t : local_field (keep on items) x t <-> local_field items x t.
Proof. split; intros (s & fs & I & J); exists s, fs; (split; [|exact J]); [now apply keep_in|apply in_keep; [exact I|discriminate]]. Qed.
Lemma declares_keep n x : declares (keep on items) n x -> declares items n x.
Proof.
  intros [(k & p & sh & lo & T & I)|(lo & ss & ls & T & I)]; [left; exists k, p, sh, lo; split; [now apply src_keep|exact I]|right; exists lo, ss, ls; split; [now apply keep_in|exact I]].
Qed.
Lemma NoDup_tail {T} (l m : list T) : NoDup (l ++ m) -> NoDup m.
Proof. induction l as [|a l IH]; [auto|]. intros N. inversion N; auto. Qed.
Lemma NoDup_flat_map_filter {T U} (f : T -> list U) (p : T -> bool) (l : list T) : NoDup (flat_map f l) -> NoDup (flat_map f (filter p l)).
Proof.
  induction l as [|a l IH]; simpl; [auto|]. intros N. apply NoDup_tail in N as N2. specialize (IH N2). destruct (p a); [|exact IH]. simpl.
  assert (N1 : NoDup (f a)). { clear - N. induction (f a) as [|y m IHm]; [constructor|]. inversion N as [|? ? H1 H2]; subst. constructor; [|auto]. intros I. apply H1. apply in_app_iff. now left. }
  assert (D : forall y, In y (f a) -> ~ In y (flat_map f (filter p l))).
  { intros y I J. apply in_flat_map in J as (z & J & J'). apply filter_In in J as [J _]. clear - N I J J'. induction (f a) as [|w m IHm]; [destruct I|]. simpl in N. inversion N as [|? ? H1 H2]; subst. destruct I as [-> |I]; [|auto]. apply H1. apply in_app_iff. right. apply in_flat_map. eauto. }
  clear - N1 D IH. induction (f a) as [|y m IHm]; [exact IH|]. simpl. inversion N1 as [|? ? H1 H2]; subst. constructor.
  - intros I. apply in_app_iff in I as [I|I]; [contradiction|]. apply (D y); [now left|exact I].
  - apply IHm; [exact H2|]. intros z I. apply D. now right.
Qed.
Lemma how_many_keep f : (forall n r, f (ITask n r) = false) -> how_many f (keep on items) = how_many f items.
Proof.
  intros N. unfold how_many, keep. induction items as [|i l IH]; [reflexivity|]. simpl. destruct i; simpl; try (destruct (f _); simpl; lia).
  rewrite N. destruct (on name); simpl; [rewrite N|]; lia.
Qed.
Lemma bound_keep : length (flat_map bound (keep on items)) <= length (flat_map bound items).
Proof. unfold keep. induction items as [|i l IH]; simpl; [lia|]. destruct i; simpl; try lia. destruct (on name); simpl; rewrite ?app_length; lia. Qed.

Lemma module_keep : module_ok items -> module_ok (keep on items).
Proof.
  intros M. split.
  - intros i I. apply (mo_items M). now apply keep_in.
  - rewrite how_many_keep by reflexivity. exact (mo_init M).
  - rewrite how_many_keep by reflexivity. exact (mo_idle M).
  - apply NoDup_flat_map_filter. exact (mo_names M).
  - apply NoDup_flat_map_filter. exact (mo_binds M).
  - intros n lo sn ln I. apply keep_in in I. destruct (mo_structs M _ _ _ _ I) as [A B]. split; intros s fs J; apply keep_in in J; eauto.
Qed.
Lemma resources_keep : resources_ok items -> resources_ok (keep on items).
Proof.
  intros R. split.
  - intros n p x ac U. apply uses_shared_keep in U. apply (re_shared R) in U as [r U]. exists r. now apply shared_field_keep.
  - intros n p x U. apply uses_local_keep in U. apply (re_local R) in U as [t U]. exists t. now apply local_field_keep.
  - intros n p n' p' x U U'. apply uses_shared_keep in U, U'. exact (re_mixed R U U').
  - intros x r F L. apply shared_field_keep in F. destruct (re_free R F L) as [A B]. split.
    + intros n p sh lo ac T. apply src_keep in T. eapply A; eauto.
    + intros n p ac n' p' ac' U U'. apply uses_shared_keep in U, U'. eapply B; eauto.
  - intros x n p n' p' U U'. apply uses_local_keep in U, U'. exact (re_one R U U').
  - intros x t n F D. apply local_field_keep in F. apply declares_keep in D. exact (re_decl R F D).
  - intros n sh lo n' sh' lo' T T'. apply src_keep in T, T'. exact (re_zero R T T').
Qed.
Lemma target_keep b disp : target_ok b disp items -> target_ok b disp (keep on items).
Proof.
  intros T. split.
  - exact (ta_disp T).
  - intros n d p sh lo S. apply src_keep in S. exact (ta_bound T S).
  - intros Hb ps N F. apply (ta_enough T Hb); [exact N|]. intros p I. destruct (F p I) as (Hp & n & sh & lo & S). split; [exact Hp|]. exists n, sh, lo. now apply src_keep.
  - pose proof (ta_target T) as G. destruct b; [destruct G as (G1 & G2 & G3)|destruct G as (G1 & G2)|destruct G as (G1 & G2)|exact G].
    + split; [exact G1|]. split; intros n d p sh lo S; apply src_keep in S; [eapply G2|eapply G3]; eauto.
    + split; [exact G1|]. intros n k p sh lo S; apply src_keep in S; eapply G2; eauto.
    + split; [exact G1|]. intros n k p sh lo S; apply src_keep in S; eapply G2; eauto.
Qed.
End Keep.

Section Compiled.
Context (b : bkind) (disp : list ident) (items : list item) (a : app) (x : expansion) (H : accepted b disp items a x).
Let P := ac_parsed H.
Let W := pd_wf P.
Context (on : ident -> bool).

Lemma cfg_ok top : (forall v, In v (vectors x) -> snd (fst v) <= top) -> (forall r s, shared_field items r s -> sr_lock_free s = false -> no_clash items r) -> app_ok (lapp_cfg on x) top.
Proof.
  intros Hv Hc. destruct (lapp_ok H Hv Hc) as (O1 & O2 & O3). split; [exact O1|]. split; [|exact O3].
  intros t r U. cbn [lapp_cfg l_uses l_ceil] in *. destruct (nth_error (run_tasks x) t) as [[n ar]|] eqn:E; [|discriminate].
  destruct (on n || _) eqn:C; [|discriminate]. simpl in U. specialize (O2 t r U). unfold tprio in *. cbn [lapp_cfg l_line]. rewrite E, C. exact O2.
Qed.

(** Handlers in the binary are generated handlers, at the same priority, running the same tasks without the disabled ones. *)
Lemma compiled_vec v : In v (compiled_vectors on x) -> exists ts, In (fst v, ts) (vectors x) /\ snd v = filter on ts.
Proof.
  unfold compiled_vectors, vectors. intros I. apply in_app_iff in I as [I|I]; apply in_map_iff in I as (t & <- & I).
  - apply filter_In in I as [I C]. exists [fst t]. simpl. rewrite C. split; [|reflexivity]. apply in_app_iff. left. apply in_map_iff. now exists t.
  - exists (chan x (fst t)). split; [|reflexivity]. apply in_app_iff. right. apply in_map_iff. now exists t.
Qed.
Lemma compiled_from v : In v (vectors x) -> (exists n, In n (snd v) /\ on n = true) -> In (fst v, filter on (snd v)) (compiled_vectors on x).
Proof.
  unfold compiled_vectors, vectors. intros I (n & N & C). apply in_app_iff in I as [I|I]; apply in_map_iff in I as (t & <- & I); simpl in *.
  - destruct N as [<- |[]]. rewrite C. apply in_app_iff. left. apply in_map_iff. exists t. split; [reflexivity|]. apply filter_In. auto.
  - apply in_app_iff. right. apply in_map_iff. exists t. auto.
Qed.
Lemma compiled_disp p d : In (p, d) (x_ints x) -> In (d, p, filter on (chan x p)) (compiled_vectors on x).
Proof. intros I. unfold compiled_vectors. apply in_app_iff. right. apply in_map_iff. now exists (p, d). Qed.
End Compiled.
