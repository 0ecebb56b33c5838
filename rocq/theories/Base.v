(** Shared helpers: functional heaps / maps and a few list lemmas. No modelling content. *)
From Coq Require Export List Arith ZArith Lia Bool.
Export ListNotations.
Set Implicit Arguments.

(** Finite-map-like update of a total function keyed by [nat]. *)
Definition upd {A : Type} (m : nat -> A) (k : nat) (x : A) : nat -> A :=
  fun j => if Nat.eqb j k then x else m j.

Lemma upd_same {A} (m : nat -> A) k x : upd m k x k = x.
Proof. unfold upd. now rewrite Nat.eqb_refl. Qed.

Lemma upd_other {A} (m : nat -> A) k x j : j <> k -> upd m k x j = m j.
Proof. unfold upd. intros H. apply Nat.eqb_neq in H. now rewrite H. Qed.

(** Last element of a list, if any. *)
Definition lasto {A} (l : list A) : option A := hd_error (rev l).

Lemma lasto_snoc {A} (l : list A) x : lasto (l ++ [x]) = Some x.
Proof. unfold lasto. now rewrite rev_app_distr. Qed.

Lemma lasto_nil {A} : @lasto A [] = None.
Proof. reflexivity. Qed.

Lemma lasto_None {A} (l : list A) : lasto l = None -> l = [].
Proof.
  destruct l as [|x l] using rev_ind; [reflexivity|].
  now rewrite lasto_snoc.
Qed.

Lemma lasto_Some {A} (l : list A) x : lasto l = Some x -> exists l', l = l' ++ [x].
Proof.
  destruct l as [|y l] using rev_ind; [discriminate|].
  rewrite lasto_snoc. intros [= ->]. now exists l.
Qed.

Lemma lasto_cons {A} (x : A) l : lasto (x :: l) = match lasto l with Some y => Some y | None => Some x end.
Proof.
  destruct l as [|y l] using rev_ind; [reflexivity|].
  rewrite app_comm_cons, !lasto_snoc. reflexivity.
Qed.

Lemma lasto_app {A} (l1 l2 : list A) : lasto (l1 ++ l2) = match lasto l2 with Some y => Some y | None => lasto l1 end.
Proof.
  destruct l2 as [|y l] using rev_ind; [now rewrite app_nil_r|].
  now rewrite app_assoc, !lasto_snoc.
Qed.

Lemma hd_error_app {A} (l1 l2 : list A) :
  hd_error (l1 ++ l2) = match hd_error l1 with Some y => Some y | None => hd_error l2 end.
Proof. now destruct l1. Qed.

Lemma hd_error_None {A} (l : list A) : hd_error l = None -> l = [].
Proof. now destruct l. Qed.

Lemma NoDup_app_inv {A} (l1 l2 : list A) :
  NoDup (l1 ++ l2) -> NoDup l1 /\ NoDup l2 /\ (forall x, In x l1 -> In x l2 -> False).
Proof.
  induction l1 as [|a l1 IH]; simpl; intros H.
  - repeat split; [constructor|exact H|tauto].
  - inversion H as [|? ? Hni Hnd]; subst. apply IH in Hnd as (H1 & H2 & H3).
    repeat split; [constructor|exact H2|].
    + intros Hin. apply Hni, in_or_app. now left.
    + exact H1.
    + intros x [->|Hx] Hx2; [apply Hni, in_or_app; now right|eauto].
Qed.

Lemma NoDup_app_intro {A} (l1 l2 : list A) :
  NoDup l1 -> NoDup l2 -> (forall x, In x l1 -> In x l2 -> False) -> NoDup (l1 ++ l2).
Proof.
  induction l1 as [|a l1 IH]; simpl; intros H1 H2 Hd; [exact H2|].
  inversion H1; subst. constructor.
  - rewrite in_app_iff. intros [?|?]; [tauto|]. apply (Hd a); auto.
  - apply IH; auto. intros x Hx Hx2. apply (Hd x); auto.
Qed.

Lemma NoDup_snoc {A} (l : list A) x : NoDup l -> ~ In x l -> NoDup (l ++ [x]).
Proof.
  intros H Hn. apply NoDup_app_intro; [exact H|repeat constructor; simpl; tauto|].
  intros y Hy [->|[]]; auto.
Qed.
