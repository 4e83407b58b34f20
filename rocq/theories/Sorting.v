(** The contract of numpy.argsort (any sorting permutation) and a reference
    implementation meeting it. *)
From Coq Require Import Reals Lra Lia List Arith Permutation Sorted.
From Verif Require Import Prelude.
Import ListNotations.
Open Scope R_scope.

Definition argsort_contract (argsort : list R -> list nat) : Prop :=
  forall l, Permutation (argsort l) (seq 0 (length l)) /\
    forall i j, (i < j)%nat -> (j < length l)%nat ->
      nth (nth i (argsort l) 0%nat) l 0 <= nth (nth j (argsort l) 0%nat) l 0.

Fixpoint insert_by (key : nat -> R) (x : nat) (l : list nat) : list nat :=
  match l with
  | [] => [x]
  | y :: t => if Rle_dec (key x) (key y) then x :: l else y :: insert_by key x t
  end.
Definition argsort_ref (l : list R) : list nat :=
  fold_right (insert_by (fun i => nth i l 0)) [] (seq 0 (length l)).

Lemma insert_perm : forall key x l, Permutation (insert_by key x l) (x :: l).
Proof.
  induction l as [|y t IH]; simpl; auto. destruct (Rle_dec (key x) (key y)); auto.
  rewrite IH. constructor.
Qed.

Lemma insert_sorted : forall key x l, StronglySorted (fun a b => key a <= key b) l ->
  StronglySorted (fun a b => key a <= key b) (insert_by key x l).
Proof.
  intros key x. induction l as [|y t IH]; intros H; simpl.
  - repeat constructor.
  - inversion H as [|? ? HS HF]; subst. destruct (Rle_dec (key x) (key y)) as [L|L].
    + constructor; auto. constructor; auto. rewrite Forall_forall in *. intros z Hz. specialize (HF z Hz). lra.
    + constructor; auto. rewrite Forall_forall in *. intros z Hz.
      apply (Permutation_in _ (insert_perm key x t)) in Hz. destruct Hz as [->|Hz]; [lra|auto].
Qed.

Lemma StronglySorted_nth : forall A (Rel : A -> A -> Prop) l d, StronglySorted Rel l ->
  forall i j, (i < j)%nat -> (j < length l)%nat -> Rel (nth i l d) (nth j l d).
Proof.
  intros A Rel l d H. induction H as [|x l HS IH HF]; intros i j Hij Hj; simpl in Hj; [lia|].
  destruct j as [|j]; [lia|]. destruct i as [|i]; simpl.
  - rewrite Forall_forall in HF. apply HF, nth_In. lia.
  - apply IH; lia.
Qed.

Lemma argsort_ref_contract : argsort_contract argsort_ref.
Proof.
  intros l. unfold argsort_ref.
  assert (P : forall s, Permutation (fold_right (insert_by (fun i => nth i l 0)) [] s) s).
  { induction s; simpl; auto. rewrite insert_perm. constructor. auto. }
  assert (S : forall s, StronglySorted (fun a b => nth a l 0 <= nth b l 0) (fold_right (insert_by (fun i => nth i l 0)) [] s)).
  { induction s; simpl; [constructor|]. apply (insert_sorted (fun i => nth i l 0)); auto. }
  split; [apply P|]. intros i j Hij Hj.
  apply (StronglySorted_nth _ _ _ 0%nat (S (seq 0 (length l)))); auto.
  rewrite (Permutation_length (P _)), seq_length. auto.
Qed.

(** consequences used by the proofs *)
Lemma argsort_length : forall argsort l, argsort_contract argsort -> length (argsort l) = length l.
Proof. intros a l H. destruct (H l) as [P _]. now rewrite (Permutation_length P), seq_length. Qed.
Lemma argsort_NoDup : forall argsort l, argsort_contract argsort -> NoDup (argsort l).
Proof. intros a l H. destruct (H l) as [P _]. apply (Permutation_NoDup (Permutation_sym P)), seq_NoDup. Qed.
Lemma argsort_In : forall argsort l i, argsort_contract argsort -> (In i (argsort l) <-> (i < length l)%nat).
Proof.
  intros a l i H. destruct (H l) as [P _]. split; intros Hi.
  - apply (Permutation_in _ P) in Hi. apply in_seq in Hi. lia.
  - apply (Permutation_in _ (Permutation_sym P)). apply in_seq. lia.
Qed.
Lemma argsort_nth_lt : forall argsort l i, argsort_contract argsort -> (i < length l)%nat -> (nth i (argsort l) 0%nat < length l)%nat.
Proof. intros a l i H Hi. apply (argsort_In a); auto. apply nth_In. rewrite argsort_length; auto. Qed.

(** Distinct keys leave argsort no choice. *)
Lemma sorted_perm_unique : forall (key : nat -> R) l1 l2, Permutation l1 l2 -> NoDup l1 ->
  StronglySorted (fun a b => key a <= key b) l1 -> StronglySorted (fun a b => key a < key b) l2 -> l1 = l2.
Proof.
  intros key. induction l1 as [|x l1 IH]; intros l2 P ND S1 S2.
  - apply Permutation_nil in P. auto.
  - destruct l2 as [|y l2]; [apply Permutation_sym, Permutation_nil in P; discriminate|].
    inversion S1 as [|? ? S1' F1]; subst. inversion S2 as [|? ? S2' F2]; subst. inversion ND; subst.
    assert (E : x = y).
    { assert (Hx : In x (y :: l2)) by (apply (Permutation_in _ P); left; auto).
      destruct Hx as [|Hx]; auto. exfalso.
      assert (Hy : In y (x :: l1)) by (apply (Permutation_in _ (Permutation_sym P)); left; auto).
      rewrite Forall_forall in F1, F2. specialize (F2 x Hx).
      destruct Hy as [->|Hy]; [lra|]. specialize (F1 y Hy). lra. }
    subst y. f_equal. apply IH; auto. now apply Permutation_cons_inv in P.
Qed.

Lemma nth_StronglySorted : forall A (Rel : A -> A -> Prop) l d,
  (forall i j, (i < j)%nat -> (j < length l)%nat -> Rel (nth i l d) (nth j l d)) -> StronglySorted Rel l.
Proof.
  intros A Rel. induction l as [|x l IH]; intros d H; constructor.
  - apply (IH d). intros i j Hi Hj. apply (H (S i) (S j)); simpl; lia.
  - apply Forall_forall. intros y Hy. apply (In_nth _ _ d) in Hy. destruct Hy as (j & Hj & <-).
    apply (H 0%nat (S j)); simpl; lia.
Qed.

Lemma argsort_unique : forall argsort l s, argsort_contract argsort -> Permutation s (seq 0 (length l)) ->
  StronglySorted (fun a b => nth a l 0 < nth b l 0) s -> argsort l = s.
Proof.
  intros a l s H P SS. destruct (H l) as [P1 S1].
  apply (sorted_perm_unique (fun i => nth i l 0)); auto.
  - now rewrite P1, P.
  - apply argsort_NoDup; auto.
  - apply (nth_StronglySorted _ _ _ 0%nat). rewrite argsort_length by auto. auto.
Qed.
