(** The assertions of numpy.testing. *)
From Coq Require Import String Reals Lra Lia List Arith ZArith Bool.
From Verif Require Import Prelude Py NumArr M_Misc P_Misc M_SimRunners M_Gradients M_QP M_Subspaces M_Quadrature M_Domains M_Designs M_Tests.
Import ListNotations.
Open Scope R_scope.

Lemma rltb_spec : forall x y, rltb x y = true <-> x < y.
Proof. intros. unfold rltb. destruct (Rlt_dec x y); split; intros; auto; discriminate. Qed.
Lemma rleb_spec : forall x y, rleb x y = true <-> x <= y.
Proof. intros. unfold rleb. destruct (Rle_dec x y); split; intros; auto; discriminate. Qed.
Lemma tol_pos : forall d, 0 < 15 / 10 * / 10 ^ d.
Proof. intros d. assert (0 < / 10 ^ d) by (apply Rinv_0_lt_compat, pow_lt; lra). lra. Qed.
Lemma near_spec : forall d x y, near_ d x y = true <-> Rabs (y - x) < 15 / 10 * / 10 ^ d.
Proof. intros. apply rltb_spec. Qed.
Lemma near_refl : forall d x, near_ d x x = true.
Proof. intros. apply near_spec. unfold Rminus. rewrite Rplus_opp_r, Rabs_R0. apply tol_pos. Qed.
Lemma nearx_refl : forall d x, nearx d x x = true.
Proof. intros d [x| | |]; cbn; auto using near_refl. Qed.

Lemma assert_ok : forall b, assert_ b = Ok tt <-> b = true.
Proof. intros []; cbn; split; intros; auto; discriminate. Qed.
Lemma assert_cases : forall b, assert_ b = Ok tt \/ assert_ b = Err AssertionError.
Proof. intros []; cbn; auto. Qed.
Lemma compare_cases : forall A B (p : A -> B -> bool) X Y, compare p X Y = Ok tt \/ compare p X Y = Err AssertionError.
Proof.
  intros A B p X Y. unfold compare. destruct (shape X) as [|a s], (shape Y) as [|b t]; try apply assert_cases.
  destruct (list_eq_dec Nat.eq_dec (a :: s) (b :: t)); auto. apply assert_cases.
Qed.

Lemma entry2 : forall A (X : nd A) r c i j, shape X = [r; c] -> (i < r)%nat -> (j < c)%nat -> entry X (i * c + j) = X.[i, j].
Proof.
  intros A X r c i j H Hi Hj. unfold entry. rewrite H. f_equal.
  replace (i * c + j)%nat with (ravel [r; c] [i; j]) by (cbn; lia). apply unravel_ravel. repeat constructor; auto.
Qed.
Lemma entry2' : forall A (X : nd A) r c k, shape X = [r; c] -> (k < r * c)%nat -> exists i j, (i < r)%nat /\ (j < c)%nat /\ k = (i * c + j)%nat /\ entry X k = X.[i, j].
Proof.
  intros A X r c k H Hk. exists (k / c)%nat, (k mod c)%nat. assert (c <> 0)%nat by (intros ->; lia).
  assert (k / c < r)%nat by (apply Nat.div_lt_upper_bound; lia). assert (k mod c < c)%nat by (now apply Nat.mod_upper_bound).
  assert (E : k = (k / c * c + k mod c)%nat) by (rewrite (Nat.div_mod k c) at 1 by auto; lia).
  repeat split; auto. rewrite E at 1. now apply (entry2 A X r c).
Qed.

(** the shapes agree *)
Lemma compare2 : forall A B (p : A -> B -> bool) X Y r c, shape X = [r; c] -> shape Y = [r; c] ->
  (compare p X Y = Ok tt <-> forall i j, (i < r)%nat -> (j < c)%nat -> p (X.[i, j]) (Y.[i, j]) = true).
Proof.
  intros A B p X Y r c HX HY. unfold compare. rewrite HX, HY.
  destruct (list_eq_dec Nat.eq_dec [r; c] [r; c]) as [_|n]; [|now contradiction n].
  rewrite assert_ok, forallb_forall. unfold size. rewrite HX. cbn [prodn]. rewrite Nat.mul_1_r. split.
  - intros H i j Hi Hj. specialize (H (i * c + j)%nat). rewrite (entry2 A X r c), (entry2 B Y r c) in H by auto. apply H. apply in_seq. nia.
  - intros H k Hk. apply in_seq in Hk. destruct (entry2' A X r c k HX ltac:(lia)) as (i & j & Hi & Hj & E & ->).
    rewrite E, (entry2 B Y r c) by auto. auto.
Qed.
(** against a number *)
Lemma compare2_num : forall A B (p : A -> B -> bool) X y r c, shape X = [r; c] ->
  (compare p X (num y) = Ok tt <-> forall i j, (i < r)%nat -> (j < c)%nat -> p (X.[i, j]) y = true).
Proof.
  intros A B p X y r c HX.
  assert (K : (forall k, In k (seq 0 (size X)) -> p (entry X k) (entry (num y) k) = true) <-> forall i j, (i < r)%nat -> (j < c)%nat -> p (X.[i, j]) y = true).
  { unfold size. rewrite HX. cbn [prodn]. rewrite Nat.mul_1_r. split.
    - intros H i j Hi Hj. specialize (H (i * c + j)%nat). rewrite (entry2 A X r c) in H by auto. apply H. apply in_seq. nia.
    - intros H k Hk. apply in_seq in Hk. destruct (entry2' A X r c k HX ltac:(lia)) as (i & j & Hi & Hj & E & ->). now apply H. }
  unfold compare. rewrite HX. change (shape (num y)) with (@nil nat). rewrite assert_ok, forallb_forall. exact K.
Qed.
Lemma compare_nums : forall A B (p : A -> B -> bool) x y, compare p (num x) (num y) = Ok tt <-> p x y = true.
Proof. intros. unfold compare, num. cbn. rewrite andb_true_r. apply assert_ok. Qed.

Lemma almost_same : forall d X Y r c, shape X = [r; c] -> shape Y = [r; c] -> (forall i j, (i < r)%nat -> (j < c)%nat -> X.[i, j] = Y.[i, j]) ->
  assert_almost_equal d X Y = Ok tt.
Proof. intros d X Y r c HX HY H. apply (compare2 _ _ _ X Y r c HX HY). intros i j Hi Hj. rewrite H by auto. apply near_refl. Qed.
Lemma almost_nums : forall d x, assert_almost_equal d (num x) (num x) = Ok tt.
Proof. intros. apply compare_nums, near_refl. Qed.

(** sequencing *)
Lemma bind_lift : forall W A B (r : res A) (k : A -> M W B) w, mbind (mlift r) k w = match r with Ok a => k a w | Err e => (Err e, w) end.
Proof. intros W A B [a|e] k w; reflexivity. Qed.
Lemma bind_assert : forall W B (r : res unit) (k : unit -> M W B) w, r = Ok tt -> mbind (mlift r) k w = k tt w.
Proof. intros W B r k w ->. reflexivity. Qed.
Lemma mbind_ext_l : forall W A B (m m' : M W A) (k : A -> M W B) w, m w = m' w -> mbind m k w = mbind m' k w.
Proof. intros W A B m m' k w H. unfold mbind. now rewrite H. Qed.
