(** How eigenvalues and eigenvectors react to a change of the matrix. *)
From Coq Require Import Reals Lra Lia List Arith.
From Verif Require Import Prelude LinAlg Spectral.
Import ListNotations.
Open Scope R_scope.

(** Euclidean length *)
Definition len (m : nat) (x : nat -> R) : R := sqrt (dot m x x).

Lemma len_nonneg : forall m x, 0 <= len m x.
Proof. intros. apply sqrt_pos. Qed.
Lemma len_sq : forall m x, len m x * len m x = dot m x x.
Proof. intros. apply sqrt_sqrt, dot_self_nonneg. Qed.
Lemma len_le : forall m x c, 0 <= c -> dot m x x <= c * c -> len m x <= c.
Proof. intros m x c Hc H. apply Rsqr_incr_0; auto using len_nonneg. unfold Rsqr. now rewrite len_sq. Qed.
Lemma len_bound_sq : forall m x c, len m x <= c -> dot m x x <= c * c.
Proof. intros m x c H. rewrite <- len_sq. pose proof (len_nonneg m x). apply Rmult_le_compat; auto. Qed.
Lemma dot_len : forall m x y, Rabs (dot m x y) <= len m x * len m y.
Proof.
  intros m x y. pose proof (cauchy_schwarz m x y) as C. fold (dot m x y) (dot m x x) (dot m y y) in C.
  rewrite <- (len_sq m x), <- (len_sq m y) in C.
  apply Rsqr_incr_0.
  - rewrite <- Rsqr_abs. eapply Rle_trans; [exact C|]. unfold Rsqr. right. ring.
  - apply Rabs_pos.
  - apply Rmult_le_pos; apply len_nonneg.
Qed.
Lemma len_ext : forall m x y, (forall i, (i < m)%nat -> x i = y i) -> len m x = len m y.
Proof. intros m x y H. unfold len. f_equal. now apply dot_ext. Qed.
Lemma dot_plus_l : forall m x y z, dot m (fun i => x i + y i) z = dot m x z + dot m y z.
Proof. intros. unfold dot. rewrite <- sumf_plus. apply sumf_ext; intros; ring. Qed.
Lemma dot_minus_l : forall m x y z, dot m (fun i => x i - y i) z = dot m x z - dot m y z.
Proof. intros. unfold dot. rewrite <- sumf_minus. apply sumf_ext; intros; ring. Qed.

(** y^T C x *)
Definition bil (m : nat) (C : nat -> nat -> R) (y x : nat -> R) : R :=
  dot m y (fun i => sumf m (fun k => C i k * x k)).

Lemma quad_bil : forall m C x, quad m C x = bil m C x x.
Proof.
  intros. unfold quad, bil, dot. apply sumf_ext; intros i Hi. rewrite <- sumf_scal_l. apply sumf_ext; intros; ring.
Qed.

(** combination of the first n columns *)
Definition comb (n : nat) (U : nat -> nat -> R) (c : nat -> R) (i : nat) : R := sumf n (fun a => c a * U i a).

Lemma comb_dot : forall m n U c x, dot m x (comb n U c) = sumf n (fun a => c a * dot m x (fun i => U i a)).
Proof.
  intros m n U c x. unfold dot, comb.
  rewrite (sumf_ext m _ (fun i => sumf n (fun a => c a * (x i * U i a)))).
  2: { intros i Hi. rewrite <- sumf_scal_l. apply sumf_ext; intros; ring. }
  rewrite sumf_swap. apply sumf_ext; intros a Ha. now rewrite sumf_scal_l.
Qed.
Lemma comb_self : forall m n U c, orthonormal m n U -> dot m (comb n U c) (comb n U c) = dot n c c.
Proof.
  intros m n U c H. rewrite comb_dot. unfold dot. apply sumf_ext; intros a Ha. f_equal.
  rewrite <- (orthonormal_coef m n U c a H Ha). apply sumf_ext; intros i Hi. unfold comb. ring.
Qed.

(** Weyl: if x^T B x <= x^T A x + eps |x|^2, no eigenvalue of B exceeds its counterpart in A by more than eps *)
Lemma weyl : forall m A lam V B mu U eps,
  orthonormal m m V -> eigcols m A lam V -> decreasing m lam ->
  orthonormal m m U -> eigcols m B mu U -> decreasing m mu ->
  (forall x, quad m B x <= quad m A x + eps * dot m x x) ->
  forall j, (j < m)%nat -> mu j <= lam j + eps.
Proof.
  intros m A lam V B mu U eps OV EV DV OU EU DU HQ j Hj.
  destruct (lin_dep j (S j) (fun a b => dot m (fun i => V i b) (fun i => U i a)) ltac:(lia)) as (c & (i0 & Hi0 & Hc) & H).
  set (x := comb (S j) U c).
  assert (OU' : orthonormal m (S j) U) by (apply (orthonormal_sub m m); auto; lia).
  assert (N : dot m x x = dot (S j) c c) by (apply comb_self; auto).
  assert (P : 0 < dot m x x).
  { rewrite N. unfold dot. apply (sumf_pos (S j) _ i0); auto; intros; nra. }
  assert (UX : forall b, (b < m)%nat -> sumf m (fun i => U i b * x i) = if Nat.leb b j then c b else 0).
  { intros b Hb. destruct (Nat.leb_spec b j).
    - unfold x, comb. apply (orthonormal_coef m (S j) U c b OU'). lia.
    - change (sumf m (fun i => U i b * x i)) with (dot m (fun i => U i b) x). unfold x. rewrite comb_dot.
      apply sumf_zero; intros a Ha. unfold dot. rewrite (OU b a) by lia. rewrite kd_diff by lia. ring. }
  assert (LB : mu j * dot m x x <= quad m B x).
  { rewrite (quad_spectral m B mu U OU EU x). unfold dot. rewrite <- (ortho_parseval m U OU x), <- sumf_scal_l.
    apply sumf_le; intros b Hb. rewrite UX by auto. destruct (Nat.leb_spec b j); [|lra].
    pose proof (DU b j ltac:(lia) Hj). nra. }
  assert (UB : quad m A x <= lam j * dot m x x).
  { rewrite (quad_spectral m A lam V OV EV x). unfold dot. rewrite <- (ortho_parseval m V OV x), <- sumf_scal_l.
    apply sumf_le; intros b Hb. destruct (Nat.lt_ge_cases b j).
    - replace (sumf m (fun i => V i b * x i)) with 0; [lra|].
      change (sumf m (fun i => V i b * x i)) with (dot m (fun i => V i b) x). unfold x. rewrite comb_dot. symmetry. apply H; auto.
    - pose proof (DV j b ltac:(lia) Hb). set (t := sumf m _). pose proof (Rle_0_sqr t). unfold Rsqr in *. nra. }
  specialize (HQ x). nra.
Qed.

(** Davis-Kahan: the first k eigenvectors of A against the last eigenvectors of B.
    [s] bounds the form y^T V1^T U2 z and is attained, as the spectral norm does. *)
Lemma davis_kahan : forall m A lam V B mu U eps k s,
  (forall i l, (i < m)%nat -> (l < m)%nat -> A i l = A l i) ->
  orthonormal m m V -> eigcols m A lam V -> decreasing m lam ->
  orthonormal m m U -> eigcols m B mu U -> decreasing m mu ->
  (forall j, (j < m)%nat -> 0 <= mu j) ->
  0 <= eps -> (forall y x, Rabs (bil m (fun i l => A i l - B i l) y x) <= eps * (len m y * len m x)) ->
  (1 <= k)%nat -> (k < m)%nat -> mu k < lam (k - 1)%nat -> 0 <= s ->
  (forall y z, sumf k (fun a => sumf (m - k) (fun b => y a * dot m (fun i => V i a) (fun i => U i (k + b)%nat) * z b)) <= s * (len k y * len (m - k) z)) ->
  (exists y z, len k y = 1 /\ len (m - k) z = 1 /\
     sumf k (fun a => sumf (m - k) (fun b => y a * dot m (fun i => V i a) (fun i => U i (k + b)%nat) * z b)) = s) ->
  s * (lam (k - 1)%nat - mu k) <= eps.
Proof.
  intros m A lam V B mu U eps k s HS OV EV DV OU EU DU PM He HE Hk1 Hkm Gap Hs Bnd (y & z & Ny & Nz & At).
  set (X := fun a b => dot m (fun i => V i a) (fun i => U i (k + b)%nat)) in *.
  assert (PL : forall a, (a < k)%nat -> lam (k - 1)%nat <= lam a) by (intros; apply DV; lia).
  pose proof (PM k Hkm) as Pk.
  set (l1 := lam (k - 1)%nat) in *. assert (P1 : 0 < l1) by lra.
  (* entry identity *)
  assert (ID : forall a b, (a < k)%nat -> (b < m - k)%nat ->
     lam a * X a b = X a b * mu (k + b)%nat + bil m (fun i l => A i l - B i l) (fun i => V i a) (fun i => U i (k + b)%nat)).
  { intros a b Ha Hb. unfold bil, X, dot.
    rewrite (sumf_ext m (fun i => V i a * sumf m (fun k0 => (A i k0 - B i k0) * U k0 (k + b)%nat))
      (fun i => V i a * sumf m (fun l => A i l * U l (k + b)%nat) - (V i a * U i (k + b)%nat) * mu (k + b)%nat)).
    2: { intros i Hi. rewrite (sumf_ext m _ (fun l => A i l * U l (k + b)%nat - B i l * U l (k + b)%nat)) by (intros; ring).
         rewrite sumf_minus, EU by lia. ring. }
    rewrite sumf_minus, sumf_scal_r.
    assert (T : sumf m (fun i => V i a * sumf m (fun l => A i l * U l (k + b)%nat)) = lam a * sumf m (fun i => V i a * U i (k + b)%nat)).
    { rewrite <- sumf_scal_l. transitivity (sumf m (fun i => sumf m (fun l => A i l * V l a) * U i (k + b)%nat)).
      2: { apply sumf_ext; intros i Hi. rewrite EV by lia. ring. }
      rewrite (sumf_ext m _ (fun i => sumf m (fun l => V i a * (A i l * U l (k + b)%nat)))) by (intros; now rewrite sumf_scal_l).
      rewrite sumf_swap. apply sumf_ext; intros l Hl. rewrite <- sumf_scal_r. apply sumf_ext; intros i Hi.
      rewrite (HS i l) by auto. ring. }
    rewrite T. ring. }
  set (y' := fun a => y a / lam a).
  assert (Ny' : len k y' <= / l1).
  { apply len_le; [left; now apply Rinv_0_lt_compat|].
    replace (/ l1 * / l1) with (/ l1 * / l1 * dot k y y) by (rewrite <- len_sq, Ny; ring).
    unfold dot. rewrite <- sumf_scal_l. apply sumf_le; intros a Ha. unfold y'.
    pose proof (PL a Ha). assert (I : 0 <= / lam a <= / l1) by (split; [left; apply Rinv_0_lt_compat; lra|apply Rinv_le_contravar; lra]).
    assert (/ lam a * / lam a <= / l1 * / l1) by (apply Rmult_le_compat; lra).
    unfold Rdiv. pose proof (Rle_0_sqr (y a)). unfold Rsqr in *. nra. }
  set (z' := fun b => mu (k + b)%nat * z b).
  assert (Nz' : len (m - k) z' <= mu k).
  { apply len_le; auto. replace (mu k * mu k) with (mu k * mu k * dot (m - k) z z) by (rewrite <- len_sq, Nz; ring).
    unfold dot. rewrite <- sumf_scal_l. apply sumf_le; intros b Hb. unfold z'.
    pose proof (DU k (k + b)%nat ltac:(lia) ltac:(lia)). pose proof (PM (k + b)%nat ltac:(lia)).
    assert (mu (k + b)%nat * mu (k + b)%nat <= mu k * mu k) by (apply Rmult_le_compat; lra).
    pose proof (Rle_0_sqr (z b)). unfold Rsqr in *. nra. }
  set (vy := comb k V y'). set (uz := comb (m - k) (fun i b => U i (k + b)%nat) z).
  assert (L1 : len m vy = len k y').
  { unfold len. f_equal. apply comb_self. apply (orthonormal_sub m m); auto; lia. }
  assert (L2 : len m uz = 1).
  { rewrite <- Nz. unfold len. f_equal. apply comb_self. intros a b Ha Hb. rewrite OU by lia.
    destruct (Nat.eq_dec a b) as [->|Hab]; [rewrite !kd_same; auto|rewrite !kd_diff by lia; auto]. }
  assert (SP : s = sumf k (fun a => sumf (m - k) (fun b => y' a * X a b * z' b)) + bil m (fun i l => A i l - B i l) vy uz).
  { assert (BE : bil m (fun i l => A i l - B i l) vy uz =
       sumf k (fun a => sumf (m - k) (fun b => y' a * bil m (fun i l => A i l - B i l) (fun i => V i a) (fun i => U i (k + b)%nat) * z b))).
    { unfold bil at 1. rewrite dot_comm. unfold vy. rewrite comb_dot. apply sumf_ext; intros a Ha.
      rewrite (sumf_ext (m - k) _ (fun b => y' a * (z b * bil m (fun i l => A i l - B i l) (fun i => V i a) (fun i => U i (k + b)%nat)))) by (intros; ring).
      rewrite sumf_scal_l. f_equal. rewrite dot_comm. unfold bil, dot.
      rewrite (sumf_ext (m - k) _ (fun b => sumf m (fun i => V i a * (sumf m (fun l => (A i l - B i l) * U l (k + b)%nat) * z b)))).
      2: { intros b Hb. rewrite <- sumf_scal_l. apply sumf_ext; intros; ring. }
      rewrite sumf_swap. apply sumf_ext; intros i Hi. rewrite sumf_scal_l. f_equal.
      rewrite (sumf_ext (m - k) _ (fun b => sumf m (fun l => (A i l - B i l) * (U l (k + b)%nat * z b)))).
      2: { intros b Hb. rewrite <- sumf_scal_r. apply sumf_ext; intros; ring. }
      rewrite sumf_swap. apply sumf_ext; intros l Hl. rewrite sumf_scal_l. f_equal.
      unfold uz, comb. apply sumf_ext; intros; ring. }
    rewrite BE, <- sumf_plus, <- At. apply sumf_ext; intros a Ha. rewrite <- sumf_plus. apply sumf_ext; intros b Hb.
    fold (X a b). assert (Q := ID a b Ha Hb). unfold z', y'. pose proof (PL a Ha).
    transitivity (y a / lam a * (lam a * X a b) * z b); [field; lra|]. rewrite Q. ring. }
  assert (Q1 := Bnd y' z'). fold X in Q1.
  assert (Q2 := HE vy uz). rewrite L1, L2 in Q2.
  assert (Q3 : bil m (fun i l => A i l - B i l) vy uz <= eps * len k y') by (eapply Rle_trans; [apply Rle_abs|]; lra).
  pose proof (len_nonneg k y'). pose proof (len_nonneg (m - k) z').
  assert (Q4 : s <= s * (len k y' * mu k) + eps * len k y').
  { rewrite SP at 1. apply Rplus_le_compat; auto. eapply Rle_trans; [exact Q1|].
    apply Rmult_le_compat_l; auto. apply Rmult_le_compat_l; auto. }
  assert (Q5 : s <= (s * mu k + eps) * / l1).
  { eapply Rle_trans; [exact Q4|]. replace (s * (len k y' * mu k) + eps * len k y') with ((s * mu k + eps) * len k y') by ring.
    apply Rmult_le_compat_l; auto. pose proof (Rmult_le_pos s (mu k) Hs Pk). lra. }
  apply (Rmult_le_compat_r l1) in Q5; [|lra]. rewrite Rmult_assoc, Rinv_l, Rmult_1_r in Q5 by lra. lra.
Qed.
