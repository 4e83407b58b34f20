(** Spectral facts about real matrices, by finite sums. *)
From Coq Require Import Reals Lra Lia List Arith.
From Verif Require Import Prelude LinAlg.
Import ListNotations.
Open Scope R_scope.

(** inner product of two vectors of length m *)
Definition dot (m : nat) (x y : nat -> R) : R := sumf m (fun i => x i * y i).
(** x^T C x *)
Definition quad (m : nat) (C : nat -> nat -> R) (x : nat -> R) : R :=
  sumf m (fun i => sumf m (fun k => x i * C i k * x k)).

(** column j of V is an eigenvector of C with eigenvalue lam j *)
Definition eigcols (m : nat) (C : nat -> nat -> R) (lam : nat -> R) (V : nat -> nat -> R) : Prop :=
  forall i j, (i < m)%nat -> (j < m)%nat -> sumf m (fun k => C i k * V k j) = lam j * V i j.

Definition decreasing (m : nat) (lam : nat -> R) : Prop :=
  forall i j, (i <= j)%nat -> (j < m)%nat -> lam j <= lam i.

Definition psd (m : nat) (C : nat -> nat -> R) : Prop := forall x, 0 <= quad m C x.

Lemma dot_comm : forall m x y, dot m x y = dot m y x.
Proof. intros. apply sumf_ext; intros; ring. Qed.
Lemma dot_ext : forall m x y x' y', (forall i, (i < m)%nat -> x i = x' i) -> (forall i, (i < m)%nat -> y i = y' i) ->
  dot m x y = dot m x' y'.
Proof. intros m x y x' y' H1 H2. apply sumf_ext; intros. rewrite H1, H2; auto. Qed.
Lemma dot_self_nonneg : forall m x, 0 <= dot m x x.
Proof. intros. apply sumf_sq_nonneg. Qed.

Lemma reassemble : forall m C lam V, orthonormal m m V -> eigcols m C lam V ->
  forall i k, (i < m)%nat -> (k < m)%nat -> C i k = sumf m (fun j => lam j * V i j * V k j).
Proof.
  intros m C lam V HO HE i k Hi Hk.
  transitivity (sumf m (fun j => sumf m (fun l => C i l * V l j) * V k j)).
  2: { apply sumf_ext; intros j Hj. rewrite HE by auto. reflexivity. }
  transitivity (sumf m (fun j => sumf m (fun l => C i l * (V l j * V k j)))).
  2: { apply sumf_ext; intros j Hj. rewrite <- sumf_scal_r. apply sumf_ext; intros; ring. }
  rewrite sumf_swap.
  rewrite (sumf_ext m _ (fun l => C i l * kron_delta l k)).
  2: { intros l Hl. rewrite sumf_scal_l, (ortho_rows m V HO) by auto. reflexivity. }
  symmetry. apply (sumf_kd_r m k (fun l => C i l)); auto.
Qed.

(** the quadratic form in eigen-coordinates *)
Lemma quad_spectral : forall m C lam V, orthonormal m m V -> eigcols m C lam V -> forall x,
  quad m C x = sumf m (fun j => lam j * (dot m (fun i => V i j) x * dot m (fun i => V i j) x)).
Proof.
  intros m C lam V HO HE x. unfold quad.
  transitivity (sumf m (fun i => sumf m (fun k => sumf m (fun j => lam j * ((V i j * x i) * (V k j * x k)))))).
  { apply sumf_ext; intros i Hi. apply sumf_ext; intros k Hk.
    rewrite (reassemble m C lam V HO HE i k) by auto.
    rewrite <- sumf_scal_l, <- sumf_scal_r. apply sumf_ext; intros; ring. }
  transitivity (sumf m (fun i => sumf m (fun j => sumf m (fun k => lam j * ((V i j * x i) * (V k j * x k)))))).
  { apply sumf_ext; intros i Hi. apply sumf_swap. }
  rewrite sumf_swap. apply sumf_ext; intros j Hj.
  unfold dot. rewrite sumf_mul, <- sumf_scal_l. apply sumf_ext; intros i Hi.
  rewrite <- sumf_scal_l. apply sumf_ext; intros; ring.
Qed.

Lemma quad_eigvec : forall m C lam V, orthonormal m m V -> eigcols m C lam V -> forall j, (j < m)%nat ->
  quad m C (fun i => V i j) = lam j.
Proof.
  intros m C lam V HO HE j Hj. unfold quad.
  transitivity (sumf m (fun i => V i j * (lam j * V i j))).
  { apply sumf_ext; intros i Hi. rewrite <- (HE i j Hi Hj), <- sumf_scal_l.
    apply sumf_ext; intros; ring. }
  rewrite (sumf_ext m _ (fun i => lam j * (V i j * V i j))) by (intros; ring).
  rewrite sumf_scal_l, (HO j j Hj Hj), kd_same. ring.
Qed.

Lemma trace_spectral : forall m C lam V, orthonormal m m V -> eigcols m C lam V ->
  sumf m (fun i => C i i) = sumf m lam.
Proof.
  intros m C lam V HO HE.
  rewrite (sumf_ext m _ (fun i => sumf m (fun j => lam j * V i j * V i j))).
  2: { intros; apply reassemble; auto. }
  rewrite sumf_swap. apply sumf_ext; intros j Hj.
  rewrite (sumf_ext m _ (fun i => lam j * (V i j * V i j))) by (intros; ring).
  rewrite sumf_scal_l, (HO j j Hj Hj), kd_same. ring.
Qed.

(** weights in [0,1] adding up to k cannot beat taking the k largest *)
Lemma top_k_best : forall m k lam t, (k <= m)%nat -> decreasing m lam ->
  (forall j, (j < m)%nat -> 0 <= t j <= 1) -> sumf m t = INR k ->
  sumf m (fun j => lam j * t j) <= sumf k lam.
Proof.
  intros m k lam t Hk HD Ht HS.
  destruct k as [|k].
  { simpl in HS. rewrite (sumf_zero m (fun j => lam j * t j)); [simpl; lra|]. intros j Hj.
    rewrite (sumf_nonneg_eq0 m t) by (auto; intros; apply Ht; auto). ring. }
  set (p := lam k).
  rewrite (sumf_le_split m (S k)) by auto.
  assert (H1 : sumf (S k) (fun j => lam j * t j) <= sumf (S k) lam - p * (INR (S k) - sumf (S k) t)).
  { assert (sumf (S k) (fun j => (lam j - p) * (1 - t j)) >= 0).
    { apply Rle_ge, sumf_nonneg; intros j Hj. apply Rmult_le_pos.
      - assert (lam k <= lam j) by (apply HD; lia). unfold p; lra.
      - assert (0 <= t j <= 1) by (apply Ht; lia). lra. }
    rewrite (sumf_ext (S k) _ (fun j => (lam j - lam j * t j) - (p * 1 - p * t j))) in H by (intros; ring).
    rewrite !sumf_minus, !sumf_scal_l, sumf_const in H. lra. }
  assert (H2 : sumf (m - S k) (fun i => lam (S k + i)%nat * t (S k + i)%nat) <= p * sumf (m - S k) (fun i => t (S k + i)%nat)).
  { rewrite <- sumf_scal_l. apply sumf_le; intros j Hj. apply Rmult_le_compat_r.
    - apply Ht; lia.
    - apply HD; lia. }
  rewrite (sumf_le_split m (S k) t) in HS by auto. nra.
Qed.

(** Ky Fan: no k orthonormal directions beat the first k eigenvectors *)
Lemma ky_fan : forall m C lam V k Q, orthonormal m m V -> eigcols m C lam V -> decreasing m lam ->
  orthonormal m k Q ->
  sumf k (fun a => quad m C (fun i => Q i a)) <= sumf k lam.
Proof.
  intros m C lam V k Q HO HE HD HQ.
  set (t := fun j => sumf k (fun a => dot m (fun i => Q i a) (fun i => V i j) * dot m (fun i => Q i a) (fun i => V i j))).
  rewrite (sumf_ext k _ (fun a => sumf m (fun j => lam j *
      (dot m (fun i => Q i a) (fun i => V i j) * dot m (fun i => Q i a) (fun i => V i j))))).
  2: { intros a Ha. rewrite (quad_spectral m C lam V HO HE). apply sumf_ext; intros j Hj.
       rewrite (dot_comm m (fun i => V i j)). reflexivity. }
  rewrite sumf_swap.
  rewrite (sumf_ext m _ (fun j => lam j * t j)) by (intros; apply sumf_scal_l).
  apply top_k_best; auto.
  - eapply orthonormal_le; eauto.
  - intros j Hj. split.
    + apply sumf_sq_nonneg.
    + replace 1 with (sumf m (fun i => V i j * V i j)) by (rewrite (HO j j Hj Hj); apply kd_same).
      exact (bessel m k Q HQ (fun i => V i j)).
  - unfold t. rewrite sumf_swap. rewrite (sumf_ext k _ (fun _ => 1)).
    + rewrite sumf_const; ring.
    + intros a Ha. transitivity (dot m (fun i => Q i a) (fun i => Q i a)).
      2: { unfold dot. rewrite (HQ a a Ha Ha). apply kd_same. }
      rewrite (sumf_ext m _ (fun j => dot m (fun i => V i j) (fun i => Q i a) * dot m (fun i => V i j) (fun i => Q i a)))
        by (intros jj Hjj; rewrite (dot_comm m (fun i => V i jj)); reflexivity).
      exact (ortho_parseval m V HO (fun i => Q i a)).
Qed.

(** the first k columns of an orthonormal family *)
Lemma orthonormal_sub : forall m n k V, orthonormal m n V -> (k <= n)%nat -> orthonormal m k V.
Proof. intros m n k V H Hk a b Ha Hb. apply H; lia. Qed.

Lemma sumf_prefix_eq : forall m f g, (forall k, (k <= m)%nat -> sumf k f = sumf k g) ->
  forall j, (j < m)%nat -> f j = g j.
Proof.
  intros m f g H j Hj. assert (E := H (S j) ltac:(lia)). assert (E2 := H j ltac:(lia)). simpl in E. lra.
Qed.

(** sorted eigenvalues are determined by the matrix *)
Lemma sorted_eigenvalues_unique : forall m C lam V mu Q,
  orthonormal m m V -> eigcols m C lam V -> decreasing m lam ->
  orthonormal m m Q -> eigcols m C mu Q -> decreasing m mu ->
  forall j, (j < m)%nat -> lam j = mu j.
Proof.
  intros m C lam V mu Q HV HE HD HQ HEQ HDQ. apply sumf_prefix_eq. intros k Hk.
  apply Rle_antisym.
  - rewrite (sumf_ext k lam (fun a => quad m C (fun i => V i a))).
    + apply (ky_fan m C mu Q); auto. apply (orthonormal_sub m m); auto.
    + intros a Ha. symmetry. apply (quad_eigvec m C lam V); auto; lia.
  - rewrite (sumf_ext k mu (fun a => quad m C (fun i => Q i a))).
    + apply (ky_fan m C lam V); auto. apply (orthonormal_sub m m); auto.
    + intros a Ha. symmetry. apply (quad_eigvec m C mu Q); auto; lia.
Qed.

(** eigenvectors of different eigenvalues are orthogonal *)
Lemma eig_orthogonal : forall m C x y a b, (forall i k, (i < m)%nat -> (k < m)%nat -> C i k = C k i) ->
  (forall i, (i < m)%nat -> sumf m (fun k => C i k * x k) = a * x i) ->
  (forall i, (i < m)%nat -> sumf m (fun k => C i k * y k) = b * y i) -> a <> b -> dot m x y = 0.
Proof.
  intros m C x y a b HS Hx Hy Hab.
  assert (E : a * dot m x y = b * dot m x y).
  { unfold dot. rewrite <- !sumf_scal_l.
    transitivity (sumf m (fun i => sumf m (fun k => C i k * x k) * y i)).
    { apply sumf_ext; intros. rewrite Hx by auto. ring. }
    transitivity (sumf m (fun i => x i * sumf m (fun k => C i k * y k))).
    2: { apply sumf_ext; intros. rewrite Hy by auto. ring. }
    rewrite (sumf_ext m _ (fun i => sumf m (fun k => C i k * x k * y i))) by (intros; now rewrite sumf_scal_r).
    rewrite sumf_swap. apply sumf_ext; intros i Hi. rewrite <- sumf_scal_l. apply sumf_ext; intros k Hk.
    rewrite (HS k i) by auto. ring. }
  assert ((a - b) * dot m x y = 0) by lra. apply Rmult_integral in H. destruct H; [lra|auto].
Qed.

(** a simple eigenvalue determines its eigenvector up to sign *)
Lemma simple_eigenvector : forall m C lam V j x, (forall i k, (i < m)%nat -> (k < m)%nat -> C i k = C k i) ->
  orthonormal m m V -> eigcols m C lam V -> (j < m)%nat ->
  (forall k, (k < m)%nat -> k <> j -> lam k <> lam j) ->
  (forall i, (i < m)%nat -> sumf m (fun k => C i k * x k) = lam j * x i) ->
  forall i, (i < m)%nat -> x i = dot m (fun i => V i j) x * V i j.
Proof.
  intros m C lam V j x HS HO HE Hj Hs Hx i Hi.
  rewrite (ortho_expand m V HO x i Hi) at 1.
  rewrite (sumf_single m j); auto. intros k Hk Hkj.
  assert (E : dot m (fun i => V i k) x = 0).
  { apply (eig_orthogonal m C _ _ (lam k) (lam j)); auto. }
  unfold dot in E. rewrite E. ring.
Qed.
