(** The squared-exponential matrix is positive semidefinite. *)
From Coq Require Import Reals Lra Lia List Arith.
From Verif Require Import Prelude.
Open Scope R_scope.

Lemma gram_pow_psd : forall n p k (a : nat -> nat -> R) (c : nat -> R),
  0 <= sumf n (fun i => sumf n (fun j => c i * c j * (sumf k (fun l => a i l * a j l)) ^ p)).
Proof.
  intros n. induction p as [|p IH]; intros k a c.
  - rewrite (sumf_ext n _ (fun i => c i * sumf n c)).
    + rewrite sumf_scal_r. apply Rle_0_sqr.
    + intros i Hi. rewrite <- sumf_scal_l. apply sumf_ext. intros; simpl; ring.
  - rewrite (sumf_ext n _ (fun i => sumf k (fun l => sumf n (fun j => (c i * a i l) * (c j * a j l) * (sumf k (fun l => a i l * a j l)) ^ p)))).
    + rewrite sumf_swap. apply sumf_nonneg. intros l Hl. exact (IH k a (fun i => c i * a i l)).
    + intros i Hi. rewrite sumf_swap. apply sumf_ext. intros j Hj. cbn [pow].
      rewrite (sumf_ext k (fun l => c i * a i l * (c j * a j l) * sumf k (fun l0 => a i l0 * a j l0) ^ p)
         (fun l => (a i l * a j l) * (c i * c j * sumf k (fun l0 => a i l0 * a j l0) ^ p))) by (intros; ring).
      rewrite sumf_scal_r. ring.
Qed.

Lemma Un_cv_sumf : forall n (u : nat -> nat -> R) l, (forall i, (i < n)%nat -> Un_cv (fun N => u N i) (l i)) ->
  Un_cv (fun N => sumf n (u N)) (sumf n l).
Proof.
  induction n; intros u l H; cbn [sumf].
  - intros eps He. exists 0%nat. intros. unfold R_dist. rewrite Rminus_0_r, Rabs_R0. auto.
  - apply CV_plus; auto.
Qed.
Lemma Un_cv_const : forall c, Un_cv (fun _ => c) c.
Proof. intros c eps He. exists 0%nat. intros. unfold R_dist. rewrite Rminus_diag_eq, Rabs_R0; auto. Qed.

Definition exp_part (x : R) (N : nat) : R := sum_f_R0 (fun i => / INR (fact i) * x ^ i) N.
Lemma exp_part_cv : forall x, Un_cv (exp_part x) (exp x).
Proof.
  intros x. unfold exp. destruct (exist_exp x) as [l Hl]. simpl. unfold exp_in, infinite_sum in Hl. intros eps He.
  destruct (Hl eps He) as (N & HN). exists N. intros n Hn. apply HN; auto.
Qed.

Lemma exp_gram_psd : forall n k (a : nat -> nat -> R) (c : nat -> R),
  0 <= sumf n (fun i => sumf n (fun j => c i * c j * exp (sumf k (fun l => a i l * a j l)))).
Proof.
  intros n k a c.
  assert (CV : Un_cv (fun N => sumf n (fun i => sumf n (fun j => c i * c j * exp_part (sumf k (fun l => a i l * a j l)) N)))
     (sumf n (fun i => sumf n (fun j => c i * c j * exp (sumf k (fun l => a i l * a j l)))))).
  { apply (Un_cv_sumf n (fun N i => sumf n (fun j => c i * c j * exp_part (sumf k (fun l => a i l * a j l)) N))). intros i Hi.
    apply (Un_cv_sumf n (fun N j => c i * c j * exp_part (sumf k (fun l => a i l * a j l)) N)). intros j Hj.
    apply CV_mult; [apply Un_cv_const|apply exp_part_cv]. }
  assert (P : forall N, 0 <= sumf n (fun i => sumf n (fun j => c i * c j * exp_part (sumf k (fun l => a i l * a j l)) N))).
  { induction N as [|N IH]; unfold exp_part in *; cbn [sum_f_R0].
    - rewrite (sumf_ext n _ (fun i => sumf n (fun j => c i * c j * (sumf k (fun l => a i l * a j l)) ^ 0))); [apply gram_pow_psd|].
      intros i Hi. apply sumf_ext. intros j Hj. simpl. field.
    - rewrite (sumf_ext n _ (fun i => sumf n (fun j => c i * c j * sum_f_R0 (fun q => / INR (fact q) * sumf k (fun l => a i l * a j l) ^ q) N)
          + / INR (fact (S N)) * sumf n (fun j => c i * c j * sumf k (fun l => a i l * a j l) ^ (S N)))).
      + rewrite sumf_plus, sumf_scal_l. apply Rplus_le_le_0_compat; auto. apply Rmult_le_pos; [|apply gram_pow_psd].
        left. apply Rinv_0_lt_compat. apply lt_0_INR. apply lt_O_fact.
      + intros i Hi. rewrite <- sumf_scal_l, <- sumf_plus. apply sumf_ext. intros j Hj. ring. }
  destruct (Rle_dec 0 (sumf n (fun i => sumf n (fun j => c i * c j * exp (sumf k (fun l => a i l * a j l)))))) as [|Hn]; auto. exfalso.
  destruct (CV (- sumf n (fun i => sumf n (fun j => c i * c j * exp (sumf k (fun l => a i l * a j l)))))) as (N & HN); [lra|].
  specialize (HN N (le_n _)). unfold R_dist in HN. specialize (P N). rewrite Rabs_right in HN by lra. lra.
Qed.

Lemma gauss_psd : forall n m (x : nat -> nat -> R) (ell : nat -> R) (c : nat -> R),
  (forall k, (k < m)%nat -> 0 < ell k) ->
  0 <= sumf n (fun i => sumf n (fun j => c i * c j * exp (sumf m (fun k => (x i k - x j k) * (x i k - x j k) * (-1 / ell k))))).
Proof.
  intros n m x ell c Hl.
  set (s := fun i => exp (- sumf m (fun k => x i k * x i k / ell k))).
  rewrite (sumf_ext n _ (fun i => sumf n (fun j => (c i * s i) * (c j * s j) * exp (sumf m (fun k => (sqrt (2 / ell k) * x i k) * (sqrt (2 / ell k) * x j k)))))).
  - exact (exp_gram_psd n m (fun i k => sqrt (2 / ell k) * x i k) (fun i => c i * s i)).
  - intros i Hi. apply sumf_ext. intros j Hj.
    replace (c i * s i * (c j * s j) * exp (sumf m (fun k => sqrt (2 / ell k) * x i k * (sqrt (2 / ell k) * x j k))))
      with (c i * c j * (s i * s j * exp (sumf m (fun k => sqrt (2 / ell k) * x i k * (sqrt (2 / ell k) * x j k))))) by ring.
    f_equal. unfold s. rewrite <- !exp_plus. f_equal. rewrite <- !sumf_opp, <- !sumf_plus. apply sumf_ext. intros k Hk.
    specialize (Hl k Hk). assert (E : sqrt (2 / ell k) * sqrt (2 / ell k) = 2 / ell k).
    { apply sqrt_sqrt. apply Rmult_le_pos; [lra|]. left. now apply Rinv_0_lt_compat. }
    replace (sqrt (2 / ell k) * x i k * (sqrt (2 / ell k) * x j k)) with (sqrt (2 / ell k) * sqrt (2 / ell k) * x i k * x j k) by ring.
    rewrite E. field. lra.
Qed.
