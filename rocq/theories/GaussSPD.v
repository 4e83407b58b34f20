(** The squared-exponential matrix of distinct points is positive definite. *)
From Coq Require Import Reals Lra Lia List Arith.
From Verif Require Import Prelude Py NumArr M_Misc M_RespSurf P_Poly GaussPD.
Import ListNotations.
Open Scope R_scope.

(** the product of the coordinates listed in t *)
Fixpoint tup (t : list nat) (x : nat -> R) : R := match t with [] => 1 | l :: t => x l * tup t x end.

Lemma sum_zero : forall n (h : nat -> R), (forall i, (i < n)%nat -> 0 <= h i) -> sumf n h = 0 -> forall i, (i < n)%nat -> h i = 0.
Proof.
  intros n h H E i Hi. apply Rle_antisym; [|auto]. rewrite <- E. apply (sumf_term_le n h i); auto.
Qed.

Lemma gram_step : forall n p k (a : nat -> nat -> R) (c : nat -> R),
  sumf n (fun i => sumf n (fun j => c i * c j * (sumf k (fun l => a i l * a j l)) ^ (S p))) =
  sumf k (fun l => sumf n (fun i => sumf n (fun j => (c i * a i l) * (c j * a j l) * (sumf k (fun l => a i l * a j l)) ^ p))).
Proof.
  intros n p k a c. rewrite (sumf_ext n _ (fun i => sumf k (fun l => sumf n (fun j => (c i * a i l) * (c j * a j l) * (sumf k (fun l => a i l * a j l)) ^ p)))).
  - now rewrite sumf_swap.
  - intros i Hi. rewrite sumf_swap. apply sumf_ext. intros j Hj. cbn [pow].
    rewrite (sumf_ext k (fun l => c i * a i l * (c j * a j l) * sumf k (fun l0 => a i l0 * a j l0) ^ p)
       (fun l => (a i l * a j l) * (c i * c j * sumf k (fun l0 => a i l0 * a j l0) ^ p))) by (intros; ring).
    rewrite sumf_scal_r. ring.
Qed.

Lemma gram_zero : forall n k (a : nat -> nat -> R) t (c : nat -> R), Forall (fun l => (l < k)%nat) t ->
  sumf n (fun i => sumf n (fun j => c i * c j * (sumf k (fun l => a i l * a j l)) ^ (length t))) = 0 -> sumf n (fun i => c i * tup t (a i)) = 0.
Proof.
  intros n k a. induction t as [|l t IH]; intros c F H; cbn [length tup] in *.
  - rewrite (sumf_ext n _ (fun i => c i * sumf n c)) in H.
    + rewrite sumf_scal_r in H. rewrite (sumf_ext n _ c) by (intros; ring). now apply Rsqr_0_uniq.
    + intros i Hi. rewrite <- sumf_scal_l. apply sumf_ext. intros; simpl; ring.
  - inversion F; subst. rewrite gram_step in H.
    rewrite (sumf_ext n _ (fun i => c i * a i l * tup t (a i))) by (intros; ring). apply (IH (fun i => c i * a i l)); auto.
    apply (sum_zero k (fun l => sumf n (fun i => sumf n (fun j => c i * a i l * (c j * a j l) * sumf k (fun l0 => a i l0 * a j l0) ^ length t)))); auto.
    intros l' _. exact (gram_pow_psd n (length t) k a (fun i => c i * a i l')).
Qed.

(** the exponential: all its powers *)
Lemma exp_zero : forall n k (a : nat -> nat -> R) (c : nat -> R),
  sumf n (fun i => sumf n (fun j => c i * c j * exp (sumf k (fun l => a i l * a j l)))) = 0 ->
  forall p, sumf n (fun i => sumf n (fun j => c i * c j * (sumf k (fun l => a i l * a j l)) ^ p)) = 0.
Proof.
  intros n k a c H0. set (G := fun i j => sumf k (fun l => a i l * a j l)). set (Q := fun p => sumf n (fun i => sumf n (fun j => c i * c j * G i j ^ p))).
  assert (Q0 : forall p, 0 <= Q p) by (intros p; apply gram_pow_psd).
  set (S := fun N => sumf n (fun i => sumf n (fun j => c i * c j * exp_part (G i j) N))).
  assert (CV : Un_cv S 0).
  { rewrite <- H0. apply (Un_cv_sumf n (fun N i => sumf n (fun j => c i * c j * exp_part (G i j) N))). intros i Hi.
    apply (Un_cv_sumf n (fun N j => c i * c j * exp_part (G i j) N)). intros j Hj. apply CV_mult; [apply Un_cv_const|apply exp_part_cv]. }
  assert (S0 : S 0%nat = Q 0%nat). { unfold S, Q. apply sumf_ext. intros i Hi. apply sumf_ext. intros j Hj. unfold exp_part. cbn. field. }
  assert (SS : forall N, S (Datatypes.S N) = S N + / INR (fact (Datatypes.S N)) * Q (Datatypes.S N)).
  { intros N. unfold S, Q. rewrite <- sumf_scal_l, <- sumf_plus. apply sumf_ext. intros i Hi. rewrite <- sumf_scal_l, <- sumf_plus. apply sumf_ext. intros j Hj. unfold exp_part. cbn [sum_f_R0]. ring. }
  assert (FP : forall N, 0 < / INR (fact N)) by (intros; apply Rinv_0_lt_compat, lt_0_INR, lt_O_fact).
  assert (GR : Un_growing S). { intros N. rewrite SS. specialize (FP (Datatypes.S N)). specialize (Q0 (Datatypes.S N)). assert (0 <= / INR (fact (Datatypes.S N)) * Q (Datatypes.S N)) by (apply Rmult_le_pos; lra). lra. }
  assert (LE : forall N, S N <= 0) by (intros N; now apply growing_ineq).
  assert (NN : forall N, 0 <= S N). { induction N; [rewrite S0; auto|]. specialize (GR N). lra. }
  intros [|p].
  - change (Q 0%nat = 0). specialize (LE 0%nat). specialize (Q0 0%nat). rewrite S0 in LE. lra.
  - change (Q (Datatypes.S p) = 0). specialize (LE (Datatypes.S p)). rewrite SS in LE. specialize (NN p). specialize (FP (Datatypes.S p)). specialize (Q0 (Datatypes.S p)).
    assert (/ INR (fact (Datatypes.S p)) * Q (Datatypes.S p) = 0) by (assert (0 <= / INR (fact (Datatypes.S p)) * Q (Datatypes.S p)) by (apply Rmult_le_pos; lra); lra).
    apply Rmult_integral in H. destruct H; lra.
Qed.

(** products of affine functions of the coordinates *)
Lemma affine_zero : forall n k (a : nat -> nat -> R) (c : nat -> R) T (w : nat -> nat * R), (forall q, (q < T)%nat -> (fst (w q) < k)%nat) ->
  (forall t, Forall (fun l => (l < k)%nat) t -> sumf n (fun i => c i * tup t (a i)) = 0) ->
  forall t, Forall (fun l => (l < k)%nat) t -> sumf n (fun i => c i * prodf T (fun q => a i (fst (w q)) - snd (w q)) * tup t (a i)) = 0.
Proof.
  intros n k a c. induction T as [|T IH]; intros w Hw H t Ht; cbn [prodf].
  - rewrite <- (H t Ht). apply sumf_ext. intros; ring.
  - rewrite (sumf_ext n _ (fun i => c i * prodf T (fun q => a i (fst (w q)) - snd (w q)) * tup (fst (w T) :: t) (a i) - snd (w T) * (c i * prodf T (fun q => a i (fst (w q)) - snd (w q)) * tup t (a i)))) by (intros; cbn [tup]; ring).
    rewrite sumf_minus, sumf_scal_l, !IH; auto; ring.
Qed.

Lemma prodf_neq : forall T (h : nat -> R), (forall q, (q < T)%nat -> h q <> 0) -> prodf T h <> 0.
Proof. induction T as [|T IH]; intros h H; cbn [prodf]; [lra|]. apply Rmult_integral_contrapositive_currified; auto. Qed.

Lemma finite_pick : forall n k (P : nat -> nat -> Prop), (forall j, (j < n)%nat -> exists l, (l < k)%nat /\ P j l) -> exists w : nat -> nat, forall j, (j < n)%nat -> (w j < k)%nat /\ P j (w j).
Proof.
  induction n as [|n IH]; intros k P H; [exists (fun _ => 0%nat); intros; lia|].
  destruct (IH k P) as (w & Hw); [intros; apply H; lia|]. destruct (H n ltac:(lia)) as (l & Hl & Pl).
  exists (fun j => if Nat.eqb j n then l else w j). intros j Hj. destruct (Nat.eqb_spec j n) as [->|]; [auto|]. apply Hw. lia.
Qed.

(** distinct rows: the coefficients vanish *)
Lemma distinct_zero : forall n k (a : nat -> nat -> R) (c : nat -> R), (1 <= k)%nat -> (forall i j, (i < j < n)%nat -> exists l, (l < k)%nat /\ a i l <> a j l) ->
  (forall t, Forall (fun l => (l < k)%nat) t -> sumf n (fun i => c i * tup t (a i)) = 0) -> forall i, (i < n)%nat -> c i = 0.
Proof.
  intros n k a c Hk HD H i0 Hi0.
  destruct (finite_pick n k (fun j l => j <> i0 -> a i0 l <> a j l)) as (w & Hw).
  { intros j Hj. destruct (lt_eq_lt_dec j i0) as [[L| ->]|L].
    - destruct (HD j i0 ltac:(lia)) as (l & Hl & N). exists l. split; auto.
    - exists 0%nat. split; [lia|]. intros N. congruence.
    - destruct (HD i0 j ltac:(lia)) as (l & Hl & N). exists l. split; auto. }
  set (W := fun q => if Nat.eqb q i0 then (0%nat, a i0 0%nat - 1) else (w q, a q (w q))).
  assert (Q := affine_zero n k a c n W). assert (Q' : sumf n (fun i => c i * prodf n (fun q => a i (fst (W q)) - snd (W q)) * tup [] (a i)) = 0).
  { apply Q; auto. intros q Hq. unfold W. destruct (Nat.eqb_spec q i0); cbn [fst]; [lia|]. now apply Hw. }
  assert (N0 : prodf n (fun q => a i0 (fst (W q)) - snd (W q)) <> 0).
  { apply prodf_neq. intros q Hq. unfold W. destruct (Nat.eqb_spec q i0) as [|N]; cbn [fst snd]; [lra|]. destruct (Hw q Hq) as [_ B]. specialize (B N). lra. }
  rewrite (sumf_ext n _ (fun i => kron_delta i0 i * (c i0 * prodf n (fun q => a i0 (fst (W q)) - snd (W q))))) in Q'.
  - rewrite (sumf_kd_l n i0 (fun _ => c i0 * prodf n (fun q => a i0 (fst (W q)) - snd (W q))) Hi0) in Q'. apply Rmult_integral in Q'. destruct Q'; [auto|contradiction].
  - intros i Hi. cbn [tup]. destruct (Nat.eq_dec i i0) as [->|N]; [rewrite kd_same; ring|]. rewrite kd_diff by auto.
    rewrite (prodf_zero n _ i Hi); [ring|]. unfold W. destruct (Nat.eqb_spec i i0); [contradiction|]. cbn [fst snd]. ring.
Qed.

Theorem gauss_spd : forall n m (x : nat -> nat -> R) (ell : nat -> R) (c : nat -> R), (1 <= m)%nat -> (forall k, (k < m)%nat -> 0 < ell k) ->
  (forall i j, (i < j < n)%nat -> exists k, (k < m)%nat /\ x i k <> x j k) -> (exists i, (i < n)%nat /\ c i <> 0) ->
  0 < sumf n (fun i => sumf n (fun j => c i * c j * exp (sumf m (fun k => (x i k - x j k) * (x i k - x j k) * (-1 / ell k))))).
Proof.
  intros n m x ell c Hm Hl HD (i0 & Hi0 & Hc). assert (P := gauss_psd n m x ell c Hl). destruct P as [P|P]; [exact P|]. exfalso. apply Hc. symmetry in P.
  set (s := fun i => exp (- sumf m (fun k => x i k * x i k / ell k))). set (a := fun i k => sqrt (2 / ell k) * x i k).
  assert (E : sumf n (fun i => sumf n (fun j => (c i * s i) * (c j * s j) * exp (sumf m (fun k => a i k * a j k)))) = 0).
  { rewrite <- P. apply sumf_ext. intros i Hi. apply sumf_ext. intros j Hj.
    replace (c i * s i * (c j * s j) * exp (sumf m (fun k => a i k * a j k))) with (c i * c j * (s i * s j * exp (sumf m (fun k => a i k * a j k)))) by ring.
    f_equal. unfold s, a. rewrite <- !exp_plus. f_equal. rewrite <- !sumf_opp, <- !sumf_plus. apply sumf_ext. intros k Hk.
    specialize (Hl k Hk). assert (E : sqrt (2 / ell k) * sqrt (2 / ell k) = 2 / ell k).
    { apply sqrt_sqrt. apply Rmult_le_pos; [lra|]. left. now apply Rinv_0_lt_compat. }
    replace (sqrt (2 / ell k) * x i k * (sqrt (2 / ell k) * x j k)) with (sqrt (2 / ell k) * sqrt (2 / ell k) * x i k * x j k) by ring.
    rewrite E. field. lra. }
  assert (Z : c i0 * s i0 = 0).
  { apply (distinct_zero n m a (fun i => c i * s i) Hm); auto.
    - intros i j Hij. destruct (HD i j Hij) as (k & Hk & N). exists k. split; auto. unfold a. intros Q. apply N. apply Rmult_eq_reg_l in Q; auto.
      apply Rgt_not_eq. apply sqrt_lt_R0. apply Rdiv_lt_0_compat; [lra|auto].
    - intros t Ht. apply (gram_zero n m a t); auto. now apply exp_zero. }
  apply Rmult_integral in Z. destruct Z as [Z|Z]; auto. exfalso. assert (0 < s i0) by apply exp_pos. lra.
Qed.
