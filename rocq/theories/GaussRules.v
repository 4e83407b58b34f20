(** Hermite and Legendre polynomials: moments of the Gaussian and uniform
    densities, and a lower bound on nonzero roots. *)
From Coq Require Import Reals Lra Lia List Arith ZArith.
From Verif Require Import Prelude LinAlg Spectral Tridiag Integral.
Import ListNotations.
Open Scope R_scope.

(** polynomials, coefficients in increasing degree *)
Fixpoint peval (c : list R) (x : R) : R := match c with [] => 0 | a :: t => a + x * peval t x end.
Lemma peval_sum : forall c x, peval c x = sumf (length c) (fun k => nth k c 0 * x ^ k).
Proof.
  induction c as [|a c IH]; intros x; [reflexivity|]. simpl length. rewrite sumf_shift. simpl. rewrite IH.
  rewrite <- sumf_scal_l. f_equal; [ring|]. apply sumf_ext. intros; ring.
Qed.
Lemma peval_cont : forall c, continuity (peval c).
Proof.
  induction c as [|a c IH]; intros x.
  - apply continuity_pt_const. intros u v. reflexivity.
  - apply (continuity_pt_plus (fun _ => a) (fun x => x * peval c x)).
    + apply continuity_pt_const. intros u v. reflexivity.
    + apply (continuity_pt_mult (fun x => x) (peval c)); [apply derivable_continuous_pt, derivable_pt_id|apply IH].
Qed.

(** mean of f under the standard Gaussian: limit of
    int_{-T}^{T} f(x) exp(-x^2/2) dx / int_{-T}^{T} exp(-x^2/2) dx *)
Definition gaussian_mean (f : R -> R) (L : R) : Prop :=
  forall eps, 0 < eps -> exists T0, forall T, T0 <= T ->
    exists (p1 : Riemann_integrable (fun x => f x * exp (- (x * x / 2))) (- T) T)
           (p2 : Riemann_integrable (fun x => exp (- (x * x / 2))) (- T) T),
      0 < RiemannInt p2 /\ Rabs (RiemannInt p1 / RiemannInt p2 - L) < eps.
(** mean of f under the uniform density on [-1,1] *)
Definition uniform_mean (f : R -> R) (L : R) : Prop :=
  exists pr : Riemann_integrable f (-1) 1, L = RiemannInt pr / 2.

(** ** Hermite *)
Definition sh (k : nat) : R := sqrt (INR k).
Lemma sh_sq : forall k, sh k * sh k = INR k.
Proof. intros. apply sqrt_sqrt, pos_INR. Qed.
Lemma sh_pos : forall k, (1 <= k)%nat -> 0 < sh k.
Proof. intros. apply sqrt_lt_R0, lt_0_INR. lia. Qed.
Lemma sh_ne : forall k, (1 <= k)%nat -> sh k <> 0.
Proof. intros k H. assert (A := sh_pos k H). lra. Qed.

Lemma op_SS_div : forall s, (forall k, (1 <= k)%nat -> s k <> 0) -> forall i x,
  op s (S (S i)) x = (x * op s (S i) x - s (S i) * op s i x) / s (S (S i)).
Proof. intros s Hs i x. rewrite <- op_SS by auto. field. apply Hs. lia. Qed.
Lemma op_1_div : forall s, (forall k, (1 <= k)%nat -> s k <> 0) -> forall x, op s 1 x = / s 1%nat * x.
Proof. intros s Hs x. rewrite <- (op_1 s Hs x) at 2. field. apply Hs. lia. Qed.

Definition dh (i : nat) (x : R) : R := match i with O => 0 | S i' => sh i * op sh i' x end.
Lemma op_h_deriv : forall i x, derivable_pt_lim (op sh i) x (dh i x).
Proof.
  intros i. induction i as [i IH] using lt_wf_ind. intros x. destruct i as [|[|i]].
  - apply (dlim_ext (fun _ => 1)); [reflexivity|]. apply derivable_pt_lim_const.
  - apply (dlim_ext (fun y => / sh 1 * y)); [intros; symmetry; apply (op_1_div sh sh_ne)|].
    apply (dlim_eq _ _ (/ sh 1 * 1)).
    + unfold dh. rewrite op_0. assert (A := sh_sq 1). simpl INR in A.
      apply (Rmult_eq_reg_l (sh 1)); [|apply sh_ne; lia]. rewrite <- Rmult_assoc, Rinv_r by (apply sh_ne; lia). lra.
    + apply dlim_scal, dlim_id.
  - apply (dlim_ext (fun y => / sh (S (S i)) * (y * op sh (S i) y - sh (S i) * op sh i y))).
    { intros y. rewrite (op_SS_div sh sh_ne). unfold Rdiv. ring. }
    apply (dlim_eq _ _ (/ sh (S (S i)) * ((1 * op sh (S i) x + x * dh (S i) x) - sh (S i) * dh i x))).
    + assert (P := sh_ne (S (S i)) ltac:(lia)). unfold dh at 3.
      apply (Rmult_eq_reg_l (sh (S (S i)))); [|auto]. rewrite <- Rmult_assoc, Rinv_r by auto.
      rewrite <- (Rmult_assoc (sh (S (S i)))). rewrite sh_sq.
      assert (E : op sh (S i) x + (x * dh (S i) x - sh (S i) * dh i x) = INR (S (S i)) * op sh (S i) x).
      { unfold dh. rewrite !S_INR. assert (Q := sh_sq (S i)). rewrite S_INR in Q.
        destruct i as [|i].
        - assert (R1 := op_1 sh sh_ne x). rewrite op_0. simpl INR in *. nra.
        - assert (R1 := op_SS sh sh_ne x i). rewrite S_INR in *.
          replace (x * (sh (S (S i)) * op sh (S i) x) - sh (S (S i)) * (sh (S i) * op sh i x))
            with (sh (S (S i)) * (x * op sh (S i) x - sh (S i) * op sh i x)) by ring.
          rewrite <- R1, <- Rmult_assoc, Q. ring. }
      lra.
    + apply dlim_scal, dlim_minus.
      * apply (dlim_mult (fun y => y) (op sh (S i))); [apply dlim_id|apply IH; lia].
      * apply dlim_scal. apply IH. lia.
Qed.
(** antiderivative of op (i+1) * phi *)
Lemma op_h_anti : forall i x, derivable_pt_lim (fun y => - / sh (S i) * (op sh i y * phi y)) x (op sh (S i) x * phi x).
Proof.
  intros i x. apply (dlim_eq _ _ (- / sh (S i) * (dh i x * phi x + op sh i x * (- x * phi x)))).
  - assert (P := sh_ne (S i) ltac:(lia)).
    assert (E : sh (S i) * op sh (S i) x = x * op sh i x - dh i x).
    { rewrite (op_rec sh sh_ne x i). unfold dh. destruct i; ring. }
    apply (Rmult_eq_reg_l (sh (S i))); [|auto]. rewrite <- !Rmult_assoc.
    rewrite E. replace (sh (S i) * - / sh (S i)) with (-1) by (field; auto). ring.
  - apply dlim_scal. apply (dlim_mult (op sh i) phi); [apply op_h_deriv|apply phi_deriv].
Qed.
Lemma op_h_vanish : forall i, vanish (fun x => op sh i x * phi x).
Proof.
  assert (A : forall i k, vanish (fun x => x ^ k * (op sh i x * phi x))).
  { intros i. induction i as [i IH] using lt_wf_ind. intros k. destruct i as [|[|i]].
    - apply (vanish_ext (fun x => x ^ k * phi x)); [intros; rewrite op_0; ring|]. apply vanish_pow_phi.
    - apply (vanish_ext (fun x => / sh 1 * (x ^ S k * phi x))); [intros; rewrite (op_1_div sh sh_ne); simpl; ring|].
      apply vanish_scal, vanish_pow_phi.
    - apply (vanish_ext (fun x => / sh (S (S i)) * (x ^ S k * (op sh (S i) x * phi x)) + - (sh (S i) / sh (S (S i))) * (x ^ k * (op sh i x * phi x)))).
      { intros x. rewrite (op_SS_div sh sh_ne). simpl. field. apply sh_ne. lia. }
      apply vanish_plus; apply vanish_scal; apply IH; lia. }
  intros i. apply (vanish_ext (fun x => x ^ 0 * (op sh i x * phi x))); [intros; simpl; ring|]. apply A.
Qed.

Lemma op_expand : forall s, (forall k, (1 <= k)%nat -> s k <> 0) -> forall c x,
  peval c x = sumf (length c) (fun k => nth k c 0 * Tpow s k 0)
              + sumf (length c) (fun k => sumf (length c) (fun i => nth k c 0 * Tpow s k (S i) * op s (S i) x)).
Proof.
  intros s Hs c x. rewrite peval_sum, <- sumf_plus. apply sumf_ext. intros k Hk.
  rewrite (pow_op s Hs x k (S (length c))) by lia. rewrite sumf_shift, op_0. rewrite Rmult_plus_distr_l, <- sumf_scal_l.
  f_equal; [ring|]. apply sumf_ext. intros; ring.
Qed.

Lemma hermite_mean : forall c, gaussian_mean (peval c) (sumf (length c) (fun k => nth k c 0 * Tpow sh k 0)).
Proof.
  intros c. set (n := length c). set (mu := sumf n (fun k => nth k c 0 * Tpow sh k 0)).
  set (g := fun x => sumf n (fun k => sumf n (fun i => nth k c 0 * Tpow sh k (S i) * (op sh (S i) x * phi x)))).
  set (G := fun x => sumf n (fun k => sumf n (fun i => nth k c 0 * Tpow sh k (S i) * (- / sh (S i) * (op sh i x * phi x))))).
  assert (Eg : forall x, peval c x * phi x = g x + mu * phi x).
  { intros x. rewrite (op_expand sh sh_ne). fold n. fold mu. rewrite Rmult_plus_distr_r, Rplus_comm. f_equal.
    unfold g. rewrite <- sumf_scal_r. apply sumf_ext. intros k Hk. rewrite <- sumf_scal_r. apply sumf_ext. intros; ring. }
  assert (DG : forall x, derivable_pt_lim G x (g x)).
  { intros x. unfold G, g. apply (dlim_sumf n (fun k y => sumf n (fun i => nth k c 0 * Tpow sh k (S i) * (- / sh (S i) * (op sh i y * phi y))))).
    intros k Hk. apply (dlim_sumf n (fun i y => nth k c 0 * Tpow sh k (S i) * (- / sh (S i) * (op sh i y * phi y)))).
    intros i Hi. apply dlim_scal. apply op_h_anti. }
  assert (VG : vanish G).
  { unfold G. apply vanish_sumf. intros k Hk. apply vanish_sumf. intros i Hi. apply vanish_scal, vanish_scal. apply op_h_vanish. }
  assert (Cp : continuity (fun x => peval c x * phi x)).
  { intros x. apply (continuity_pt_mult (peval c) phi); [apply peval_cont|apply phi_cont]. }
  assert (Cg : continuity g).
  { apply (cont_ext (fun x => peval c x * phi x - mu * phi x)); [intros t; rewrite Eg; ring|]. intros x.
    apply (continuity_pt_minus (fun x => peval c x * phi x) (fun x => mu * phi x)); [apply Cp|].
    apply (continuity_pt_scal phi mu). apply phi_cont. }
  assert (P1 := phi_pos 1).
  intros eps He. destruct (VG (eps * phi 1 / 2)) as (T0 & HT0 & HV).
  { apply Rmult_lt_0_compat; [|lra]. apply Rmult_lt_0_compat; auto. }
  exists (Rmax 1 T0). intros T HT. assert (M1 := Rmax_l 1 T0). assert (M2 := Rmax_r 1 T0).
  assert (p1 : Riemann_integrable (fun x => peval c x * exp (- (x * x / 2))) (- T) T).
  { apply continuity_implies_RiemannInt; [lra|]. intros x _. apply Cp. }
  assert (p2 : Riemann_integrable (fun x => exp (- (x * x / 2))) (- T) T).
  { apply continuity_implies_RiemannInt; [lra|]. intros x _. apply phi_cont. }
  assert (pg : Riemann_integrable g (- T) T).
  { apply continuity_implies_RiemannInt; [lra|]. intros x _. apply Cg. }
  exists p1, p2. assert (Mass : 2 * phi 1 <= RiemannInt p2) by exact (phi_mass T p2 ltac:(lra)). split; [lra|].
  assert (E1 : RiemannInt p1 = RiemannInt pg + mu * RiemannInt p2).
  { assert (pr3 : Riemann_integrable (fun x => g x + mu * phi x) (- T) T) by (apply RiemannInt_P10; auto).
    transitivity (RiemannInt pr3); [apply RiemannInt_P18; [lra|]; intros x _; apply Eg|exact (RiemannInt_P13 pg p2 pr3)]. }
  assert (E2 : RiemannInt pg = G T - G (- T)) by (apply ftc; [lra|exact DG|exact Cg]).
  set (I2 := RiemannInt p2) in *.
  replace (RiemannInt p1 / I2 - mu) with ((G T - G (- T)) / I2) by (rewrite E1, E2; field; lra).
  assert (A1 := HV T ltac:(rewrite Rabs_right; lra)). assert (A2 := HV (- T) ltac:(rewrite Rabs_left; lra)).
  unfold Rdiv. rewrite Rabs_mult, (Rabs_right (/ I2)) by (left; apply Rinv_0_lt_compat; lra).
  apply (Rmult_lt_reg_r I2); [lra|]. rewrite Rmult_assoc, Rinv_l, Rmult_1_r by lra.
  assert (TR := Rabs_triang (G T) (- G (- T))). rewrite Rabs_Ropp in TR. unfold Rminus. nra.
Qed.

(** ** Legendre *)
Definition sl (k : nat) : R := INR k / (sqrt (2 * INR k - 1) * sqrt (2 * INR k + 1)).
Lemma sl_dens : forall k, (1 <= k)%nat -> 0 < sqrt (2 * INR k - 1) /\ 0 < sqrt (2 * INR k + 1) /\ 1 <= INR k.
Proof.
  intros k Hk. apply le_INR in Hk. simpl in Hk. repeat split; auto; apply sqrt_lt_R0; lra.
Qed.
Lemma sl_ne : forall k, (1 <= k)%nat -> sl k <> 0.
Proof.
  intros k Hk. destruct (sl_dens k Hk) as (A & B & C). unfold sl. apply Rgt_not_eq.
  apply Rdiv_lt_0_compat; [lra|]. now apply Rmult_lt_0_compat.
Qed.
Lemma sl_sq : forall k, (1 <= k)%nat -> sl k * sl k = INR k * INR k / (4 * (INR k * INR k) - 1).
Proof.
  intros k Hk. destruct (sl_dens k Hk) as (A & B & C). unfold sl.
  assert (A2 : sqrt (2 * INR k - 1) * sqrt (2 * INR k - 1) = 2 * INR k - 1) by (apply sqrt_sqrt; lra).
  assert (B2 : sqrt (2 * INR k + 1) * sqrt (2 * INR k + 1) = 2 * INR k + 1) by (apply sqrt_sqrt; lra).
  set (a := sqrt (2 * INR k - 1)) in *. set (b := sqrt (2 * INR k + 1)) in *.
  replace (4 * (INR k * INR k) - 1) with (a * a * (b * b)) by (rewrite A2, B2; ring). field. split; lra.
Qed.

Fixpoint lpair (x : R) (i : nat) : R * R :=
  match i with
  | O => (0, 1)
  | S i' => let (a, b) := lpair x i' in (b, ((2 * INR i' + 1) * x * b - INR i' * a) / (INR i' + 1))
  end.
Definition leg (i : nat) (x : R) : R := snd (lpair x i).
Lemma leg_0 : forall x, leg 0 x = 1.  Proof. reflexivity. Qed.
Lemma leg_1 : forall x, leg 1 x = x.
Proof. intros. unfold leg. simpl. field. Qed.
Lemma leg_SS : forall x i, (INR i + 2) * leg (S (S i)) x = (2 * INR i + 3) * x * leg (S i) x - (INR i + 1) * leg i x.
Proof.
  intros. unfold leg at 1. change (lpair x (S (S i))) with
    (let (a, b) := lpair x (S i) in (b, ((2 * INR (S i) + 1) * x * b - INR (S i) * a) / (INR (S i) + 1))).
  assert (F : fst (lpair x (S i)) = leg i x) by (unfold leg; simpl; destruct (lpair x i); reflexivity).
  unfold leg at 1. destruct (lpair x (S i)) as [a b]. cbn [fst snd] in *. subst a. rewrite S_INR.
  assert (P := pos_INR i). field. lra.
Qed.
Lemma leg_ind : forall (P : nat -> Prop), P 0%nat -> P 1%nat -> (forall i, P i -> P (S i) -> P (S (S i))) -> forall i, P i.
Proof. intros P H0 H1 HS i. enough (P i /\ P (S i)) by tauto. induction i; intuition. Qed.
Lemma op_leg : forall i x, op sl i x = sqrt (2 * INR i + 1) * leg i x.
Proof.
  intros i x. pattern i. apply leg_ind; clear i.
  - rewrite op_0, leg_0. simpl INR. replace (2 * 0 + 1) with 1 by ring. rewrite sqrt_1. ring.
  - rewrite (op_1_div sl sl_ne), leg_1. unfold sl. simpl INR. replace (2 * 1 - 1) with 1 by ring. rewrite sqrt_1.
    assert (0 < sqrt (2 * 1 + 1)) by (apply sqrt_lt_R0; lra). field. lra.
  - intros i H0 H1. apply (Rmult_eq_reg_l (sl (S (S i)))); [|apply sl_ne; lia].
    rewrite (op_SS sl sl_ne), H0, H1. unfold sl. rewrite !S_INR.
    assert (P := pos_INR i). assert (L := leg_SS x i).
    replace (2 * (INR i + 1 + 1) - 1) with (2 * (INR i + 1) + 1) by ring.
    replace (2 * (INR i + 1) - 1) with (2 * INR i + 1) by ring.
    assert (A : 0 < sqrt (2 * INR i + 1)) by (apply sqrt_lt_R0; lra).
    assert (B : 0 < sqrt (2 * (INR i + 1) + 1)) by (apply sqrt_lt_R0; lra).
    assert (C : 0 < sqrt (2 * (INR i + 1 + 1) + 1)) by (apply sqrt_lt_R0; lra).
    assert (B2 : sqrt (2 * (INR i + 1) + 1) * sqrt (2 * (INR i + 1) + 1) = 2 * INR i + 3) by (rewrite sqrt_sqrt; lra).
    set (a := sqrt (2 * INR i + 1)) in *. set (b := sqrt (2 * (INR i + 1) + 1)) in *. set (cc := sqrt (2 * (INR i + 1 + 1) + 1)) in *.
    apply (Rmult_eq_reg_l b); [|lra].
    replace (b * (x * (b * leg (S i) x) - (INR i + 1) / (a * b) * (a * leg i x)))
      with (b * b * x * leg (S i) x - (INR i + 1) * leg i x) by (field; lra).
    rewrite B2. replace (b * ((INR i + 1 + 1) / (b * cc) * (cc * leg (S (S i)) x))) with ((INR i + 2) * leg (S (S i)) x) by (field; lra).
    lra.
Qed.

Fixpoint dleg (i : nat) (x : R) : R :=
  match i with O => 0 | S i' => x * dleg i' x + (INR i' + 1) * leg i' x end.
Lemma dleg_C : forall x i, (x * x - 1) * dleg (S i) x = (INR i + 1) * (x * leg (S i) x - leg i x).
Proof.
  intros x i. induction i.
  - rewrite leg_1, leg_0. simpl. rewrite leg_0. ring.
  - change (dleg (S (S i)) x) with (x * dleg (S i) x + (INR (S i) + 1) * leg (S i) x). rewrite S_INR.
    replace ((x * x - 1) * (x * dleg (S i) x + (INR i + 1 + 1) * leg (S i) x))
      with (x * ((x * x - 1) * dleg (S i) x) + (x * x - 1) * (INR i + 2) * leg (S i) x) by ring.
    rewrite IHi. assert (L := leg_SS x i).
    replace ((INR i + 1 + 1) * (x * leg (S (S i)) x - leg (S i) x)) with (x * ((INR i + 2) * leg (S (S i)) x) - (INR i + 2) * leg (S i) x) by ring.
    rewrite L. ring.
Qed.
Lemma dleg_B : forall x i, x * dleg (S i) x - dleg i x = (INR i + 1) * leg (S i) x.
Proof.
  intros x [|i].
  - rewrite leg_1. simpl. rewrite leg_0. ring.
  - change (dleg (S (S i)) x) with (x * dleg (S i) x + (INR (S i) + 1) * leg (S i) x). rewrite S_INR.
    assert (C := dleg_C x i). assert (L := leg_SS x i).
    replace ((INR i + 1 + 1) * leg (S (S i)) x) with ((INR i + 2) * leg (S (S i)) x) by ring. rewrite L.
    replace (x * (x * dleg (S i) x + (INR i + 1 + 1) * leg (S i) x) - dleg (S i) x)
      with ((x * x - 1) * dleg (S i) x + (INR i + 2) * x * leg (S i) x) by ring.
    rewrite C. ring.
Qed.
Lemma leg_deriv : forall i x, derivable_pt_lim (leg i) x (dleg i x).
Proof.
  intros i. pattern i. apply leg_ind; clear i.
  - intros x. apply (dlim_ext (fun _ => 1)); [reflexivity|]. apply derivable_pt_lim_const.
  - intros x. apply (dlim_ext (fun y => y)); [intros; symmetry; apply leg_1|].
    apply (dlim_eq _ _ 1); [simpl; rewrite leg_0; ring|apply dlim_id].
  - intros i H0 H1 x. assert (P := pos_INR i).
    apply (dlim_ext (fun y => / (INR i + 2) * ((2 * INR i + 3) * (y * leg (S i) y) - (INR i + 1) * leg i y))).
    { intros y. apply (Rmult_eq_reg_l (INR i + 2)); [|lra]. rewrite leg_SS, <- Rmult_assoc, Rinv_r by lra. ring. }
    apply (dlim_eq _ _ (/ (INR i + 2) * ((2 * INR i + 3) * (1 * leg (S i) x + x * dleg (S i) x) - (INR i + 1) * dleg i x))).
    + apply (Rmult_eq_reg_l (INR i + 2)); [|lra]. rewrite <- Rmult_assoc, Rinv_r by lra.
      change (dleg (S (S i)) x) with (x * dleg (S i) x + (INR (S i) + 1) * leg (S i) x). rewrite S_INR.
      assert (B := dleg_B x i). assert (E : dleg i x = x * dleg (S i) x - (INR i + 1) * leg (S i) x) by lra. rewrite E. ring.
    + apply dlim_scal, dlim_minus; apply dlim_scal; [|apply H0].
      apply (dlim_mult (fun y => y) (leg (S i))); [apply dlim_id|apply H1].
Qed.
Lemma leg_anti : forall i x, derivable_pt_lim (fun y => / (2 * INR i + 3) * (leg (S (S i)) y - leg i y)) x (leg (S i) x).
Proof.
  intros i x. assert (P := pos_INR i).
  apply (dlim_eq _ _ (/ (2 * INR i + 3) * (dleg (S (S i)) x - dleg i x))).
  - apply (Rmult_eq_reg_l (2 * INR i + 3)); [|lra]. rewrite <- Rmult_assoc, Rinv_r by lra.
    change (dleg (S (S i)) x) with (x * dleg (S i) x + (INR (S i) + 1) * leg (S i) x). rewrite S_INR.
    assert (B := dleg_B x i). lra.
  - apply dlim_scal, dlim_minus; apply leg_deriv.
Qed.
Lemma leg_at_1 : forall i, leg i 1 = 1.
Proof.
  intros i. pattern i. apply leg_ind; clear i; [apply leg_0|apply leg_1|]. intros i H0 H1. assert (L := leg_SS 1 i).
  rewrite H0, H1 in L. assert (P := pos_INR i). apply (Rmult_eq_reg_l (INR i + 2)); lra.
Qed.
Lemma leg_at_m1 : forall i, leg i (-1) = (-1) ^ i.
Proof.
  intros i. pattern i. apply leg_ind; clear i; [apply leg_0|rewrite leg_1; simpl; ring|]. intros i H0 H1. assert (L := leg_SS (-1) i).
  rewrite H0, H1 in L. assert (P := pos_INR i). apply (Rmult_eq_reg_l (INR i + 2)); [|lra]. rewrite L. simpl. ring.
Qed.

Lemma legendre_mean : forall c, uniform_mean (peval c) (sumf (length c) (fun k => nth k c 0 * Tpow sl k 0)).
Proof.
  intros c. set (n := length c). set (mu := sumf n (fun k => nth k c 0 * Tpow sl k 0)).
  set (q := fun i x => / (2 * INR i + 3) * (leg (S (S i)) x - leg i x)).
  set (G := fun x => mu * x + sumf n (fun k => sumf n (fun i => nth k c 0 * Tpow sl k (S i) * (sqrt (2 * INR (S i) + 1) * q i x)))).
  assert (DG : forall x, derivable_pt_lim G x (peval c x)).
  { intros x. apply (dlim_eq _ _ (mu * 1 + sumf n (fun k => sumf n (fun i => nth k c 0 * Tpow sl k (S i) * (sqrt (2 * INR (S i) + 1) * leg (S i) x))))).
    - rewrite (op_expand sl sl_ne). fold n. fold mu. rewrite Rmult_1_r. f_equal. apply sumf_ext. intros k Hk. apply sumf_ext. intros i Hi.
      rewrite op_leg. reflexivity.
    - unfold G. apply dlim_plus; [apply dlim_scal, dlim_id|].
      apply (dlim_sumf n (fun k y => sumf n (fun i => nth k c 0 * Tpow sl k (S i) * (sqrt (2 * INR (S i) + 1) * q i y)))).
      intros k Hk. apply (dlim_sumf n (fun i y => nth k c 0 * Tpow sl k (S i) * (sqrt (2 * INR (S i) + 1) * q i y))).
      intros i Hi. apply dlim_scal, dlim_scal. apply leg_anti. }
  assert (pr : Riemann_integrable (peval c) (-1) 1).
  { apply continuity_implies_RiemannInt; [lra|]. intros x _. apply peval_cont. }
  exists pr. rewrite (ftc _ G _ _ pr); [|lra|exact DG|apply peval_cont].
  assert (Q1 : forall i, q i 1 = 0) by (intros; unfold q; rewrite !leg_at_1; ring).
  assert (Qm : forall i, q i (-1) = 0) by (intros; unfold q; rewrite !leg_at_m1; simpl; ring).
  unfold G.
  rewrite (sumf_zero n (fun k => sumf n (fun i => nth k c 0 * Tpow sl k (S i) * (sqrt (2 * INR (S i) + 1) * q i 1)))).
  2: { intros k Hk. apply sumf_zero. intros i Hi. rewrite Q1. ring. }
  rewrite (sumf_zero n (fun k => sumf n (fun i => nth k c 0 * Tpow sl k (S i) * (sqrt (2 * INR (S i) + 1) * q i (-1))))).
  2: { intros k Hk. apply sumf_zero. intros i Hi. rewrite Qm. ring. }
  field.
Qed.

(** Legendre polynomials have no root outside (-1,1) *)
Lemma leg_ge1 : forall x, 1 <= x -> forall i, 1 <= leg i x /\ leg i x <= leg (S i) x.
Proof.
  intros x Hx. induction i.
  - rewrite leg_0, leg_1. lra.
  - destruct IHi as [A B]. split; [lra|]. assert (L := leg_SS x i). assert (P := pos_INR i).
    apply (Rmult_le_reg_l (INR i + 2)); [lra|]. rewrite L.
    assert (leg (S i) x * 1 <= leg (S i) x * x) by (apply Rmult_le_compat_l; lra). nra.
Qed.
Lemma op_parity : forall s, (forall k, (1 <= k)%nat -> s k <> 0) -> forall i x, op s i (- x) = (-1) ^ i * op s i x.
Proof.
  intros s Hs i x. pattern i. apply leg_ind; clear i.
  - rewrite !op_0. simpl. ring.
  - rewrite !(op_1_div s Hs). simpl. ring.
  - intros i H0 H1. rewrite !(op_SS_div s Hs), H0, H1. simpl. field. apply Hs. lia.
Qed.
Lemma legendre_root_range : forall i x, op sl i x = 0 -> -1 < x < 1.
Proof.
  assert (A : forall i x, op sl i x = 0 -> x < 1).
  { intros i x H. destruct (Rlt_le_dec x 1); auto. exfalso. destruct (leg_ge1 x r i) as [A _].
    rewrite op_leg in H. assert (P := pos_INR i). assert (0 < sqrt (2 * INR i + 1)) by (apply sqrt_lt_R0; lra).
    assert (0 < sqrt (2 * INR i + 1) * leg i x) by (apply Rmult_lt_0_compat; lra). lra. }
  intros i x H. split; [|now apply (A i)].
  assert (B := A i (- x)). rewrite (op_parity sl sl_ne), H in B. specialize (B ltac:(ring)). lra.
Qed.

(** ** nonzero roots are not small *)
Section Small.
  Variable s : nat -> R.
  Hypothesis Hs : forall k, (1 <= k)%nat -> s k <> 0.
  Definition drat (n : nat) : R := / (s (2 * n + 1)%nat * s (2 * n + 1)%nat).
  Definition rrat (n : nat) : R := s (2 * n + 2)%nat * s (2 * n + 2)%nat * drat n.
  Fixpoint gnorm (n : nat) : R := match n with O => 1 | S n' => 1 + rrat n' * gnorm n' end.
  Fixpoint abseq (t : R) (n : nat) : R * R :=
    match n with O => (1, 1) | S n' => let (a, b) := abseq t n' in let a' := a - t * drat n' * b in (a', a' + rrat n' * b) end.
  Lemma drat_pos : forall n, 0 < drat n.
  Proof.
    intros. unfold drat. apply Rinv_0_lt_compat. assert (A := Hs (2 * n + 1)%nat ltac:(lia)).
    destruct (Rdichotomy _ _ A); nra.
  Qed.
  Lemma rrat_pos : forall n, 0 < rrat n.
  Proof.
    intros. unfold rrat. apply Rmult_lt_0_compat; [|apply drat_pos]. assert (A := Hs (2 * n + 2)%nat ltac:(lia)).
    destruct (Rdichotomy _ _ A); nra.
  Qed.
  Lemma gnorm_pos : forall n, 0 < gnorm n.
  Proof.
    induction n; simpl; [lra|]. assert (A := rrat_pos n). assert (0 < rrat n * gnorm n) by now apply Rmult_lt_0_compat. lra.
  Qed.
  Lemma abseq_spec : forall x n, exists al, al <> 0 /\ op s (2 * n) x = al * fst (abseq (x * x) n)
    /\ op s (2 * n + 1) x = al / s (2 * n + 1)%nat * x * snd (abseq (x * x) n).
  Proof.
    intros x. induction n as [|n (al & Ha & E1 & E2)].
    - exists 1. split; [lra|]. simpl. rewrite op_0, (op_1_div s Hs). split; [ring|]. field. apply Hs; lia.
    - exists (- s (2 * n + 1)%nat * al / s (2 * n + 2)%nat).
      assert (H1 := Hs (2 * n + 1)%nat ltac:(lia)). assert (H2 := Hs (2 * n + 2)%nat ltac:(lia)). assert (H3 := Hs (2 * n + 3)%nat ltac:(lia)).
      assert (P1 := op_SS_div s Hs (2 * n) x). assert (P2 := op_SS_div s Hs (2 * n + 1) x).
      replace (2 * S n + 1)%nat with (2 * n + 3)%nat by lia. replace (2 * S n)%nat with (2 * n + 2)%nat by lia.
      replace (S (S (2 * n))) with (2 * n + 2)%nat in P1 by lia. replace (S (2 * n)) with (2 * n + 1)%nat in P1 by lia.
      replace (S (S (2 * n + 1))) with (2 * n + 3)%nat in P2 by lia. replace (S (2 * n + 1)) with (2 * n + 2)%nat in P2 by lia.
      rewrite E1, E2 in P1.
      simpl abseq. destruct (abseq (x * x) n) as [a b]. cbn [fst snd] in *.
      split.
      { unfold Rdiv. apply Rmult_integral_contrapositive_currified; [|now apply Rinv_neq_0_compat].
        apply Rmult_integral_contrapositive_currified; auto. lra. }
      split.
      { rewrite P1. unfold drat. field. auto. }
      rewrite P2, P1, E2. unfold rrat, drat. field. auto.
  Qed.
  Lemma abseq_bounds : forall t n, 0 <= t -> t * sumf n (fun k => drat k * gnorm k) <= 1 ->
    1 - t * sumf n (fun k => drat k * gnorm k) <= fst (abseq t n) /\ fst (abseq t n) <= 1 /\
    gnorm n * fst (abseq t n) <= snd (abseq t n) <= gnorm n.
  Proof.
    intros t n Ht. induction n as [|n IH]; intros H.
    - simpl. lra.
    - simpl sumf in H. simpl sumf. simpl abseq. simpl gnorm.
      assert (D := drat_pos n). assert (G := gnorm_pos n). assert (Rp := rrat_pos n).
      assert (DG : 0 < drat n * gnorm n) by now apply Rmult_lt_0_compat.
      destruct IH as (A & A1 & B & C). { assert (0 <= t * (drat n * gnorm n)) by (apply Rmult_le_pos; lra). lra. }
      destruct (abseq t n) as [a b]. cbn [fst snd] in *. set (Sm := sumf n (fun k => drat k * gnorm k)) in *.
      assert (tdg : 0 <= t * (drat n * gnorm n)) by (apply Rmult_le_pos; lra).
      assert (a0 : 0 <= a) by lra.
      assert (b0 : 0 <= b). { assert (0 <= gnorm n * a) by (apply Rmult_le_pos; lra). lra. }
      assert (tdb : 0 <= t * drat n * b) by (apply Rmult_le_pos; auto; apply Rmult_le_pos; lra).
      assert (tdb2 : t * drat n * b <= t * (drat n * gnorm n)).
      { rewrite <- Rmult_assoc. apply Rmult_le_compat_l; auto. apply Rmult_le_pos; lra. }
      assert (rb : rrat n * b <= rrat n * gnorm n) by (apply Rmult_le_compat_l; lra).
      assert (rb2 : rrat n * (gnorm n * a) <= rrat n * b) by (apply Rmult_le_compat_l; lra).
      assert (ga : rrat n * gnorm n * (a - t * drat n * b) <= rrat n * gnorm n * a).
      { apply Rmult_le_compat_l; [|lra]. apply Rmult_le_pos; lra. }
      repeat split; try lra.
  Qed.
  Lemma no_small_root : forall x n, x <> 0 -> x * x * sumf n (fun k => drat k * gnorm k) < 1 ->
    op s (2 * n) x <> 0 /\ op s (2 * n + 1) x <> 0.
  Proof.
    intros x n Hx Ht. destruct (abseq_spec x n) as (al & Ha & E1 & E2).
    destruct (abseq_bounds (x * x) n) as (A & A1 & B & C); [nra|lra|]. assert (G := gnorm_pos n).
    assert (a0 : 0 < fst (abseq (x * x) n)) by lra.
    assert (b0 : 0 < snd (abseq (x * x) n)). { assert (0 < gnorm n * fst (abseq (x * x) n)) by now apply Rmult_lt_0_compat. lra. }
    rewrite E1, E2. split.
    - apply Rmult_integral_contrapositive_currified; lra.
    - apply Rmult_integral_contrapositive_currified; [|lra]. apply Rmult_integral_contrapositive_currified; auto.
      unfold Rdiv. apply Rmult_integral_contrapositive_currified; auto. apply Rinv_neq_0_compat, Hs. lia.
  Qed.
End Small.

Lemma gnorm_h : forall n, drat sh n * gnorm sh n = 1.
Proof.
  assert (D : forall n, drat sh n = / (2 * INR n + 1)).
  { intros. unfold drat. rewrite sh_sq, plus_INR, mult_INR. simpl INR. reflexivity. }
  assert (A : forall n, gnorm sh n = 2 * INR n + 1).
  { induction n; [simpl; ring|]. simpl gnorm. rewrite IHn. unfold rrat. rewrite sh_sq, D, S_INR, plus_INR, mult_INR. simpl INR.
    assert (P := pos_INR n). field. lra. }
  intros n. rewrite A, D. assert (P := pos_INR n). field. lra.
Qed.
Lemma gnorm_l : forall n, drat sl n * gnorm sl n = 4 * INR n + 3.
Proof.
  assert (D : forall n, drat sl n = (4 * INR n + 1) * (4 * INR n + 3) / ((2 * INR n + 1) * (2 * INR n + 1))).
  { intros. unfold drat. rewrite sl_sq by lia. rewrite plus_INR, mult_INR. simpl INR. assert (P := pos_INR n).
    field. repeat split; try lra; nra. }
  assert (A : forall n, gnorm sl n = (2 * INR n + 1) * (2 * INR n + 1) / (4 * INR n + 1)).
  { induction n; [simpl; field|]. simpl gnorm. rewrite IHn. unfold rrat. rewrite sl_sq by lia. rewrite D, S_INR, plus_INR, mult_INR. simpl INR.
    assert (P := pos_INR n). field. repeat split; try lra; nra. }
  intros n. rewrite A, D. assert (P := pos_INR n). field. split; nra.
Qed.
Lemma hermite_root_bound : forall N x, op sh N x = 0 -> x <> 0 -> 1 <= x * x * INR N.
Proof.
  intros N x H Hx. destruct (Rlt_le_dec (x * x * INR N) 1) as [L|L]; auto. exfalso.
  destruct (no_small_root sh sh_ne x (N / 2) Hx) as [A B].
  - rewrite (sumf_ext _ _ (fun _ => 1)) by (intros; apply gnorm_h). rewrite sumf_const, Rmult_1_r.
    apply Rle_lt_trans with (2 := L). apply Rmult_le_compat_l; [nra|]. apply le_INR. apply Nat.div_le_upper_bound; lia.
  - assert (E := Nat.div_mod N 2 ltac:(lia)). assert (Hm := Nat.mod_upper_bound N 2 ltac:(lia)).
    destruct (N mod 2)%nat as [|[|]]; [| |lia].
    + apply A. rewrite <- H. f_equal. lia.
    + apply B. rewrite <- H. f_equal. lia.
Qed.
Lemma legendre_root_bound : forall N x, op sl N x = 0 -> x <> 0 -> 1 <= x * x * (INR N * INR N).
Proof.
  intros N x H Hx. destruct (Rlt_le_dec (x * x * (INR N * INR N)) 1) as [L|L]; auto. exfalso.
  destruct (no_small_root sl sl_ne x (N / 2) Hx) as [A B].
  - rewrite (sumf_ext _ _ (fun k => 4 * INR k + 3)) by (intros; apply gnorm_l).
    assert (Q : forall n, sumf n (fun k => 4 * INR k + 3) = INR n * (2 * INR n + 1)).
    { induction n; [simpl; ring|]. simpl sumf. rewrite IHn, S_INR. ring. }
    rewrite Q. apply Rle_lt_trans with (2 := L). apply Rmult_le_compat_l; [nra|].
    assert (K : 2 * INR (N / 2) <= INR N). { rewrite <- (mult_INR 2). apply le_INR. apply Nat.mul_div_le. lia. }
    assert (P := pos_INR (N / 2)).
    destruct (Nat.eq_dec (N / 2) 0) as [E0|]; [rewrite E0; simpl INR; assert (P2 := pos_INR N); nra|].
    assert (1 <= INR (N / 2)) by (change 1 with (INR 1); apply le_INR; lia). nra.
  - assert (E := Nat.div_mod N 2 ltac:(lia)). assert (Hm := Nat.mod_upper_bound N 2 ltac:(lia)).
    destruct (N mod 2)%nat as [|[|]]; [| |lia].
    + apply A. rewrite <- H. f_equal. lia.
    + apply B. rewrite <- H. f_equal. lia.
Qed.
