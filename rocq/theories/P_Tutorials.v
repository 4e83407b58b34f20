(** The hand-coded gradients of the tutorials, row by row. *)
From Coq Require Import String Reals Lra Lia List Arith ZArith Bool.
From Verif Require Import Prelude Py NumArr M_Misc M_Tutorials Deriv.
Import ListNotations.
Open Scope R_scope.

Lemma fpow_pos : forall x y, 0 < x -> fpow x y = Rpower x y.
Proof. intros x y H. unfold fpow. destruct (Rlt_dec 0 x); [reflexivity | contradiction]. Qed.
Lemma fpow_gt0 : forall x y, 0 < x -> 0 < fpow x y.
Proof. intros x y H. rewrite fpow_pos by auto. apply exp_pos. Qed.
Lemma D_fpow : forall e f x a, D f x a -> 0 < f x -> D (fun t => fpow (f t) e) x (e * fpow (f x) e / f x * a).
Proof.
  intros e f x a H P.
  apply (D_local (fun t => Rpower (f t) e)).
  - eapply D_eq. { exact (D_comp f (fun y => Rpower y e) x a _ H (derivable_pt_lim_power (f x) e P)). }
    rewrite fpow_pos by auto. unfold Rminus. rewrite Rpower_plus, Rpower_Ropp, Rpower_1 by auto.
    field. lra.
  - destruct (D_pos f x a H P) as (d & Hd & E). exists d. split; auto. intros y Hy. apply fpow_pos. auto.
Qed.
Ltac dstep2 := first [ dstep | match goal with |- D (fun t => fpow (@?f t) ?e) _ _ => eapply (D_fpow e f) end ].
Ltac deriv2 := eapply D_eq; [ repeat dstep2; cbv beta | cbv beta ].

(** the coordinates along a line: coordinate j moves with speed s, the others rest *)
Definition moves (c : nat -> R -> R) (d : nat -> R) (x : R) := forall k, D (c k) x (d k).

(** sum over the coordinates of (partial derivative * speed), where the code
    gives the partial derivatives times the factors [s] *)
Fixpoint total (g s d : list R) : R :=
  match g, s, d with
  | g0 :: g, s0 :: s, d0 :: d => g0 / s0 * d0 + total g s d
  | _, _, _ => 0
  end.
Fixpoint halves (xl xu : list R) : list R :=
  match xl, xu with l :: xl, u :: xu => (u - l) / 2 :: halves xl xu | _, _ => [] end.

Section Rows.
  Variable c : nat -> R -> R.
  Variable d : nat -> R.
  Variable x : R.
  Hypothesis Hm : moves c d x.
  Let at_x := fun k => c k x.

  Lemma circuit_total : (forall k, (k < 6)%nat -> 0 < c k x) ->
    D (fun t => circuit_row (fun k => c k t)) x
      (total (circuit_grad_row at_x) (halves otl_xl otl_xu) (map d (seq 0 6))).
  Proof.
    intros P. unfold circuit_row. cbv zeta.
    pose proof (Hm 0%nat). pose proof (Hm 1%nat). pose proof (Hm 2%nat). pose proof (Hm 3%nat).
    pose proof (Hm 4%nat). pose proof (Hm 5%nat).
    assert (P0 := P 0%nat ltac:(lia)). assert (P1 := P 1%nat ltac:(lia)). assert (P2 := P 2%nat ltac:(lia)).
    assert (P3 := P 3%nat ltac:(lia)). assert (P4 := P 4%nat ltac:(lia)). assert (P5 := P 5%nat ltac:(lia)).
    assert (N1 : c 0%nat x + c 1%nat x <> 0) by lra.
    assert (N2 : c 5%nat x * (c 4%nat x + 9) + c 2%nat x <> 0).
    { apply Rgt_not_eq. assert (0 < c 5%nat x * (c 4%nat x + 9)) by (apply Rmult_lt_0_compat; lra). lra. }
    assert (N3 : c 3%nat x <> 0) by lra.
    deriv; try assumption. { apply Rmult_integral_contrapositive_currified; assumption. }
    cbn [total halves circuit_grad_row otl_xl otl_xu map seq]. unfold at_x, Rsqr.
    generalize dependent (c 0%nat x). generalize dependent (c 1%nat x). generalize dependent (c 2%nat x).
    generalize dependent (c 3%nat x). generalize dependent (c 4%nat x). generalize dependent (c 5%nat x).
    intros. field. repeat split; assumption.
  Qed.

  Lemma fpow_half : forall y, 0 < y -> fpow y (5/10) = sqrt y.
  Proof.
    intros y H. rewrite fpow_pos by auto. replace (5/10) with (/ 2) by lra. apply Rpower_sqrt; auto.
  Qed.
  Lemma fpow_mhalf : forall y, 0 < y -> fpow y (- (5/10)) = / sqrt y.
  Proof.
    intros y H. rewrite fpow_pos by auto. rewrite Rpower_Ropp. f_equal.
    replace (5/10) with (/ 2) by lra. apply Rpower_sqrt; auto.
  Qed.
  Lemma fpow_m3half : forall y, 0 < y -> fpow y (- (15/10)) = / (y * sqrt y).
  Proof.
    intros y H. rewrite fpow_pos by auto. rewrite Rpower_Ropp. f_equal.
    replace (15/10) with (1 + / 2) by lra. rewrite Rpower_plus, Rpower_1, Rpower_sqrt by auto. reflexivity.
  Qed.

  Lemma piston_total : (forall k, (k < 7)%nat -> 0 < c k x) ->
    D (fun t => piston_row (fun k => c k t)) x
      (total (piston_grad_row at_x) (halves piston_xl piston_xu) (map d (seq 0 7))).
  Proof.
    intros P. unfold piston_row. cbv zeta.
    pose proof (Hm 0%nat) as H0. pose proof (Hm 1%nat) as H1. pose proof (Hm 2%nat) as H2.
    pose proof (Hm 3%nat) as H3. pose proof (Hm 4%nat) as H4. pose proof (Hm 5%nat) as H5.
    pose proof (Hm 6%nat) as H6.
    assert (P0 := P 0%nat ltac:(lia)). assert (P1 := P 1%nat ltac:(lia)). assert (P2 := P 2%nat ltac:(lia)).
    assert (P3 := P 3%nat ltac:(lia)). assert (P4 := P 4%nat ltac:(lia)). assert (P5 := P 5%nat ltac:(lia)).
    assert (P6 := P 6%nat ltac:(lia)).
    set (A := fun t => c 4%nat t * c 1%nat t + 1962/100 * c 0%nat t - c 3%nat t * c 2%nat t / c 1%nat t).
    set (Rr := fun t => A t ^ 2 + 4 * c 3%nat t * c 4%nat t * c 2%nat t * c 5%nat t / c 6%nat t).
    set (V := fun t => c 1%nat t / (2 * c 3%nat t) * (- A t + sqrt (Rr t))).
    set (Q := fun t => c 3%nat t + c 1%nat t ^ 2 * c 4%nat t * c 2%nat t * c 5%nat t / (c 6%nat t * V t ^ 2)).
    assert (PR : A x ^ 2 < Rr x).
    { unfold Rr. rewrite <- (Rplus_0_r (A x ^ 2)) at 1. apply Rplus_lt_compat_l.
      apply Rdiv_lt_0_compat; auto. repeat (apply Rmult_lt_0_compat; [|assumption]). lra. }
    assert (PR0 : 0 < Rr x) by (pose proof (pow2_ge_0 (A x)); lra).
    assert (PV : 0 < V x).
    { unfold V. apply Rmult_lt_0_compat. { apply Rdiv_lt_0_compat; lra. }
      assert (A x < sqrt (Rr x)); [|lra]. destruct (Rle_lt_dec (A x) 0) as [L|L].
      - pose proof (sqrt_lt_R0 _ PR0). lra.
      - rewrite <- (sqrt_pow2 (A x)) by lra. apply sqrt_lt_1_alt. split; [apply pow2_ge_0 | exact PR]. }
    assert (PQ : 0 < Q x).
    { unfold Q. apply Rplus_lt_0_compat; auto.
      apply Rdiv_lt_0_compat; [repeat (apply Rmult_lt_0_compat; [|assumption]) | apply Rmult_lt_0_compat; auto]; apply pow_lt; auto. }
    assert (N1 : c 1%nat x <> 0) by lra. assert (N3 : c 3%nat x <> 0) by lra.
    assert (N23 : 2 * c 3%nat x <> 0) by lra. assert (N6 : c 6%nat x <> 0) by lra.
    assert (NV : V x <> 0) by lra. assert (NQ : Q x <> 0) by lra.
    pose (dA := c 4%nat x * d 1%nat + d 4%nat * c 1%nat x + 1962/100 * d 0%nat
                - d 3%nat * c 2%nat x / c 1%nat x - c 3%nat x * d 2%nat / c 1%nat x
                + c 3%nat x * c 2%nat x / c 1%nat x ^ 2 * d 1%nat).
    assert (HA : D A x dA). { unfold A. deriv; auto. unfold dA, Rsqr. field. auto. }
    pose (w := c 2%nat x * c 5%nat x / c 6%nat x).
    pose (dR := 2 * A x * dA + 4 / c 6%nat x * (d 3%nat * c 4%nat x * c 2%nat x * c 5%nat x
                + c 3%nat x * d 4%nat * c 2%nat x * c 5%nat x + c 3%nat x * c 4%nat x * d 2%nat * c 5%nat x
                + c 3%nat x * c 4%nat x * c 2%nat x * d 5%nat)
                - 4 * c 3%nat x * c 4%nat x * c 2%nat x * c 5%nat x / c 6%nat x ^ 2 * d 6%nat).
    assert (HR : D Rr x dR). { unfold Rr. deriv; auto. unfold dR, Rsqr. simpl. field. auto. }
    pose (dV := V x / c 1%nat x * d 1%nat - V x / c 3%nat x * d 3%nat
                + c 1%nat x / (2 * c 3%nat x) * (- dA + / (2 * sqrt (Rr x)) * dR)).
    assert (HV : D V x dV).
    { unfold V. deriv; auto. unfold dV, V, Rsqr. generalize (/ (2 * sqrt (Rr x)) * dR). generalize (sqrt (Rr x)).
      intros. field. auto. }
    pose (dQ := d 3%nat + 2 * c 1%nat x * d 1%nat * c 4%nat x * c 2%nat x * c 5%nat x / (c 6%nat x * V x ^ 2)
                + c 1%nat x ^ 2 * (d 4%nat * c 2%nat x * c 5%nat x + c 4%nat x * d 2%nat * c 5%nat x + c 4%nat x * c 2%nat x * d 5%nat)
                    / (c 6%nat x * V x ^ 2)
                - c 1%nat x ^ 2 * c 4%nat x * c 2%nat x * c 5%nat x * d 6%nat / (c 6%nat x ^ 2 * V x ^ 2)
                - 2 * c 1%nat x ^ 2 * c 4%nat x * c 2%nat x * c 5%nat x / (c 6%nat x * V x ^ 3) * dV).
    assert (HQ : D Q x dQ).
    { unfold Q. deriv; auto. { apply Rmult_integral_contrapositive_currified; auto. apply pow_nonzero; auto. }
      unfold dQ, Rsqr. simpl. field. auto. }
    change (D (fun t => 2 * PI * sqrt (c 0%nat t / Q t)) x
      (total (piston_grad_row at_x) (halves piston_xl piston_xu) (map d (seq 0 7)))).
    deriv; auto. { apply Rdiv_lt_0_compat; auto. }
    cbn [total halves piston_grad_row piston_xl piston_xu map seq]. unfold at_x. cbv zeta.
    fold (A x). fold (Rr x). fold (V x). fold (Q x).
    rewrite (fpow_half (c 0%nat x)), (fpow_mhalf (c 0%nat x * Q x)), (fpow_mhalf (Rr x)), (fpow_m3half (Q x))
      by (try apply Rmult_lt_0_compat; auto).
    rewrite sqrt_div, sqrt_mult by lra.
    assert (SM : c 0%nat x = sqrt (c 0%nat x) * sqrt (c 0%nat x)) by (rewrite sqrt_sqrt; lra).
    assert (SQ : Q x = sqrt (Q x) * sqrt (Q x)) by (rewrite sqrt_sqrt; lra).
    pose proof (sqrt_lt_R0 _ P0) as SM0. pose proof (sqrt_lt_R0 _ PQ) as SQ0. pose proof (sqrt_lt_R0 _ PR0) as SR0.
    unfold Rsqr.
    transitivity (PI / (sqrt (c 0%nat x) * sqrt (Q x)) * d 0%nat
                  - PI * sqrt (c 0%nat x) * / (Q x * sqrt (Q x)) * dQ).
    { clearbody dQ. remember (sqrt (c 0%nat x)) as sm. remember (sqrt (Q x)) as sq. rewrite SM, SQ.
      field. split; lra. }
    unfold dQ, dV, dR, dA. clear dQ HQ dV HV dR HR dA HA. clearbody A Rr V Q.
    remember (sqrt (c 0%nat x)) as sm. remember (sqrt (Q x)) as sq. remember (sqrt (Rr x)) as sr.
    generalize dependent (A x). generalize dependent (V x). generalize dependent (Q x). intros q PQ NQ SQ Hq v PV NV a PR.
    generalize (d 0%nat) (d 1%nat) (d 2%nat) (d 3%nat) (d 4%nat) (d 5%nat) (d 6%nat). intros d0 d1 d2 d3 d4 d5 d6.
    field. repeat split; lra.
  Qed.

  (** the factors of borehole_grad: line 59-60 *)
  Definition bore_scales : list R :=
    161812/10000000 :: 10056/10000 * c 1%nat x :: halves bore_xl bore_xu.
  Lemma borehole_total : (forall k, (2 <= k < 8)%nat -> 0 < c k x) -> 0 < c 0%nat x < c 1%nat x ->
    D (fun t => borehole_row (fun k => c k t)) x
      (total (borehole_grad_row at_x) bore_scales (map d (seq 0 8))).
  Proof.
    intros P [P0 P1']. unfold borehole_row. cbv zeta.
    pose proof (Hm 0%nat) as H0. pose proof (Hm 1%nat) as H1. pose proof (Hm 2%nat) as H2.
    pose proof (Hm 3%nat) as H3. pose proof (Hm 4%nat) as H4. pose proof (Hm 5%nat) as H5.
    pose proof (Hm 6%nat) as H6. pose proof (Hm 7%nat) as H7.
    assert (P1 : 0 < c 1%nat x) by lra. assert (P2 := P 2%nat ltac:(lia)).
    assert (P3 := P 3%nat ltac:(lia)). assert (P4 := P 4%nat ltac:(lia)). assert (P5 := P 5%nat ltac:(lia)).
    assert (P6 := P 6%nat ltac:(lia)). assert (P7 := P 7%nat ltac:(lia)).
    assert (PR : 0 < c 1%nat x / c 0%nat x) by (apply Rdiv_lt_0_compat; auto).
    set (l := fun t => ln (c 1%nat t / c 0%nat t)).
    assert (PL : 0 < l x).
    { unfold l. rewrite <- ln_1. apply ln_increasing. lra.
      apply Rmult_lt_reg_r with (c 0%nat x); auto. unfold Rdiv. rewrite Rmult_assoc, Rinv_l by lra. lra. }
    set (Q := fun t => 1 + 2 * c 6%nat t * c 2%nat t / (l t * c 0%nat t ^ 2 * c 7%nat t) + c 2%nat t / c 4%nat t).
    assert (N0 : c 0%nat x <> 0) by lra. assert (N1 : c 1%nat x <> 0) by lra.
    assert (N4 : c 4%nat x <> 0) by lra. assert (N7 : c 7%nat x <> 0) by lra. assert (NL : l x <> 0) by lra.
    assert (PQ : 0 < Q x).
    { unfold Q. apply Rplus_lt_0_compat. apply Rplus_lt_0_compat. lra.
      apply Rdiv_lt_0_compat; repeat (apply Rmult_lt_0_compat; [|solve [auto | apply pow_lt; auto]]); auto; lra.
      apply Rdiv_lt_0_compat; auto. }
    assert (NQ : Q x <> 0) by lra.
    pose (dl := d 1%nat / c 1%nat x - d 0%nat / c 0%nat x).
    assert (HL : D l x dl). { unfold l. deriv; auto. unfold dl, Rsqr. field. auto. }
    pose (dQ := 2 * (d 6%nat * c 2%nat x + c 6%nat x * d 2%nat) / (l x * c 0%nat x ^ 2 * c 7%nat x)
                - 2 * c 6%nat x * c 2%nat x / (l x ^ 2 * c 0%nat x ^ 2 * c 7%nat x) * dl
                - 4 * c 6%nat x * c 2%nat x / (l x * c 0%nat x ^ 3 * c 7%nat x) * d 0%nat
                - 2 * c 6%nat x * c 2%nat x / (l x * c 0%nat x ^ 2 * c 7%nat x ^ 2) * d 7%nat
                + d 2%nat / c 4%nat x - c 2%nat x / c 4%nat x ^ 2 * d 4%nat).
    assert (HQ : D Q x dQ).
    { unfold Q. deriv; auto.
      { repeat apply Rmult_integral_contrapositive_currified; auto. }
      unfold dQ, Rsqr. simpl. field. auto. }
    change (D (fun t => 2 * PI * c 2%nat t * (c 3%nat t - c 5%nat t) / (l t * Q t)) x
      (total (borehole_grad_row at_x) bore_scales (map d (seq 0 8)))).
    deriv; auto.
    unfold bore_scales. cbn [total halves borehole_grad_row bore_xl bore_xu map seq]. unfold at_x. cbv zeta.
    fold (l x). fold (Q x).
    replace (10056/10000 * ((ln (c 1%nat x) - 771/100) / (10056/10000)) + 771/100) with (ln (c 1%nat x)) by (field; lra).
    rewrite exp_ln by auto. unfold dQ, dl, Rsqr. clear dQ HQ dl HL. 
    assert (EQ : Q x = 1 + 2 * c 6%nat x * c 2%nat x / (l x * c 0%nat x ^ 2 * c 7%nat x) + c 2%nat x / c 4%nat x) by reflexivity.
    clearbody Q l.
    generalize dependent (l x). generalize dependent (Q x). intros q PQ NQ l0 PL NL EQ.
    generalize (d 0%nat) (d 1%nat) (d 2%nat) (d 3%nat) (d 4%nat) (d 5%nat) (d 6%nat) (d 7%nat). intros d0 d1 d2 d3 d4 d5 d6 d7.
    field. repeat split; lra.
  Qed.

  (** the factors of wing_grad: lines 50-51 *)
  Lemma wing_Q_deriv : (forall k, (k < 9)%nat -> k <> 3%nat -> 0 < c k x) -> 0 < cos (c 3%nat x * PI / 180) ->
    D (fun t => wing_Q (fun k => c k t)) x
      (wing_Q at_x * (758/1000 / c 0%nat x * d 0%nat + 35/10000 / c 1%nat x * d 1%nat + 6/10 / c 2%nat x * d 2%nat
        + 9/10 * sin (c 3%nat x * PI / 180) / cos (c 3%nat x * PI / 180) * (PI / 180) * d 3%nat
        + 6/1000 / c 4%nat x * d 4%nat + 4/100 / c 5%nat x * d 5%nat - 3/10 / c 6%nat x * d 6%nat
        + 49/100 / c 7%nat x * d 7%nat + 49/100 / c 8%nat x * d 8%nat)).
  Proof.
    intros P P3. unfold wing_Q. cbv zeta.
    pose proof (Hm 0%nat) as H0. pose proof (Hm 1%nat) as H1. pose proof (Hm 2%nat) as H2.
    pose proof (Hm 3%nat) as H3. pose proof (Hm 4%nat) as H4. pose proof (Hm 5%nat) as H5.
    pose proof (Hm 6%nat) as H6. pose proof (Hm 7%nat) as H7. pose proof (Hm 8%nat) as H8.
    assert (P0 := P 0%nat ltac:(lia) ltac:(lia)). assert (P1 := P 1%nat ltac:(lia) ltac:(lia)). assert (P2 := P 2%nat ltac:(lia) ltac:(lia)).
    assert (P4 := P 4%nat ltac:(lia) ltac:(lia)). assert (P5 := P 5%nat ltac:(lia) ltac:(lia)).
    assert (P6 := P 6%nat ltac:(lia) ltac:(lia)). assert (P7 := P 7%nat ltac:(lia) ltac:(lia)). assert (P8 := P 8%nat ltac:(lia) ltac:(lia)).
    deriv2; auto; try lra. unfold at_x, Rsqr.
    generalize (fpow (c 0%nat x) (758/1000)) (fpow (c 1%nat x) (35/10000)) (fpow (c 2%nat x) (6/10))
      (fpow (cos (c 3%nat x * PI / 180)) (- (9/10))) (fpow (c 4%nat x) (6/1000)) (fpow (c 5%nat x) (4/100))
      (fpow 100 (- (3/10))) (fpow (c 6%nat x) (- (3/10))) (fpow (c 7%nat x) (49/100)) (fpow (c 8%nat x) (49/100)).
    generalize dependent (cos (c 3%nat x * PI / 180)). generalize (sin (c 3%nat x * PI / 180)).
    intros. field. repeat split; lra.
  Qed.
  Lemma wing_total : (forall k, (k < 10)%nat -> k <> 3%nat -> 0 < c k x) -> 0 < cos (c 3%nat x * PI / 180) ->
    D (fun t => wing_row (fun k => c k t)) x
      (total (wing_grad_row at_x) (halves wing_xl wing_xu) (map d (seq 0 10))).
  Proof.
    intros P P3. unfold wing_row.
    pose proof (wing_Q_deriv ltac:(auto) P3) as HQ. pose proof (Hm 0%nat) as H0. pose proof (Hm 9%nat) as H9.
    deriv2. fold at_x.
    assert (P0 := P 0%nat ltac:(lia) ltac:(lia)). assert (P1 := P 1%nat ltac:(lia) ltac:(lia)). assert (P2 := P 2%nat ltac:(lia) ltac:(lia)).
    assert (P4 := P 4%nat ltac:(lia) ltac:(lia)). assert (P5 := P 5%nat ltac:(lia) ltac:(lia)).
    assert (P6 := P 6%nat ltac:(lia) ltac:(lia)). assert (P7 := P 7%nat ltac:(lia) ltac:(lia)). assert (P8 := P 8%nat ltac:(lia) ltac:(lia)).
    cbn [total halves wing_grad_row wing_partials wing_xl wing_xu map seq nth]. cbv zeta. generalize (wing_Q at_x). intros q.
    unfold at_x. field. repeat split; lra.
  Qed.

  Lemma robot_total : 0 < robot_u at_x ^ 2 + robot_v at_x ^ 2 ->
    D (fun t => robot_row (fun k => c k t)) x
      (total (robot_grad_row at_x) (halves robot_xl robot_xu) (map d (seq 0 8))).
  Proof.
    intros P. unfold robot_row.
    pose proof (Hm 0%nat) as H0. pose proof (Hm 1%nat) as H1. pose proof (Hm 2%nat) as H2.
    pose proof (Hm 3%nat) as H3. pose proof (Hm 4%nat) as H4. pose proof (Hm 5%nat) as H5.
    pose proof (Hm 6%nat) as H6. pose proof (Hm 7%nat) as H7.
    pose (du := d 4%nat * cos (c 0%nat x) + d 5%nat * cos (c 0%nat x + c 1%nat x) + d 6%nat * cos (c 0%nat x + c 1%nat x + c 2%nat x)
      + d 7%nat * cos (c 0%nat x + c 1%nat x + c 2%nat x + c 3%nat x)
      - c 4%nat x * sin (c 0%nat x) * d 0%nat - c 5%nat x * sin (c 0%nat x + c 1%nat x) * (d 0%nat + d 1%nat)
      - c 6%nat x * sin (c 0%nat x + c 1%nat x + c 2%nat x) * (d 0%nat + d 1%nat + d 2%nat)
      - c 7%nat x * sin (c 0%nat x + c 1%nat x + c 2%nat x + c 3%nat x) * (d 0%nat + d 1%nat + d 2%nat + d 3%nat)).
    pose (dv := d 4%nat * sin (c 0%nat x) + d 5%nat * sin (c 0%nat x + c 1%nat x) + d 6%nat * sin (c 0%nat x + c 1%nat x + c 2%nat x)
      + d 7%nat * sin (c 0%nat x + c 1%nat x + c 2%nat x + c 3%nat x)
      + c 4%nat x * cos (c 0%nat x) * d 0%nat + c 5%nat x * cos (c 0%nat x + c 1%nat x) * (d 0%nat + d 1%nat)
      + c 6%nat x * cos (c 0%nat x + c 1%nat x + c 2%nat x) * (d 0%nat + d 1%nat + d 2%nat)
      + c 7%nat x * cos (c 0%nat x + c 1%nat x + c 2%nat x + c 3%nat x) * (d 0%nat + d 1%nat + d 2%nat + d 3%nat)).
    assert (HU : D (fun t => robot_u (fun k => c k t)) x du).
    { unfold robot_u. cbv zeta. deriv. unfold du. ring. }
    assert (HV : D (fun t => robot_v (fun k => c k t)) x dv).
    { unfold robot_v. cbv zeta. deriv. unfold dv. ring. }
    deriv2; [exact P |]. fold at_x.
    unfold robot_grad_row. cbv zeta. rewrite fpow_half, fpow_mhalf by exact P.
    cbn [total halves robot_xl robot_xu map seq INR pred].
    pose proof (sqrt_sqrt _ (Rlt_le _ _ P)) as SS. pose proof (sqrt_lt_R0 _ P) as SP.
    set (sq := sqrt (robot_u at_x ^ 2 + robot_v at_x ^ 2)) in *. 
    transitivity ((robot_u at_x * du + robot_v at_x * dv) / sq).
    { rewrite <- SS. field. lra. }
    clearbody sq. pose proof PI_RGT_0.
    unfold du, dv, robot_u, robot_v, at_x. cbv zeta.
    generalize (cos (c 0%nat x)) (cos (c 0%nat x + c 1%nat x)) (cos (c 0%nat x + c 1%nat x + c 2%nat x)) (cos (c 0%nat x + c 1%nat x + c 2%nat x + c 3%nat x)).
    generalize (sin (c 0%nat x)) (sin (c 0%nat x + c 1%nat x)) (sin (c 0%nat x + c 1%nat x + c 2%nat x)) (sin (c 0%nat x + c 1%nat x + c 2%nat x + c 3%nat x)).
    intros. field. repeat split; lra.
  Qed.
End Rows.
