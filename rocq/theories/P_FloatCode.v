(** The code of M_Float.v in a format: normalizers, dot products, averages *)
From Coq Require Import Reals Lra Lia ZArith List Bool Permutation.
From Verif Require Import Prelude Py NumArr M_Misc M_Subspaces M_Float P_Misc P_Float.
Import ListNotations.
Open Scope R_scope.

Ltac dabs := unfold Rabs in *; repeat destruct (Rcase_abs _).

Lemma Rabs_half : forall x, Rabs (x / 2) = Rabs x / 2.
Proof. intros. unfold Rdiv. rewrite Rabs_mult, (Rabs_pos_eq (/ 2)) by lra. reflexivity. Qed.

Section Scalar.
  Variable F : format.
  Hypothesis V : valid F.
  Let u := ulp1 F.
  Let eta := eta F.
  Let r := rnd F.
  Let ff := fmt F.

  Definition nrm (lb ub x : R) : R := r (r (2 * r (x - lb) / r (ub - lb)) - 1).
  Definition unn (lb ub x : R) : R := r (r (r (r (ub - lb) * r (x + 1)) / 2) + lb).

  Lemma Hu : 0 < u <= / 16.
  Proof. split; [apply ulp1_pos|apply ulp1_le, V]. Qed.
  Lemma Heta : 0 < eta <= u.
  Proof.
    split; [apply eta_pos|]. unfold eta, P_Float.eta, u, ulp1.
    apply Rle_trans with (bpow (- f_prec F + 1) / 2).
    - apply Rmult_le_compat_r; [lra|]. apply bpow_le. generalize (v_emin F V). lia.
    - rewrite bpow_S. lra.
  Qed.

  Section Box.
    Variables lb ub : R.
    Hypothesis (Flb : ff lb) (Fub : ff ub) (Hlu : lb < ub).
    Let b := ub - lb.
    Let w := r (ub - lb).

    Lemma w_pos : 0 < w. Proof. apply rnd_sub_pos; auto. Qed.
    Lemma w_err : Rabs (w - b) <= u * b.
    Proof. generalize (rnd_err_sub F V ub lb Fub Flb). fold r w b. rewrite (Rabs_pos_eq b) by (unfold b; lra). auto. Qed.

    Lemma nrm_mono : forall x y, x <= y -> nrm lb ub x <= nrm lb ub y.
    Proof.
      intros x y H. unfold nrm, r. apply rnd_mono; auto. apply Rplus_le_compat_r. apply rnd_mono; auto.
      unfold Rdiv. apply Rmult_le_compat_r; [left; apply Rinv_0_lt_compat, w_pos|].
      apply Rmult_le_compat_l; [lra|]. apply rnd_mono; auto. lra.
    Qed.
    Lemma nrm_lb : nrm lb ub lb = -1.
    Proof.
      unfold nrm, r. rewrite Rminus_eq_0, rnd_0. unfold Rdiv. rewrite Rmult_0_r, Rmult_0_l, rnd_0.
      rewrite Rminus_0_l. replace (- (1)) with (-1) by lra. now apply rnd_m1.
    Qed.
    Lemma nrm_ub : nrm lb ub ub = 1.
    Proof.
      unfold nrm. fold w. replace (2 * w / w) with 2 by (field; generalize w_pos; lra).
      unfold r. rewrite rnd_2 by auto. replace (2 - 1) with 1 by lra. now apply rnd_1.
    Qed.
    Lemma nrm_range : forall x, lb <= x <= ub -> -1 <= nrm lb ub x <= 1.
    Proof.
      intros x [H1 H2]. rewrite <- nrm_lb, <- nrm_ub at 1. split; now apply nrm_mono.
    Qed.

    (** error of the normalization for points up to 2u of the width outside *)
    Lemma nrm_err_gen : forall x, ff x -> lb <= x <= ub + 2 * u * b ->
      Rabs (nrm lb ub x - (2 * (x - lb) / b - 1)) <= 10 * u + eta /\
      0 <= 2 * r (x - lb) / w <= 3 /\ 0 <= r (2 * r (x - lb) / w) <= 4 /\ r (x - lb) <= 5 / 4 * b.
    Proof.
      intros x Fx [H1 H2]. generalize Hu Heta w_pos w_err. intros U E W We.
      assert (B : 0 < b) by (unfold b; lra).
      set (a := x - lb) in *. assert (A : 0 <= a <= b + 2 * u * b) by (unfold a, b in *; lra).
      assert (De : Rabs (r a - a) <= u * a).
      { generalize (rnd_err_sub F V x lb Fx Flb). fold r a. rewrite (Rabs_pos_eq a) by lra. auto. }
      assert (D0 : 0 <= r a) by (apply rnd_nonneg; lra).
      set (d := r a) in *.
      assert (K : Rabs (2 * d / w - 2 * a / b) <= 5 * u).
      { assert (Q : 2 * d / w - 2 * a / b = 2 * ((d - a) * b - a * (w - b)) / (w * b)) by (field; lra).
        rewrite Q. unfold Rdiv. rewrite Rabs_mult, (Rabs_pos_eq (/ (w * b))) by (left; apply Rinv_0_lt_compat; nra).
        apply Rmult_le_reg_r with (w * b); [nra|]. rewrite Rmult_assoc, Rinv_l, Rmult_1_r by nra.
        rewrite Rabs_mult, (Rabs_pos_eq 2) by lra.
        assert (N : Rabs ((d - a) * b - a * (w - b)) <= u * a * b + a * (u * b)).
        { apply Rle_trans with (1 := Rabs_triang _ _). rewrite Rabs_Ropp, !Rabs_mult, (Rabs_pos_eq b), (Rabs_pos_eq a) by lra.
          apply Rplus_le_compat; [apply Rmult_le_compat_r; lra | apply Rmult_le_compat_l; lra]. }
        assert (Wl : 15 / 16 * b <= w) by (dabs; nra).
        assert (ab : a <= 9 / 8 * b) by nra.
        apply Rle_trans with (4 * u * a * b); [lra|].
        assert (4 * a <= 5 * w) by nra.
        assert (0 <= u * b) by nra. nra. }
      assert (AB : 0 <= 2 * a / b <= 9 / 4).
      { split; [apply Rmult_le_pos; [lra|left; now apply Rinv_0_lt_compat]|].
        apply Rmult_le_reg_r with b; auto. unfold Rdiv. rewrite Rmult_assoc, Rinv_l, Rmult_1_r by lra. nra. }
      assert (T : 0 <= 2 * d / w <= 2.6).
      { split; [apply Rmult_le_pos; [lra|left; now apply Rinv_0_lt_compat]|]. dabs; lra. }
      set (t := 2 * d / w) in *.
      generalize (rnd_err F t). fold u eta. change (rnd F t) with (r t).
      rewrite (Rabs_pos_eq t) by lra. intros Qe.
      assert (Q0 : 0 <= r t) by (apply rnd_nonneg; lra).
      assert (Q4 : r t <= 3) by (assert (u * t <= / 16 * 2.6) by nra; dabs; lra).
      generalize (rnd_err_sub F V (r t) 1 (rnd_fmt F V t) (fmt_1 F V)). fold u.
      change (rnd F (r t - 1)) with (nrm lb ub x). intros Re.
      assert (R1 : Rabs (r t - 1) <= 2) by (dabs; lra).
      assert (R2 : u * Rabs (r t - 1) <= u * 2) by (apply Rmult_le_compat_l; lra).
      assert (T1 : u * t <= u * 2.6) by nra.
      split; [|split; [lra|split; [lra|]]].
      - assert (Z : nrm lb ub x - (2 * a / b - 1) = (nrm lb ub x - (r t - 1)) + (r t - t) + (t - 2 * a / b)) by ring.
        rewrite Z. apply Rle_trans with (1 := Rabs_triang _ _).
        apply Rle_trans with (Rabs (nrm lb ub x - (r t - 1)) + Rabs (r t - t) + Rabs (t - 2 * a / b)).
        + apply Rplus_le_compat_r, Rabs_triang.
        + lra.
      - assert (u * a <= / 16 * a) by nra. assert (a <= 9 / 8 * b) by nra. dabs; lra.
    Qed.

    Lemma nrm_err : forall x, ff x -> lb <= x <= ub -> Rabs (nrm lb ub x - (2 * (x - lb) / b - 1)) <= 10 * u + eta.
    Proof.
      intros x Fx H. apply nrm_err_gen; auto. generalize Hu. intros U. assert (0 <= u * b) by (unfold b; nra). lra.
    Qed.

    Lemma unn_mono : forall x y, x <= y -> unn lb ub x <= unn lb ub y.
    Proof.
      intros x y H. unfold unn, r. apply rnd_mono; auto. apply Rplus_le_compat_r. apply rnd_mono; auto.
      unfold Rdiv. apply Rmult_le_compat_r; [lra|]. apply rnd_mono; auto.
      apply Rmult_le_compat_l; [left; apply w_pos|]. apply rnd_mono; auto. lra.
    Qed.
    Lemma unn_m1 : unn lb ub (-1) = lb.
    Proof.
      unfold unn, r. replace (-1 + 1) with 0 by lra. rewrite rnd_0, Rmult_0_r, rnd_0.
      unfold Rdiv. rewrite Rmult_0_l, rnd_0, Rplus_0_l. now apply fmt_fix.
    Qed.
    Lemma unn_1 : unn lb ub 1 = r (w + lb).
    Proof.
      unfold unn. fold w. replace (1 + 1) with 2 by lra. unfold r at 4. rewrite rnd_2 by auto.
      rewrite (Rmult_comm w 2). unfold r at 3. rewrite (rnd_double F V w) by (apply rnd_fmt; auto).
      replace (2 * w / 2) with w by lra. unfold r at 2. unfold w at 1, r. rewrite rnd_idem by auto. reflexivity.
    Qed.
    (** the upper corner: off by at most 2u of the width *)
    Lemma corner_err : Rabs (r (w + lb) - ub) <= 2 * u * b.
    Proof.
      generalize (rnd_nearest F V (w + lb) ub Fub) w_err. change (rnd F) with r. intros N We.
      replace (ub - (w + lb)) with (- (w - b)) in N by (unfold b; ring). rewrite Rabs_Ropp in N.
      replace (r (w + lb) - ub) with ((r (w + lb) - (w + lb)) + (w - b)) by (unfold b; ring).
      apply Rle_trans with (1 := Rabs_triang _ _). lra.
    Qed.
    Lemma unn_range : forall x, -1 <= x <= 1 -> lb <= unn lb ub x <= ub + 2 * u * b.
    Proof.
      intros x [H1 H2]. split.
      - rewrite <- unn_m1 at 1. now apply unn_mono.
      - apply Rle_trans with (unn lb ub 1); [now apply unn_mono|]. rewrite unn_1.
        generalize corner_err. dabs; lra.
    Qed.
    Lemma unn_zero : lb = 0 -> unn lb ub 1 = ub.
    Proof.
      intros Z. rewrite unn_1. unfold w. rewrite Z, Rminus_0_r, Rplus_0_r. unfold r. rewrite rnd_idem by auto. now apply fmt_fix.
    Qed.
    Lemma unn_sym : lb = - ub -> unn lb ub 1 = ub.
    Proof.
      intros Z. rewrite unn_1. unfold w. rewrite Z. replace (ub - - ub) with (2 * ub) by ring.
      unfold r at 2. rewrite rnd_double by auto. replace (2 * ub + - ub) with ub by ring. now apply fmt_fix.
    Qed.

    Lemma unn_err : forall x, ff x -> -1 <= x <= 1 ->
      Rabs (unn lb ub x - (b * (x + 1) / 2 + lb)) <= u * (5 * b + Rmax (Rabs lb) (Rabs ub)) + 2 * eta /\
      0 <= r (w * r (x + 1)) <= 2 * w /\ 0 <= r (r (w * r (x + 1)) / 2) <= w.
    Proof.
      intros x Fx [H1 H2]. generalize Hu Heta w_pos w_err. intros U E W We.
      assert (B : 0 < b) by (unfold b; lra). assert (Wu : w <= 17 / 16 * b) by (dabs; nra).
      generalize (rnd_err_add F x 1 Fx (fmt_1 F V)). fold u. change (rnd F) with r.
      rewrite (Rabs_pos_eq (x + 1)) by lra. intros Se.
      set (s := r (x + 1)) in *.
      assert (S0 : 0 <= s) by (apply rnd_nonneg; lra).
      assert (S2 : s <= 2) by (unfold s; rewrite <- (rnd_2 F V); apply rnd_mono; auto; lra).
      generalize (rnd_err F (w * s)). fold u eta. change (rnd F) with r.
      rewrite (Rabs_pos_eq (w * s)) by nra. intros Pe.
      set (p := r (w * s)) in *.
      assert (P0 : 0 <= p) by (apply rnd_nonneg; nra).
      assert (P2 : p <= 2 * w).
      { unfold p. rewrite <- (rnd_double F V w) by (apply rnd_fmt; auto). apply rnd_mono; auto. nra. }
      generalize (rnd_err F (p / 2)). fold u eta. change (rnd F) with r.
      rewrite (Rabs_pos_eq (p / 2)) by lra. intros He.
      set (h := r (p / 2)) in *.
      assert (Hh0 : 0 <= h) by (apply rnd_nonneg; lra).
      assert (Hh2 : h <= w).
      { unfold h. rewrite <- (rnd_idem F V (ub - lb) : r w = w). apply rnd_mono; auto. lra. }
      generalize (rnd_err_add F h lb (rnd_fmt F V _) Flb). fold u. change (rnd F (h + lb)) with (unn lb ub x). intros Re.
      split; [|split; [lra|lra]].
      set (h0 := b * (x + 1) / 2) in *.
      assert (Hh : Rabs (h - h0) <= 17 / 4 * (u * b) + 3 / 2 * eta).
      { assert (K1 : Rabs (w * s - b * (x + 1)) <= 4 * (u * b)).
        { replace (w * s - b * (x + 1)) with ((w - b) * s + b * (s - (x + 1))) by ring.
          apply Rle_trans with (1 := Rabs_triang _ _). rewrite !Rabs_mult, (Rabs_pos_eq s), (Rabs_pos_eq b) by lra.
          assert (Rabs (w - b) * s <= u * b * 2) by (apply Rmult_le_compat; auto; apply Rabs_pos).
          assert (b * Rabs (s - (x + 1)) <= b * (u * 2)) by (apply Rmult_le_compat_l; nra). lra. }
        assert (K2 : u * (w * s) <= 17 / 8 * (u * b)).
        { assert (w * s <= 17 / 8 * b) by nra. assert (0 <= u) by lra. nra. }
        assert (K3 : u * (p / 2) <= 17 / 16 * (u * b)).
        { assert (p / 2 <= 17 / 16 * b) by lra. assert (0 <= u) by lra. nra. }
        replace (h - h0) with ((h - p / 2) + (p - w * s) / 2 + (w * s - b * (x + 1)) / 2) by (unfold h0; field).
        apply Rle_trans with (1 := Rabs_triang _ _).
        apply Rle_trans with (Rabs (h - p / 2) + Rabs ((p - w * s) / 2) + Rabs ((w * s - b * (x + 1)) / 2)); [apply Rplus_le_compat_r, Rabs_triang|].
        rewrite !Rabs_half. assert (0 <= u * b) by nra. lra. }
      assert (Hm : Rabs (h0 + lb) <= Rmax (Rabs lb) (Rabs ub)).
      { assert (lb <= h0 + lb <= ub) by (unfold h0, b in *; nra).
        generalize (Rmax_l (Rabs lb) (Rabs ub)) (Rmax_r (Rabs lb) (Rabs ub)). dabs; lra. }
      set (m := Rmax (Rabs lb) (Rabs ub)) in *.
      assert (Hhl : Rabs (h + lb) <= m + (17 / 4 * (u * b) + 3 / 2 * eta)).
      { replace (h + lb) with ((h0 + lb) + (h - h0)) by ring. apply Rle_trans with (1 := Rabs_triang _ _). lra. }
      assert (K : u * Rabs (h + lb) <= u * m + / 16 * (17 / 4 * (u * b) + 3 / 2 * eta)).
      { apply Rle_trans with (u * (m + (17 / 4 * (u * b) + 3 / 2 * eta))); [apply Rmult_le_compat_l; lra|].
        rewrite Rmult_plus_distr_l. apply Rplus_le_compat_l. assert (0 <= u * b) by nra. apply Rmult_le_compat_r; lra. }
      replace (unn lb ub x - (h0 + lb)) with ((unn lb ub x - (h + lb)) + (h - h0)) by ring.
      apply Rle_trans with (1 := Rabs_triang _ _). assert (0 <= u * b) by nra. lra.
    Qed.

    Lemma round_trip_err : forall x, ff x -> -1 <= x <= 1 ->
      Rabs (nrm lb ub (unn lb ub x) - x) <=
        u * (20 + 2 * (Rmax (Rabs lb) (Rabs ub) / b)) + eta + 4 * (eta / b).
    Proof.
      intros x Fx H. assert (B : 0 < b) by (unfold b; lra).
      destruct (unn_err x Fx H) as [E1 _]. generalize (unn_range x H); intros Z.
      assert (Fz : ff (unn lb ub x)) by (apply rnd_fmt; auto).
      destruct (nrm_err_gen _ Fz Z) as [E2 _]. set (z := unn lb ub x) in *.
      set (m := Rmax (Rabs lb) (Rabs ub)) in *.
      replace (nrm lb ub z - x) with ((nrm lb ub z - (2 * (z - lb) / b - 1)) + 2 / b * (z - (b * (x + 1) / 2 + lb))) by (field; lra).
      apply Rle_trans with (1 := Rabs_triang _ _). rewrite Rabs_mult, (Rabs_pos_eq (2 / b)) by (apply Rmult_le_pos; [lra|left; now apply Rinv_0_lt_compat]).
      assert (K : 2 / b * Rabs (z - (b * (x + 1) / 2 + lb)) <= 2 / b * (u * (5 * b + m) + 2 * eta)).
      { apply Rmult_le_compat_l; [apply Rmult_le_pos; [lra|left; now apply Rinv_0_lt_compat]|exact E1]. }
      replace (2 / b * (u * (5 * b + m) + 2 * eta)) with (u * (10 + 2 * (m / b)) + 4 * (eta / b)) in K by (field; lra).
      lra.
    Qed.
  End Box.
End Scalar.

(** ** Overflow *)
Section Over.
  Variable F : format.
  Hypothesis V : valid F.

  Lemma fl_fin : forall x, Rabs (rnd F x) < bpow (f_emax F) -> fl F (Fin x) = Fin (rnd F x).
  Proof. intros x H. unfold fl. destruct (Rlt_dec _ _); [reflexivity|contradiction]. Qed.
  Lemma fl_small : forall x c, Rabs x <= c -> fmt F c -> c < bpow (f_emax F) -> fl F (Fin x) = Fin (rnd F x).
  Proof.
    intros x c H Hc Hb. apply fl_fin. apply Rle_lt_trans with c; auto.
    rewrite <- (fmt_fix F V c Hc). apply Rabs_le. split.
    - rewrite <- rnd_opp. apply rnd_mono; auto. dabs; lra.
    - apply rnd_mono; auto. dabs; lra.
  Qed.
  Lemma fl_pow : forall x k, Rabs x <= bpow (f_emax F - k) -> (1 <= k <= 4)%Z -> fl F (Fin x) = Fin (rnd F x).
  Proof.
    intros x k H Hk. apply fl_small with (1 := H).
    - apply fmt_pow; auto. generalize (v_prec F V) (v_emin F V) (v_emax F V). lia.
    - apply bpow_lt. lia.
  Qed.

  (** bounds the code can work with *)
  Definition box (lb ub : R) : Prop :=
    fmt F lb /\ fmt F ub /\ lb < ub /\ Rabs lb <= bpow (f_emax F - 3) /\ Rabs ub <= bpow (f_emax F - 3).

  Lemma pow_steps : let T := bpow (f_emax F - 3) in
    bpow (f_emax F - 2) = 2 * T /\ bpow (f_emax F - 1) = 4 * T /\ bpow (f_emax F) = 8 * T /\ 2 <= T.
  Proof.
    cbv zeta. set (e := f_emax F).
    assert (A : bpow (e - 2) = 2 * bpow (e - 3)) by (rewrite <- bpow_S; f_equal; lia).
    assert (B : bpow (e - 1) = 2 * bpow (e - 2)) by (rewrite <- bpow_S; f_equal; lia).
    assert (C : bpow e = 2 * bpow (e - 1)) by (rewrite <- bpow_S; f_equal; lia).
    assert (D : bpow 1 <= bpow (e - 3)) by (apply bpow_le; generalize (v_emax F V); unfold e; lia).
    rewrite bpow_1 in D. lra.
  Qed.

  Lemma width_fin : forall lb ub, box lb ub -> fsub F (Fin ub) (Fin lb) = Fin (rnd F (ub - lb)).
  Proof.
    intros lb ub (A & B & C & D & E). destruct pow_steps as (P2 & P1 & _ & PT).
    unfold fsub. cbn [xsub xneg xadd]. replace (ub + - lb) with (ub - lb) by ring.
    apply fl_pow with 2%Z; [|lia]. rewrite P2. dabs; lra.
  Qed.

  Lemma normalize_entry : forall lb ub x, box lb ub -> fmt F x -> lb <= x <= ub + 2 * ulp1 F * (ub - lb) ->
    fsub F (fdiv F (fmul F (Fin 2) (fsub F (Fin x) (Fin lb))) (fsub F (Fin ub) (Fin lb))) (Fin 1) = Fin (nrm F lb ub x).
  Proof.
    intros lb ub x Bx Fx Hx. rewrite (width_fin lb ub Bx).
    destruct Bx as (A & B & C & D & E). destruct pow_steps as (P2 & P1 & P0 & PT).
    destruct (nrm_err_gen F V lb ub A B C x Fx Hx) as (_ & T1 & T2 & T3).
    assert (W := w_pos F V lb ub A B C). set (w := rnd F (ub - lb)) in *.
    generalize (ulp1_le F V) (ulp1_pos F); intros U1 U0.
    assert (X1 : 0 <= x - lb) by lra.
    assert (X3 : ub - lb <= 2 * bpow (f_emax F - 3)) by (dabs; lra).
    assert (X2 : x - lb <= 4 * bpow (f_emax F - 3)) by nra.
    unfold fsub at 2. cbn [xsub xneg xadd]. replace (x + - lb) with (x - lb) by ring.
    rewrite (fl_pow (x - lb) 1) by (rewrite ?P1, ?Rabs_pos_eq by lra; lia || lra).
    assert (R0 : 0 <= rnd F (x - lb)) by (apply rnd_nonneg; lra).
    unfold fmul. cbn [xmul]. rewrite fl_fin.
    2:{ rewrite rnd_double by (auto; apply rnd_fmt; auto). rewrite Rabs_pos_eq by lra. rewrite P0. lra. }
    rewrite rnd_double by (auto; apply rnd_fmt; auto).
    unfold fdiv. rewrite xdiv_fin by lra.
    rewrite fl_fin by (rewrite P0, Rabs_pos_eq by lra; lra).
    unfold fsub. cbn [xsub xneg xadd]. unfold nrm. fold w.
    set (q := rnd F (2 * rnd F (x - lb) / w)) in *. replace (q + - (1)) with (q - 1) by ring.
    apply fl_pow with 1%Z; [|lia]. rewrite P1. dabs; lra.
  Qed.

  Lemma unnormalize_entry : forall lb ub x, box lb ub -> fmt F x -> -1 <= x <= 1 ->
    fadd F (fdiv F (fmul F (fsub F (Fin ub) (Fin lb)) (fadd F (Fin x) (Fin 1))) (Fin 2)) (Fin lb) = Fin (unn F lb ub x).
  Proof.
    intros lb ub x Bx Fx Hx. rewrite (width_fin lb ub Bx).
    destruct Bx as (A & B & C & D & E). destruct pow_steps as (P2 & P1 & P0 & PT).
    destruct (unn_err F V lb ub A B C x Fx Hx) as (_ & T1 & T2).
    assert (W := w_pos F V lb ub A B C).
    assert (W2 : rnd F (ub - lb) <= bpow (f_emax F - 2)).
    { rewrite <- (fmt_fix F V (bpow (f_emax F - 2))).
      - apply rnd_mono; auto. rewrite P2. dabs; lra.
      - apply fmt_pow; auto. generalize (v_prec F V) (v_emin F V) (v_emax F V). lia. }
    rewrite P2 in W2. set (w := rnd F (ub - lb)) in *.
    unfold fadd at 2. cbn [xadd]. rewrite (fl_pow (x + 1) 1) by (rewrite ?P1, ?Rabs_pos_eq by lra; lia || lra).
    unfold fmul. cbn [xmul]. rewrite fl_fin by (rewrite P0, Rabs_pos_eq by lra; lra).
    unfold fdiv. rewrite xdiv_fin by lra. rewrite fl_fin by (rewrite P0, Rabs_pos_eq by lra; lra).
    unfold fadd. cbn [xadd]. unfold unn. fold w.
    apply fl_pow with 1%Z; [|lia]. rewrite P1. dabs; lra.
  Qed.

  Section Arr.
    Variables (s : BoundedNormalizer) (m : nat) (lb ub : nat -> R).
    Hypothesis Hlb : shape (bn_lb s) = [1%nat; m].
    Hypothesis Hub : shape (bn_ub s) = [1%nat; m].
    Hypothesis Elb : forall j, (j < m)%nat -> (bn_lb s).[0%nat, j] = Fin (lb j).
    Hypothesis Eub : forall j, (j < m)%nat -> (bn_ub s).[0%nat, j] = Fin (ub j).

    Lemma width_fl_ok : exists w, bcast2 (fsub F) (bn_ub s) (bn_lb s) = Ok w /\ shape w = [1%nat; m] /\
      forall j, (j < m)%nat -> w.[0%nat, j] = fsub F (Fin (ub j)) (Fin (lb j)).
    Proof.
      destruct (bcast2_same _ _ _ (fsub F) (bn_ub s) (bn_lb s) 1 m Hub Hlb) as (w & W1 & W2 & W3).
      exists w. repeat split; auto. intros j Hj. rewrite W3 by auto. rewrite Elb, Eub by auto. reflexivity.
    Qed.

    Lemma bounded_normalize_fl_ok : forall (X : nd xr) M, shape X = [M; m] ->
      exists Y, bounded_normalize_fl F s X = Ok Y /\ shape Y = [M; m] /\
      forall i j, (i < M)%nat -> (j < m)%nat ->
        Y.[i, j] = fsub F (fdiv F (fmul F (Fin 2) (fsub F (X.[i, j]) (Fin (lb j)))) (fsub F (Fin (ub j)) (Fin (lb j)))) (Fin 1).
    Proof.
      intros X M HX. unfold bounded_normalize_fl.
      destruct (process_inputs_ok _ X M m HX) as (X' & E1 & [S1 Q1]). rewrite E1. simpl rbind.
      rewrite HX in S1.
      destruct (bcast2_row _ _ _ (fsub F) X' (bn_lb s) M m S1 Hlb) as (d & D1 & D2 & D3). rewrite D1. simpl rbind.
      destruct width_fl_ok as (w & W1 & W2 & W3). rewrite W1. simpl rbind.
      destruct (bcast2_row _ _ _ (fdiv F) (amap (fmul F (Fin 2)) d) w M m D2 W2) as (q & P1 & P2 & P3).
      rewrite P1. simpl rbind. eexists. split; [reflexivity|]. split; [exact P2|].
      intros i j Hi Hj. unfold amap; simpl at_. rewrite P3 by auto. unfold amap; simpl at_. rewrite D3 by auto.
      rewrite W3, Elb by auto.
      rewrite (eqnd_at2 _ X' X M m i j (conj (eq_trans S1 (eq_sym HX)) Q1) S1 Hi Hj). reflexivity.
    Qed.

    Lemma bounded_unnormalize_fl_ok : forall (X : nd xr) M, shape X = [M; m] ->
      exists Y, bounded_unnormalize_fl F s X = Ok Y /\ shape Y = [M; m] /\
      forall i j, (i < M)%nat -> (j < m)%nat ->
        Y.[i, j] = fadd F (fdiv F (fmul F (fsub F (Fin (ub j)) (Fin (lb j))) (fadd F (X.[i, j]) (Fin 1))) (Fin 2)) (Fin (lb j)).
    Proof.
      intros X M HX. unfold bounded_unnormalize_fl.
      destruct (process_inputs_ok _ X M m HX) as (X' & E1 & [S1 Q1]). rewrite E1. simpl rbind.
      rewrite HX in S1.
      destruct width_fl_ok as (w & W1 & W2 & W3). rewrite W1. simpl rbind.
      assert (HP : exists p, bcast2 (fmul F) w (amap (fun a => fadd F a (Fin 1)) X') = Ok p /\ shape p = [M; m] /\
         forall i j, (i < M)%nat -> (j < m)%nat -> p.[i, j] = fmul F (w.[0%nat, j]) (fadd F (X'.[i, j]) (Fin 1))).
      { unfold bcast2. rewrite W2. unfold amap at 1 2. simpl shape. rewrite S1.
        assert (E : bdim 1 M = Some M) by (unfold bdim; destruct M as [|[|M]]; reflexivity).
        unfold bdim at 2. rewrite E, Nat.eqb_refl. eexists. split; [reflexivity|]. split; [reflexivity|].
        intros i j Hi Hj. rewrite at_mk2, !(bidx_ok m), (bidx_ok M) by auto. reflexivity. }
      destruct HP as (p & P1 & P2 & P3). rewrite P1. simpl rbind.
      destruct (bcast2_row _ _ _ (fadd F) (amap (fun a => fdiv F a (Fin 2)) p) (bn_lb s) M m P2 Hlb) as (q & Q1' & Q2 & Q3).
      exists q. split; [exact Q1'|]. split; [exact Q2|]. intros i j Hi Hj.
      rewrite Q3 by auto. unfold amap; simpl at_. rewrite P3, W3, Elb by auto.
      rewrite (eqnd_at2 _ X' X M m i j (conj (eq_trans S1 (eq_sym HX)) Q1) S1 Hi Hj). reflexivity.
    Qed.
  End Arr.
End Over.

(** ** Sums and dot products in any order *)
Lemma sumr_abs_le : forall (f : nat -> R) l, Rabs (sumr (map f l)) <= sumr (map (fun i => Rabs (f i)) l).
Proof.
  induction l; simpl; [rewrite Rabs_R0; lra|]. apply Rle_trans with (1 := Rabs_triang _ _). lra.
Qed.
Lemma sumr_abs_pos : forall (f : nat -> R) l, 0 <= sumr (map (fun i => Rabs (f i)) l).
Proof. induction l; simpl; [lra|]. generalize (Rabs_pos (f a)). lra. Qed.
Lemma sumr_perm_seq : forall (f : nat -> R) l n, Permutation l (seq 0 n) -> sumr (map f l) = sumf n f.
Proof. intros. rewrite <- sumr_map_seq. apply sumr_perm, Permutation_map. auto. Qed.

Section Sums.
  Variable F : format.
  Hypothesis V : valid F.
  Let u := ulp1 F.
  Let h := eta F.
  Let G (d : nat) := (1 + u) ^ d.

  Lemma G1 : forall d, 1 <= G d.
  Proof. intros. apply pow_R1_Rle. generalize (ulp1_pos F). unfold u. lra. Qed.
  Lemma Gmono : forall a b, (a <= b)%nat -> G a <= G b.
  Proof. intros. apply Rle_pow; auto. generalize (ulp1_pos F). unfold u. lra. Qed.

  Lemma dfl_fmt : forall t x w, fmt F (dfl F t x w).
  Proof. destruct t; intros; apply rnd_fmt; auto. Qed.

  Lemma dfl_err : forall t x w,
    let S := sumr (map (fun i => x i * w i) (dleaves t)) in
    let A := sumr (map (fun i => Rabs (x i * w i)) (dleaves t)) in
    Rabs (dfl F t x w - S) <= (G (ddepth t) - 1) * A + G (ddepth t) * INR (List.length (dleaves t)) * h.
  Proof.
    assert (U : 0 < u) by apply ulp1_pos. assert (Eh : 0 < h) by apply eta_pos.
    induction t as [i|t IH i|l IHl r IHr]; intros x w; cbv zeta.
    - simpl. generalize (rnd_err F (x i * w i)). fold u h. unfold G. simpl.
      replace (x i * w i + 0) with (x i * w i) by ring. intros E. assert (0 <= u * h) by nra. lra.
    - specialize (IH x w). cbv zeta in IH. cbn [dleaves dfl ddepth]. rewrite !map_app, !sumr_app, app_length.
      cbn [map sumr List.length]. rewrite plus_INR. cbn [INR]. rewrite !Rplus_0_r.
      set (S := sumr (map (fun i => x i * w i) (dleaves t))) in *.
      set (A := sumr (map (fun i => Rabs (x i * w i)) (dleaves t))) in *.
      set (n := INR (List.length (dleaves t))) in *. assert (N : 0 <= n) by apply pos_INR.
      set (a := dfl F t x w) in *. set (y := x i * w i) in *.
      generalize (rnd_err F (a + y)). fold u h. intros E.
      assert (SA : Rabs S <= A) by apply sumr_abs_le.
      assert (A0 : 0 <= A) by apply sumr_abs_pos.
      assert (Y : Rabs (a + y) <= A + Rabs y + ((G (ddepth t) - 1) * A + G (ddepth t) * n * h)).
      { replace (a + y) with ((S + y) + (a - S)) by ring. apply Rle_trans with (1 := Rabs_triang _ _).
        generalize (Rabs_triang S y). lra. }
      replace (rnd F (a + y) - (S + y)) with ((rnd F (a + y) - (a + y)) + (a - S)) by ring.
      apply Rle_trans with (1 := Rabs_triang _ _).
      assert (GS : G (Datatypes.S (ddepth t)) = (1 + u) * G (ddepth t)) by reflexivity. rewrite GS.
      generalize (G1 (ddepth t)). intros g. set (g0 := G (ddepth t)) in *.
      assert (UE : u * Rabs (a + y) <= u * (A + Rabs y + ((g0 - 1) * A + g0 * n * h))) by (apply Rmult_le_compat_l; lra).
      generalize (Rabs_pos y); intros Y0. set (b := Rabs y) in *.
      assert (M1 : (1 + u) * (g0 - 1) * A <= (1 + u) * (g0 - 1) * (A + b)) by (apply Rmult_le_compat_l; [nra|lra]).
      assert (M2 : h <= (1 + u) * g0 * 1 * h).
      { assert (q : 1 <= (1 + u) * g0 * 1) by nra. apply (Rmult_le_compat_r h) in q; lra. }
      replace (((1 + u) * g0 - 1) * (A + b) + (1 + u) * g0 * (n + 1) * h)
        with (u * (A + b) + (1 + u) * (g0 - 1) * (A + b) + (1 + u) * g0 * n * h + (1 + u) * g0 * 1 * h) by ring.
      replace (u * (A + b + ((g0 - 1) * A + g0 * n * h))) with (u * (A + b) + u * ((g0 - 1) * A) + u * (g0 * n * h)) in UE by ring.
      replace ((1 + u) * (g0 - 1) * A) with (u * ((g0 - 1) * A) + (g0 - 1) * A) in M1 by ring.
      replace ((1 + u) * g0 * n * h) with (u * (g0 * n * h) + g0 * n * h) by ring. lra.
    - specialize (IHl x w). specialize (IHr x w). cbv zeta in IHl, IHr. cbn [dleaves dfl ddepth].
      rewrite !map_app, !sumr_app, app_length, plus_INR.
      generalize (rnd_err_add F _ _ (dfl_fmt l x w) (dfl_fmt r x w)). fold u. intros E.
      set (S1 := sumr (map (fun i => x i * w i) (dleaves l))) in *.
      set (A1 := sumr (map (fun i => Rabs (x i * w i)) (dleaves l))) in *.
      set (S2 := sumr (map (fun i => x i * w i) (dleaves r))) in *.
      set (A2 := sumr (map (fun i => Rabs (x i * w i)) (dleaves r))) in *.
      set (n1 := INR (List.length (dleaves l))) in *. set (n2 := INR (List.length (dleaves r))) in *.
      assert (N1 : 0 <= n1) by apply pos_INR. assert (N2 : 0 <= n2) by apply pos_INR.
      assert (SA1 : Rabs S1 <= A1) by apply sumr_abs_le. assert (SA2 : Rabs S2 <= A2) by apply sumr_abs_le.
      assert (P1 : 0 <= A1) by apply sumr_abs_pos. assert (P2 : 0 <= A2) by apply sumr_abs_pos.
      set (a1 := dfl F l x w) in *. set (a2 := dfl F r x w) in *.
      set (d := Nat.max (ddepth l) (ddepth r)).
      assert (GS : G (Datatypes.S d) = (1 + u) * G d) by reflexivity. rewrite GS.
      generalize (G1 d) (Gmono (ddepth l) d ltac:(lia)) (Gmono (ddepth r) d ltac:(lia)). intros g gl gr.
      set (g0 := G d) in *.
      assert (B1 : Rabs (a1 - S1) <= (g0 - 1) * A1 + g0 * n1 * h).
      { apply Rle_trans with (1 := IHl). apply Rplus_le_compat; [apply Rmult_le_compat_r; lra|].
        rewrite !Rmult_assoc. apply Rmult_le_compat_r; [nra|lra]. }
      assert (B2 : Rabs (a2 - S2) <= (g0 - 1) * A2 + g0 * n2 * h).
      { apply Rle_trans with (1 := IHr). apply Rplus_le_compat; [apply Rmult_le_compat_r; lra|].
        rewrite !Rmult_assoc. apply Rmult_le_compat_r; [nra|lra]. }
      assert (B : Rabs ((a1 + a2) - (S1 + S2)) <= (g0 - 1) * (A1 + A2) + g0 * (n1 + n2) * h).
      { replace ((a1 + a2) - (S1 + S2)) with ((a1 - S1) + (a2 - S2)) by ring.
        apply Rle_trans with (1 := Rabs_triang _ _). lra. }
      set (T := S1 + S2) in *. set (a := a1 + a2) in *.
      assert (TA : Rabs T <= A1 + A2) by (unfold T; generalize (Rabs_triang S1 S2); lra).
      assert (Ra : Rabs a <= (A1 + A2) + ((g0 - 1) * (A1 + A2) + g0 * (n1 + n2) * h)).
      { replace a with (T + (a - T)) by ring. apply Rle_trans with (1 := Rabs_triang _ _). lra. }
      assert (UE : u * Rabs a <= u * ((A1 + A2) + ((g0 - 1) * (A1 + A2) + g0 * (n1 + n2) * h))) by (apply Rmult_le_compat_l; lra).
      replace (rnd F a - T) with ((rnd F a - a) + (a - T)) by ring.
      apply Rle_trans with (1 := Rabs_triang _ _).
      replace (((1 + u) * g0 - 1) * (A1 + A2) + (1 + u) * g0 * (n1 + n2) * h)
        with (u * ((A1 + A2) + ((g0 - 1) * (A1 + A2) + g0 * (n1 + n2) * h)) + ((g0 - 1) * (A1 + A2) + g0 * (n1 + n2) * h)) by ring.
      lra.
  Qed.

  Lemma np_sign_abs : forall x, x * np_sign x = Rabs x.
  Proof. intros x. unfold np_sign. dabs; destruct (Rlt_dec 0 x); try destruct (Rlt_dec x 0); lra. Qed.

  (** in one and the same order, a point of the cube never gets past the corner *)
  Lemma dfl_corner : forall t x w, (forall i, In i (dleaves t) -> Rabs (x i) <= 1) ->
    Rabs (dfl F t x w) <= dfl F t w (fun i => np_sign (w i)).
  Proof.
    assert (K : forall a b, Rabs a <= b -> Rabs (rnd F a) <= rnd F b).
    { intros a b H. apply Rabs_le. split.
      - rewrite <- rnd_opp. apply rnd_mono; auto. dabs; lra.
      - apply rnd_mono; auto. dabs; lra. }
    assert (P : forall a b, Rabs a <= 1 -> Rabs (a * b) <= Rabs b).
    { intros a b H. rewrite Rabs_mult. generalize (Rabs_pos a) (Rabs_pos b). nra. }
    induction t as [i|t IH i|l IHl r IHr]; intros x w H; cbn [dfl]; apply K.
    - rewrite np_sign_abs. apply P, H. simpl. auto.
    - rewrite np_sign_abs. apply Rle_trans with (1 := Rabs_triang _ _). apply Rplus_le_compat.
      + apply IH. intros k Hk. apply H. simpl. rewrite in_app_iff. auto.
      + apply P, H. simpl. rewrite in_app_iff. simpl. auto.
    - apply Rle_trans with (1 := Rabs_triang _ _). apply Rplus_le_compat.
      + apply IHl. intros k Hk. apply H. simpl. rewrite in_app_iff. auto.
      + apply IHr. intros k Hk. apply H. simpl. rewrite in_app_iff. auto.
  Qed.
  Lemma dfl_comm : forall t x w, dfl F t x w = dfl F t w x.
  Proof.
    induction t as [i|t IH i|l IHl r IHr]; intros; cbn [dfl].
    - now rewrite Rmult_comm.
    - now rewrite IH, (Rmult_comm (x i)).
    - now rewrite IHl, IHr.
  Qed.

  Lemma sfl_fmt : forall t x, (forall i, In i (sleaves t) -> fmt F (x i)) -> fmt F (sfl F t x).
  Proof. destruct t; intros x H; simpl; [apply H; simpl; auto|apply rnd_fmt; auto]. Qed.
  Lemma sfl_nonneg : forall t x, (forall i, In i (sleaves t) -> 0 <= x i) -> 0 <= sfl F t x.
  Proof.
    induction t as [i|l IHl r IHr]; intros x H; simpl; [apply H; simpl; auto|].
    apply rnd_nonneg. apply Rplus_le_le_0_compat; [apply IHl|apply IHr]; intros i Hi; apply H; simpl; rewrite in_app_iff; auto.
  Qed.
  Lemma sfl_err : forall t x, (forall i, In i (sleaves t) -> fmt F (x i)) ->
    Rabs (sfl F t x - sumr (map x (sleaves t))) <= (G (sdepth t) - 1) * sumr (map (fun i => Rabs (x i)) (sleaves t)).
  Proof.
    assert (U : 0 < u) by apply ulp1_pos.
    induction t as [i|l IHl r IHr]; intros x H.
    - simpl. rewrite Rplus_0_r, Rminus_eq_0, Rabs_R0. unfold G. simpl. lra.
    - assert (Hl : forall i, In i (sleaves l) -> fmt F (x i)) by (intros; apply H; simpl; rewrite in_app_iff; auto).
      assert (Hr : forall i, In i (sleaves r) -> fmt F (x i)) by (intros; apply H; simpl; rewrite in_app_iff; auto).
      specialize (IHl x Hl). specialize (IHr x Hr). cbn [sleaves sfl sdepth]. rewrite !map_app, !sumr_app.
      generalize (rnd_err_add F _ _ (sfl_fmt l x Hl) (sfl_fmt r x Hr)). fold u. intros E.
      assert (SA1 := sumr_abs_le x (sleaves l)). assert (SA2 := sumr_abs_le x (sleaves r)).
      assert (P1 := sumr_abs_pos x (sleaves l)). assert (P2 := sumr_abs_pos x (sleaves r)).
      set (S1 := sumr (map x (sleaves l))) in *. set (A1 := sumr (map (fun i => Rabs (x i)) (sleaves l))) in *.
      set (S2 := sumr (map x (sleaves r))) in *. set (A2 := sumr (map (fun i => Rabs (x i)) (sleaves r))) in *.
      set (a1 := sfl F l x) in *. set (a2 := sfl F r x) in *.
      set (d := Nat.max (sdepth l) (sdepth r)).
      assert (GS : G (Datatypes.S d) = (1 + u) * G d) by reflexivity. rewrite GS.
      generalize (G1 d) (Gmono (sdepth l) d ltac:(lia)) (Gmono (sdepth r) d ltac:(lia)). intros g gl gr.
      set (g0 := G d) in *.
      assert (B1 : Rabs (a1 - S1) <= (g0 - 1) * A1) by (apply Rle_trans with (1 := IHl); apply Rmult_le_compat_r; lra).
      assert (B2 : Rabs (a2 - S2) <= (g0 - 1) * A2) by (apply Rle_trans with (1 := IHr); apply Rmult_le_compat_r; lra).
      assert (B : Rabs ((a1 + a2) - (S1 + S2)) <= (g0 - 1) * (A1 + A2)).
      { replace ((a1 + a2) - (S1 + S2)) with ((a1 - S1) + (a2 - S2)) by ring.
        apply Rle_trans with (1 := Rabs_triang _ _). lra. }
      set (T := S1 + S2) in *. set (a := a1 + a2) in *.
      assert (TA : Rabs T <= A1 + A2) by (unfold T; generalize (Rabs_triang S1 S2); lra).
      assert (Ra : Rabs a <= g0 * (A1 + A2)).
      { replace a with (T + (a - T)) by ring. apply Rle_trans with (1 := Rabs_triang _ _). lra. }
      assert (UE : u * Rabs a <= u * (g0 * (A1 + A2))) by (apply Rmult_le_compat_l; lra).
      replace (rnd F a - T) with ((rnd F a - a) + (a - T)) by ring.
      apply Rle_trans with (1 := Rabs_triang _ _).
      replace (((1 + u) * g0 - 1) * (A1 + A2)) with (u * (g0 * (A1 + A2)) + (g0 - 1) * (A1 + A2)) by ring. lra.
  Qed.

  (** [ord n] adds up all n entries, each once *)
  Definition adds_all (ord : nat -> stree) : Prop := forall n, (0 < n)%nat -> Permutation (sleaves (ord n)) (seq 0 n).

  Lemma mean_err : forall ord l, adds_all ord -> l <> [] -> (forall x, In x l -> fmt F x) ->
    let n := List.length l in
    Rabs (mean_fl F ord l - sumr l / INR n) <=
      (G (S (sdepth (ord n))) - 1) * (sumr (map Rabs l) / INR n) + h.
  Proof.
    intros ord l Ho Hl Hf n. assert (U : 0 < u) by apply ulp1_pos.
    assert (N : (0 < n)%nat) by (destruct l; [contradiction|unfold n; simpl; lia]).
    assert (NI : 0 < INR n) by now apply lt_0_INR.
    assert (Q := Ho n N).
    assert (Fx : forall i, In i (sleaves (ord n)) -> fmt F (nth i l 0)).
    { intros i Hi. apply Hf, nth_In. apply (Permutation_in i Q) in Hi. apply in_seq in Hi. unfold n in Hi; lia. }
    assert (E := sfl_err (ord n) (fun i => nth i l 0) Fx).
    rewrite (sumr_perm_seq _ _ _ Q), (sumr_perm_seq _ _ _ Q) in E.
    assert (S1 : sumf n (fun i => nth i l 0) = sumr l) by (symmetry; apply sumr_nth).
    assert (S2 : sumf n (fun i => Rabs (nth i l 0)) = sumr (map Rabs l)).
    { rewrite sumr_nth, map_length. fold n. apply sumf_ext. intros i Hi.
      rewrite (nth_indep (map Rabs l) 0 (Rabs 0)) by (rewrite map_length; exact Hi). now rewrite map_nth. }
    rewrite S1, S2 in E. unfold mean_fl. fold n. set (a := sfl F (ord n) (fun i => nth i l 0)) in *.
    set (A := sumr (map Rabs l)) in *. set (S := sumr l) in *.
    assert (SA : Rabs S <= A).
    { rewrite <- S1, <- S2. apply sumf_abs. }
    assert (A0 : 0 <= A) by (generalize (Rabs_pos S); lra).
    assert (GS : G (Datatypes.S (sdepth (ord n))) = (1 + u) * G (sdepth (ord n))) by reflexivity. rewrite GS.
    generalize (G1 (sdepth (ord n))). intros g. set (g0 := G (sdepth (ord n))) in *.
    assert (RA : Rabs a <= g0 * A).
    { replace a with (S + (a - S)) by ring. apply Rle_trans with (1 := Rabs_triang _ _). lra. }
    assert (I0 : 0 < / INR n) by now apply Rinv_0_lt_compat.
    generalize (rnd_err F (a / INR n)). fold u h. unfold Rdiv. rewrite Rabs_mult, (Rabs_pos_eq (/ INR n)) by lra. intros R0.
    replace (rnd F (a * / INR n) - S * / INR n) with ((rnd F (a * / INR n) - a * / INR n) + (a - S) * / INR n) by ring.
    apply Rle_trans with (1 := Rabs_triang _ _). rewrite (Rabs_mult (a - S)), (Rabs_pos_eq (/ INR n)) by lra.
    set (v := / INR n) in *.
    assert (K1 : u * (Rabs a * v) <= u * (g0 * A * v)) by (apply Rmult_le_compat_l; [lra|apply Rmult_le_compat_r; lra]).
    assert (K2 : Rabs (a - S) * v <= (g0 - 1) * A * v) by (apply Rmult_le_compat_r; lra).
    replace (((1 + u) * g0 - 1) * (A * v)) with (u * (g0 * A * v) + (g0 - 1) * A * v) by ring. lra.
  Qed.

  Lemma mean_nonneg : forall ord l, (forall x, In x l -> 0 <= x) -> 0 <= mean_fl F ord l.
  Proof.
    intros ord l H. unfold mean_fl. apply rnd_nonneg. destruct (Nat.eq_dec (List.length l) 0) as [e|e].
    - rewrite e. simpl. unfold Rdiv. rewrite Rinv_0. lra.
    - apply Rmult_le_pos; [|left; apply Rinv_0_lt_compat, lt_0_INR; lia].
      apply sfl_nonneg. intros i _. destruct (Nat.lt_ge_cases i (List.length l)).
      + apply H, nth_In. auto.
      + rewrite nth_overflow by auto. lra.
  Qed.
  Lemma var_nonneg : forall ord l, 0 <= var_fl F ord l.
  Proof.
    intros ord l. unfold var_fl. apply mean_nonneg. intros x Hx. apply in_map_iff in Hx. destruct Hx as (y & <- & _).
    apply rnd_nonneg. nra.
  Qed.
End Sums.
