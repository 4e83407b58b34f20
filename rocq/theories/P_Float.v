(** Rounding: the facts about [rnd] used in Properties_Float.v *)
From Coq Require Import Reals Lra Lia ZArith List Bool R_Ifp.
From Verif Require Import Prelude Py NumArr M_Misc M_Float.
Import ListNotations.
Open Scope R_scope.

Record valid (F : format) : Prop := {
  v_prec : (4 <= f_prec F)%Z;
  v_emin : (f_emin F <= 1 - f_prec F)%Z;
  v_emax : (4 <= f_emax F)%Z
}.

(** ** Powers of two *)
Lemma bpow_pos : forall e, 0 < bpow e.
Proof. intros. unfold bpow. apply powerRZ_lt. lra. Qed.
Lemma bpow_neq : forall e, bpow e <> 0.
Proof. intros e. generalize (bpow_pos e). lra. Qed.
Lemma bpow_add : forall a b, bpow (a + b) = bpow a * bpow b.
Proof. intros. unfold bpow. apply powerRZ_add. lra. Qed.
Lemma bpow_0 : bpow 0 = 1. Proof. reflexivity. Qed.
Lemma bpow_1 : bpow 1 = 2. Proof. unfold bpow. simpl. lra. Qed.
Lemma bpow_IZR : forall e, (0 <= e)%Z -> bpow e = IZR (2 ^ e).
Proof.
  intros e He. unfold bpow. destruct e; simpl; try lia; auto.
  - rewrite pow_IZR. f_equal. rewrite positive_nat_Z. reflexivity.
Qed.
Lemma bpow_le : forall a b, (a <= b)%Z -> bpow a <= bpow b.
Proof.
  intros a b H. replace b with (a + (b - a))%Z by lia. rewrite bpow_add.
  rewrite (bpow_IZR (b - a)) by lia. assert (1 <= 2 ^ (b - a))%Z by (apply (Z.pow_le_mono_r 2 0); lia).
  apply IZR_le in H0. generalize (bpow_pos a). nra.
Qed.
Lemma bpow_lt : forall a b, (a < b)%Z -> bpow a < bpow b.
Proof.
  intros a b H. replace b with (a + (b - a))%Z by lia. rewrite bpow_add.
  rewrite (bpow_IZR (b - a)) by lia. assert (1 < 2 ^ (b - a))%Z by (apply Z.pow_gt_1; lia).
  apply IZR_lt in H0. generalize (bpow_pos a). nra.
Qed.
Lemma bpow_inj_lt : forall a b, bpow a < bpow b -> (a < b)%Z.
Proof.
  intros a b H. destruct (Z_lt_dec a b); auto. assert (b <= a)%Z by lia. apply bpow_le in H0. lra.
Qed.
Lemma bpow_sub : forall a b, bpow (a - b) = bpow a / bpow b.
Proof.
  intros. replace (bpow a) with (bpow (a - b + b)) by (f_equal; lia).
  rewrite bpow_add. field. apply bpow_neq.
Qed.
Lemma bpow_S : forall a, bpow (a + 1) = 2 * bpow a.
Proof. intros. rewrite bpow_add, bpow_1. lra. Qed.

Lemma mag_spec : forall x, x <> 0 -> bpow (mag x) <= Rabs x < bpow (mag x + 1).
Proof.
  intros x Hx. assert (P : 0 < Rabs x) by now apply Rabs_pos_lt.
  assert (L2 : 0 < ln 2) by (rewrite <- ln_1; apply ln_increasing; lra).
  unfold mag. set (t := ln (Rabs x) / ln 2).
  destruct (base_Int_part t) as [H1 H2].
  assert (E : forall e, bpow e = exp (IZR e * ln 2)).
  { intros e. unfold bpow. rewrite powerRZ_Rpower by lra. reflexivity. }
  assert (T : Rabs x = exp (t * ln 2)).
  { unfold t. replace (ln (Rabs x) / ln 2 * ln 2) with (ln (Rabs x)) by (field; lra). now rewrite exp_ln. }
  rewrite !E, T. split.
  - destruct (Rle_lt_or_eq_dec _ _ H1) as [h|h]; [left; apply exp_increasing; nra | rewrite h; lra].
  - apply exp_increasing. rewrite plus_IZR. nra.
Qed.
Lemma mag_unique : forall x e, bpow e <= Rabs x < bpow (e + 1) -> mag x = e.
Proof.
  intros x e [H1 H2]. assert (Hx : x <> 0).
  { intros ->. rewrite Rabs_R0 in H1. generalize (bpow_pos e). lra. }
  destruct (mag_spec x Hx) as [M1 M2].
  assert (A : bpow e < bpow (mag x + 1)) by lra. assert (B : bpow (mag x) < bpow (e + 1)) by lra.
  apply bpow_inj_lt in A. apply bpow_inj_lt in B. lia.
Qed.
Lemma mag_le : forall x y, x <> 0 -> Rabs x <= Rabs y -> (mag x <= mag y)%Z.
Proof.
  intros x y Hx H. assert (Hy : y <> 0).
  { intros ->. rewrite Rabs_R0 in H. generalize (Rabs_pos_lt x Hx). lra. }
  destruct (mag_spec x Hx), (mag_spec y Hy).
  assert (A : bpow (mag x) < bpow (mag y + 1)) by lra. apply bpow_inj_lt in A. lia.
Qed.
Lemma mag_opp : forall x, mag (- x) = mag x.
Proof. intros. unfold mag. now rewrite Rabs_Ropp. Qed.
Lemma cexp_opp : forall F x, cexp F (- x) = cexp F x.
Proof. intros. unfold cexp. now rewrite mag_opp. Qed.

(** ** The nearest integer *)
Lemma near_spec : forall x, - / 2 <= IZR (near x) - x <= / 2.
Proof.
  intros x. unfold near. destruct (base_Int_part x) as [H1 H2].
  destruct (Rlt_dec _ _); [lra|]. destruct (Rlt_dec _ _); [rewrite plus_IZR; lra|].
  destruct (Z.even _); [lra|rewrite plus_IZR; lra].
Qed.
Lemma int_part_unique : forall x n, IZR n <= x < IZR n + 1 -> Int_part x = n.
Proof.
  intros x n [H1 H2]. destruct (base_Int_part x) as [A B].
  assert (IZR (Int_part x) < IZR (n + 1)) by (rewrite plus_IZR; lra).
  assert (IZR n < IZR (Int_part x + 1)) by (rewrite plus_IZR; lra).
  apply lt_IZR in H. apply lt_IZR in H0. lia.
Qed.
Lemma near_IZR : forall n, near (IZR n) = n.
Proof.
  intros n. unfold near. rewrite (int_part_unique (IZR n) n) by lra.
  destruct (Rlt_dec _ _); [reflexivity|]. exfalso; lra.
Qed.
Lemma near_mono : forall x y, x <= y -> (near x <= near y)%Z.
Proof.
  intros x y H. destruct (Z_le_dec (near x) (near y)); auto. exfalso.
  assert (G : (near y + 1 <= near x)%Z) by lia. apply IZR_le in G. rewrite plus_IZR in G.
  generalize (near_spec x) (near_spec y); intros X Y.
  assert (x = y) by lra. subst y. lia.
Qed.
Lemma near_lt : forall x n, Rabs (x - IZR n) < / 2 -> near x = n.
Proof.
  intros x n H. generalize (near_spec x); intros S.
  assert (-1 < IZR (near x) - IZR n < 1) by (unfold Rabs in H; destruct (Rcase_abs _); lra).
  rewrite <- minus_IZR in H0. destruct H0 as [A B].
  apply (lt_IZR (-1)) in A. apply (lt_IZR _ 1) in B. lia.
Qed.
Lemma near_tie : forall n, near (IZR n + / 2) = if Z.even n then n else (n + 1)%Z.
Proof.
  intros n. unfold near. rewrite (int_part_unique (IZR n + / 2) n) by lra.
  destruct (Rlt_dec _ _); [exfalso; lra|]. destruct (Rlt_dec _ _); [exfalso; lra|]. reflexivity.
Qed.
Lemma near_opp : forall x, near (- x) = (- near x)%Z.
Proof.
  intros x. destruct (Rlt_dec (Rabs (x - IZR (near x))) (/ 2)).
  - apply near_lt. rewrite opp_IZR. replace (- x - - IZR (near x)) with (- (x - IZR (near x))) by ring.
    now rewrite Rabs_Ropp.
  - generalize (near_spec x); intros S.
    set (k := Int_part x). destruct (base_Int_part x) as [B1 B2]. fold k in B1, B2.
    assert (E : x = IZR k + / 2).
    { unfold near in n, S. fold k in n, S.
      destruct (Rlt_dec (x - IZR k) (/ 2)).
      - exfalso. apply n. rewrite Rabs_pos_eq; lra.
      - destruct (Rlt_dec (/ 2) (x - IZR k)); [|lra].
        exfalso. apply n. rewrite plus_IZR. rewrite Rabs_left; lra. }
    rewrite E, near_tie. replace (- (IZR k + / 2)) with (IZR (- k - 1) + / 2) by (rewrite minus_IZR, opp_IZR; lra).
    rewrite near_tie. replace (- k - 1)%Z with (- (k + 1))%Z by lia. rewrite Z.even_opp, Z.even_add.
    destruct (Z.even k); simpl; lia.
Qed.

(** ** Numbers of the format *)
Definition fmt (F : format) (x : R) : Prop :=
  exists n e, x = IZR n * bpow e /\ (Z.abs n <= 2 ^ f_prec F)%Z /\ (f_emin F <= e)%Z.

Section Rnd.
  Variable F : format.
  Hypothesis V : valid F.
  Let p := f_prec F.
  Let emin := f_emin F.
  Definition ulp1 : R := bpow (- f_prec F).
  Definition eta : R := bpow (f_emin F) / 2.

  Lemma Vp : (4 <= p)%Z. Proof. exact (v_prec F V). Qed.
  Lemma Ve : (emin <= 1 - p)%Z. Proof. exact (v_emin F V). Qed.

  Lemma ulp1_pos : 0 < ulp1. Proof. apply bpow_pos. Qed.
  Lemma ulp1_le : ulp1 <= / 16.
  Proof.
    unfold ulp1. apply Rle_trans with (bpow (-4)); [apply bpow_le; generalize Vp; unfold p; lia|].
    unfold bpow. simpl. lra.
  Qed.
  Lemma eta_pos : 0 < eta. Proof. unfold eta. generalize (bpow_pos (f_emin F)). lra. Qed.

  Lemma rnd_0 : rnd F 0 = 0.
  Proof. unfold rnd. unfold Rdiv. rewrite Rmult_0_l. rewrite near_IZR. lra. Qed.
  Lemma rnd_opp : forall x, rnd F (- x) = - rnd F x.
  Proof.
    intros x. unfold rnd. rewrite cexp_opp. replace (- x / bpow (cexp F x)) with (- (x / bpow (cexp F x))) by (field; apply bpow_neq).
    rewrite near_opp, opp_IZR. ring.
  Qed.

  Lemma rnd_half : forall x, Rabs (rnd F x - x) <= bpow (cexp F x) / 2.
  Proof.
    intros x. unfold rnd. set (b := bpow (cexp F x)). assert (0 < b) by apply bpow_pos.
    generalize (near_spec (x / b)); intros S. set (n := IZR (near (x / b))) in *.
    assert (E : x = x / b * b) by (field; lra). set (q := x / b) in *. rewrite E.
    replace (n * b - q * b) with ((n - q) * b) by ring.
    apply Rabs_le. split; nra.
  Qed.

  Lemma rnd_int : forall x n e, x = IZR n * bpow e -> (cexp F x <= e)%Z -> rnd F x = x.
  Proof.
    intros x n e E H. unfold rnd. set (c := cexp F x) in *.
    assert (Q : x / bpow c = IZR (n * 2 ^ (e - c))).
    { rewrite E, mult_IZR, <- bpow_IZR by lia. rewrite bpow_sub. field. apply bpow_neq. }
    rewrite Q, near_IZR, <- Q. field. apply bpow_neq.
  Qed.

  Lemma fmt_fix : forall x, fmt F x -> rnd F x = x.
  Proof.
    assert (G : forall x n e, x = IZR n * bpow e -> (Z.abs n < 2 ^ p)%Z -> (emin <= e)%Z -> rnd F x = x).
    { intros x n e E Hn He. destruct (Req_dec x 0) as [->|Hx]; [apply rnd_0|].
      apply (rnd_int x n e E). unfold cexp. apply Z.max_lub; [|exact He].
      destruct (mag_spec x Hx) as [M1 _].
      assert (B : Rabs x < bpow (p + e)).
      { rewrite E, Rabs_mult, (Rabs_pos_eq (bpow e)) by (generalize (bpow_pos e); lra).
        rewrite bpow_add, (bpow_IZR p) by (generalize Vp; lia). rewrite <- abs_IZR.
        apply IZR_lt in Hn. generalize (bpow_pos e). nra. }
      assert (D : bpow (mag x) < bpow (p + e)) by lra. apply bpow_inj_lt in D. fold p. lia. }
    intros x (n & e & E & Hn & He). generalize Vp; intros P.
    destruct (Z.eq_dec (Z.abs n) (2 ^ p)) as [q|q].
    - apply (G x (Z.sgn n * 2 ^ (p - 1))%Z (e + 1)%Z).
      + rewrite E. rewrite bpow_add, bpow_1.
        assert (T : n = (2 * (Z.sgn n * 2 ^ (p - 1)))%Z).
        { assert (W : (2 ^ p = 2 * 2 ^ (p - 1))%Z) by (rewrite <- Z.pow_succ_r by lia; f_equal; lia).
          rewrite W in q. rewrite <- (Z.abs_sgn n) at 1. rewrite q. ring. }
        rewrite T at 1. rewrite mult_IZR. ring.
      + rewrite Z.abs_mul. rewrite (Z.abs_eq (2 ^ (p - 1))) by (apply Z.pow_nonneg; lia).
        assert (Z.abs (Z.sgn n) <= 1)%Z by (destruct n; simpl; lia).
        assert (2 ^ (p - 1) < 2 ^ p)%Z by (apply Z.pow_lt_mono_r; lia).
        assert (0 <= 2 ^ (p - 1))%Z by (apply Z.pow_nonneg; lia). nia.
      + unfold emin. lia.
    - apply (G x n e E); unfold p, emin in *; lia.
  Qed.

  Lemma rnd_fmt : forall x, fmt F (rnd F x).
  Proof.
    intros x. destruct (Req_dec x 0) as [->|Hx].
    - rewrite rnd_0. exists 0%Z, emin. split; [simpl; lra|]. split; [simpl; apply Z.pow_nonneg; lia | unfold emin; lia].
    - exists (near (x / bpow (cexp F x))), (cexp F x). split; [reflexivity|]. split; [|unfold cexp; lia].
      destruct (mag_spec x Hx) as [_ M2]. generalize Vp; intros P.
      assert (Hb : Rabs (x / bpow (cexp F x)) <= IZR (2 ^ p)).
      { unfold Rdiv. rewrite Rabs_mult, Rabs_inv, (Rabs_pos_eq (bpow _)) by (generalize (bpow_pos (cexp F x)); lra).
        apply Rmult_le_reg_r with (bpow (cexp F x)); [apply bpow_pos|].
        rewrite Rmult_assoc, Rinv_l, Rmult_1_r by apply bpow_neq.
        rewrite <- bpow_IZR by lia. rewrite <- bpow_add. apply Rle_trans with (bpow (mag x + 1)); [lra|].
        apply bpow_le. unfold cexp. fold p. lia. }
      apply Z.abs_le. unfold Rabs in Hb. fold p.
      assert (A : (- 2 ^ p <= near (x / bpow (cexp F x)))%Z).
      { rewrite <- (near_IZR (- 2 ^ p)). apply near_mono. rewrite opp_IZR. destruct (Rcase_abs _); lra. }
      assert (B : (near (x / bpow (cexp F x)) <= 2 ^ p)%Z).
      { rewrite <- (near_IZR (2 ^ p)). apply near_mono. destruct (Rcase_abs _); lra. }
      lia.
  Qed.
  Lemma rnd_idem : forall x, rnd F (rnd F x) = rnd F x.
  Proof. intros. apply fmt_fix, rnd_fmt. Qed.
  Lemma fmt_iff : forall x, fmt F x <-> rnd F x = x.
  Proof. intros x. split; [apply fmt_fix|]. intros <-. apply rnd_fmt. Qed.

  Lemma rnd_nonneg : forall x, 0 <= x -> 0 <= rnd F x.
  Proof.
    intros x H. unfold rnd. apply Rmult_le_pos; [|left; apply bpow_pos].
    apply (IZR_le 0). rewrite <- (near_IZR 0). apply near_mono.
    apply Rmult_le_pos; [exact H|left; apply Rinv_0_lt_compat, bpow_pos].
  Qed.

  Lemma rnd_mono_pos : forall x y, 0 < x -> x <= y -> rnd F x <= rnd F y.
  Proof.
    intros x y Hx H. generalize Vp; intros P.
    assert (Mxy : (mag x <= mag y)%Z) by (apply mag_le; [lra|rewrite !Rabs_pos_eq; lra]).
    destruct (Z.eq_dec (cexp F x) (cexp F y)) as [e|n].
    - unfold rnd. rewrite <- e. apply Rmult_le_compat_r; [left; apply bpow_pos|]. apply IZR_le, near_mono.
      unfold Rdiv. apply Rmult_le_compat_r; [left; apply Rinv_0_lt_compat, bpow_pos|exact H].
    - assert (L : (cexp F x < cexp F y)%Z) by (unfold cexp in *; lia).
      assert (Cy : cexp F y = (mag y - p + 1)%Z) by (unfold cexp in *; unfold p in *; lia).
      assert (Mlt : (mag x < mag y)%Z) by (unfold cexp in *; unfold p in *; lia).
      apply Rle_trans with (bpow (mag y)).
      + assert (x < bpow (mag y)).
        { destruct (mag_spec x ltac:(lra)) as [_ M2]. rewrite Rabs_pos_eq in M2 by lra.
          apply Rlt_le_trans with (1 := M2). apply bpow_le. lia. }
        unfold rnd. set (c := cexp F x) in *.
        assert (N : (near (x / bpow c) <= 2 ^ (mag y - c))%Z).
        { rewrite <- (near_IZR (2 ^ _)). apply near_mono. rewrite <- bpow_IZR by lia. rewrite bpow_sub.
          unfold Rdiv. apply Rmult_le_compat_r; [left; apply Rinv_0_lt_compat, bpow_pos|lra]. }
        apply IZR_le in N. rewrite <- bpow_IZR in N by lia.
        apply Rle_trans with (bpow (mag y - c) * bpow c).
        * apply Rmult_le_compat_r; [left; apply bpow_pos|exact N].
        * rewrite <- bpow_add. apply bpow_le. lia.
      + unfold rnd. rewrite Cy. set (c := (mag y - p + 1)%Z).
        assert (N : (2 ^ (p - 1) <= near (y / bpow c))%Z).
        { rewrite <- (near_IZR (2 ^ _)). apply near_mono. rewrite <- bpow_IZR by lia.
          replace (p - 1)%Z with (mag y - c)%Z by (unfold c; lia). rewrite bpow_sub.
          unfold Rdiv. apply Rmult_le_compat_r; [left; apply Rinv_0_lt_compat, bpow_pos|].
          destruct (mag_spec y ltac:(lra)) as [M1 _]. rewrite Rabs_pos_eq in M1 by lra. exact M1. }
        apply IZR_le in N. rewrite <- bpow_IZR in N by lia.
        apply Rle_trans with (bpow (p - 1) * bpow c).
        * rewrite <- bpow_add. apply bpow_le. unfold c. lia.
        * apply Rmult_le_compat_r; [left; apply bpow_pos|exact N].
  Qed.
  Lemma rnd_mono : forall x y, x <= y -> rnd F x <= rnd F y.
  Proof.
    intros x y H. destruct (Rlt_dec 0 x) as [a|a]; [now apply rnd_mono_pos|].
    destruct (Rle_dec 0 y) as [b|b].
    - apply Rle_trans with 0; [|now apply rnd_nonneg].
      generalize (rnd_nonneg (- x) ltac:(lra)). rewrite rnd_opp. lra.
    - generalize (rnd_mono_pos (- y) (- x) ltac:(lra) ltac:(lra)). rewrite !rnd_opp. lra.
  Qed.

  Lemma fmt_pow : forall e, (emin <= e)%Z -> fmt F (bpow e).
  Proof.
    intros e H. exists 1%Z, e. split; [simpl; lra|]. split; [|exact H].
    change (Z.abs 1) with (2 ^ 0)%Z. apply Z.pow_le_mono_r; [lia|]. generalize Vp; unfold p; lia.
  Qed.
  Lemma rnd_1 : rnd F 1 = 1.
  Proof. rewrite <- bpow_0. apply fmt_fix, fmt_pow. generalize Ve Vp; lia. Qed.
  Lemma rnd_2 : rnd F 2 = 2.
  Proof. rewrite <- bpow_1. apply fmt_fix, fmt_pow. generalize Ve Vp; lia. Qed.
  Lemma rnd_m1 : rnd F (-1) = -1.
  Proof. replace (-1) with (- (1)) by lra. now rewrite rnd_opp, rnd_1. Qed.
  Lemma fmt_double : forall x, fmt F x -> fmt F (2 * x).
  Proof.
    intros x (n & e & E & Hn & He). exists n, (e + 1)%Z. split; [|split; [exact Hn|lia]].
    rewrite E, bpow_S. ring.
  Qed.
  Lemma rnd_double : forall x, fmt F x -> rnd F (2 * x) = 2 * x.
  Proof. intros. now apply fmt_fix, fmt_double. Qed.

  (** relative error, and absolute error below the normal range *)
  Lemma rnd_err_cases : forall x,
    Rabs (rnd F x - x) <= ulp1 * Rabs x \/ (cexp F x = emin /\ Rabs (rnd F x - x) <= eta).
  Proof.
    intros x. destruct (Req_dec x 0) as [->|Hx].
    { left. rewrite rnd_0, Rminus_0_r, Rabs_R0. lra. }
    generalize (rnd_half x). intros H. unfold cexp in *. fold p emin in H. fold p emin.
    destruct (Z_le_dec emin (mag x - p + 1)) as [l|l].
    - left. rewrite Z.max_l in H by lia. destruct (mag_spec x Hx) as [M1 _].
      apply Rle_trans with (1 := H). unfold ulp1. fold p. replace (mag x - p + 1)%Z with (- p + mag x + 1)%Z by lia.
      rewrite bpow_S, bpow_add. generalize (bpow_pos (- p)). nra.
    - right. rewrite Z.max_r in H by lia. split; [lia|exact H].
  Qed.
  Lemma rnd_err : forall x, Rabs (rnd F x - x) <= ulp1 * Rabs x + eta.
  Proof.
    intros x. generalize eta_pos ulp1_pos (Rabs_pos x); intros.
    destruct (rnd_err_cases x) as [H2|[_ H2]]; nra.
  Qed.
  Lemma fmt_multiple : forall x, fmt F x -> exists k, x = IZR k * bpow emin.
  Proof.
    intros x (n & e & E & _ & He). fold emin in He. exists (n * 2 ^ (e - emin))%Z.
    rewrite E, mult_IZR, <- bpow_IZR by lia. rewrite bpow_sub. field. apply bpow_neq.
  Qed.
  Lemma rnd_err_add : forall x y, fmt F x -> fmt F y -> Rabs (rnd F (x + y) - (x + y)) <= ulp1 * Rabs (x + y).
  Proof.
    intros x y Hx Hy. destruct (rnd_err_cases (x + y)) as [H|[H _]]; [exact H|].
    destruct (fmt_multiple x Hx) as (a & Ea). destruct (fmt_multiple y Hy) as (b & Eb).
    rewrite (rnd_int (x + y) (a + b) emin).
    - rewrite Rminus_eq_0, Rabs_R0. generalize ulp1_pos (Rabs_pos (x + y)). nra.
    - rewrite plus_IZR, Rmult_plus_distr_r. congruence.
    - lia.
  Qed.
  Lemma fmt_opp : forall x, fmt F x -> fmt F (- x).
  Proof. intros x H. apply fmt_iff. rewrite rnd_opp. now rewrite (fmt_fix x H). Qed.
  Lemma rnd_err_sub : forall x y, fmt F x -> fmt F y -> Rabs (rnd F (x - y) - (x - y)) <= ulp1 * Rabs (x - y).
  Proof. intros x y Hx Hy. apply (rnd_err_add x (- y) Hx (fmt_opp y Hy)). Qed.
  Lemma rnd_sub_pos : forall x y, fmt F x -> fmt F y -> y < x -> 0 < rnd F (x - y).
  Proof.
    intros x y Hx Hy H. generalize (rnd_err_sub x y Hx Hy) ulp1_le. rewrite (Rabs_pos_eq (x - y)) by lra.
    intros E U. assert (ulp1 * (x - y) <= / 16 * (x - y)) by (apply Rmult_le_compat_r; lra).
    unfold Rabs in E; destruct (Rcase_abs _); lra.
  Qed.
  (** no number of the format is nearer *)
  Lemma near_nearest : forall q n, Rabs (IZR (near q) - q) <= Rabs (IZR n - q).
  Proof.
    intros q n. generalize (near_spec q); intros S.
    destruct (Z.eq_dec n (near q)) as [->|d]; [lra|].
    assert (1 <= Rabs (IZR n - IZR (near q))).
    { rewrite <- minus_IZR, <- abs_IZR. apply (IZR_le 1). lia. }
    unfold Rabs in *. repeat destruct (Rcase_abs _); lra.
  Qed.
  Lemma rnd_nearest_grid : forall x n, Rabs (rnd F x - x) <= Rabs (IZR n * bpow (cexp F x) - x).
  Proof.
    intros x n. unfold rnd. set (b := bpow (cexp F x)). assert (B : 0 < b) by apply bpow_pos.
    assert (E : x = x / b * b) by (field; lra). set (q := x / b) in *. rewrite E.
    replace (IZR (near q) * b - q * b) with ((IZR (near q) - q) * b) by ring.
    replace (IZR n * b - q * b) with ((IZR n - q) * b) by ring.
    rewrite !Rabs_mult. apply Rmult_le_compat_r; [apply Rabs_pos|apply near_nearest].
  Qed.
  Lemma fmt_grid : forall f c, fmt F f -> f <> 0 -> (c <= cexp F f)%Z -> exists n, f = IZR n * bpow c.
  Proof.
    intros f c Hf Hz H. exists (near (f / bpow (cexp F f)) * 2 ^ (cexp F f - c))%Z.
    rewrite <- (fmt_fix f Hf) at 1. unfold rnd. rewrite mult_IZR, <- bpow_IZR by lia. rewrite bpow_sub.
    field. apply bpow_neq.
  Qed.
  Lemma rnd_nearest_pos : forall x f, 0 < x -> fmt F f -> Rabs (rnd F x - x) <= Rabs (f - x).
  Proof.
    intros x f Hx Hf. destruct (mag_spec x ltac:(lra)) as [M1 M2]. rewrite Rabs_pos_eq in M1, M2 by lra.
    destruct (Z_le_dec emin (mag x - p + 1)) as [l|l].
    - assert (C : cexp F x = (mag x - p + 1)%Z) by (unfold cexp; fold p emin; lia).
      destruct (Rlt_dec f (bpow (mag x))) as [s|s].
      + apply Rle_trans with (Rabs (bpow (mag x) - x)).
        * replace (bpow (mag x)) with (IZR (2 ^ (p - 1)) * bpow (cexp F x)); [apply rnd_nearest_grid|].
          generalize Vp; intros. rewrite <- bpow_IZR by lia. rewrite <- bpow_add, C. f_equal. lia.
        * rewrite !Rabs_left1 by lra. lra.
      + assert (P : 0 < f) by (generalize (bpow_pos (mag x)); lra).
        assert (Mf : (mag x <= mag f)%Z).
        { destruct (mag_spec f ltac:(lra)) as [_ A]. rewrite Rabs_pos_eq in A by lra.
          assert (D : bpow (mag x) < bpow (mag f + 1)) by lra. apply bpow_inj_lt in D. lia. }
        destruct (fmt_grid f (cexp F x) Hf ltac:(lra)) as (n & ->); [rewrite C; unfold cexp; fold p; lia|].
        apply rnd_nearest_grid.
    - assert (C : cexp F x = emin) by (unfold cexp; fold p emin; lia).
      destruct (fmt_multiple f Hf) as (k & ->). rewrite <- C. apply rnd_nearest_grid.
  Qed.
  Lemma rnd_nearest : forall x f, fmt F f -> Rabs (rnd F x - x) <= Rabs (f - x).
  Proof.
    intros x f Hf. destruct (Rtotal_order x 0) as [n|[->|n]].
    - generalize (rnd_nearest_pos (- x) (- f) ltac:(lra) (fmt_opp f Hf)). rewrite rnd_opp.
      replace (- rnd F x - - x) with (- (rnd F x - x)) by ring. replace (- f - - x) with (- (f - x)) by ring.
      now rewrite !Rabs_Ropp.
    - rewrite rnd_0, Rminus_0_r, Rabs_R0. apply Rabs_pos.
    - now apply rnd_nearest_pos.
  Qed.
  Lemma fmt_0 : fmt F 0. Proof. apply fmt_iff, rnd_0. Qed.
  Lemma fmt_1 : fmt F 1. Proof. apply fmt_iff, rnd_1. Qed.
End Rnd.

Lemma valid64 : valid binary64.
Proof. split; simpl; lia. Qed.
Lemma valid32 : valid binary32.
Proof. split; simpl; lia. Qed.
