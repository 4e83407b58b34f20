(** Proofs about the finite differences in floating point. *)
From Coq Require Import Reals Lra Lia List Arith ZArith String Bool Permutation.
From Verif Require Import Prelude Py NumArr LinAlg M_Misc M_SimRunners M_Gradients M_Subspaces M_Float M_FloatGrad P_Misc P_SimRunners P_Gradients P_Float P_FloatCode P_Stability.
Import ListNotations.
Open Scope R_scope.

Section Fl.
  Variable F : format.
  Hypothesis V : valid F.

  Lemma fd_points_fl_ok : forall X M m h, shape X = [M; m] ->
    exists XX, fd_points_fl F X M m h = Ok XX /\ shape XX = [((m + 1) * M)%nat; m] /\
    forall k i j, (k <= m)%nat -> (i < M)%nat -> (j < m)%nat ->
      XX.[(k * M + i)%nat, j] = rnd F (X.[i, j] + rnd F (h * kron_delta k (S j))).
  Proof using.
    intros X M m h HX. unfold fd_points_fl.
    assert (HV : vstack (zeros2 1 m) (eye m) = Ok (mk2 (1 + m) m (fun i j =>
       if Nat.ltb i 1 then (zeros2 1 m).[i, j] else (eye m).[(i - 1)%nat, j]))).
    { unfold vstack. cbn [shape zeros2 eye mk2]. rewrite Nat.eqb_refl. reflexivity. }
    rewrite HV. cbn [rbind]. clear HV.
    set (S0 := mk2 (1 + m) m _).
    set (K1 := kron (ones2 (m + 1) 1) X). set (K2 := amap (fun a => rnd F (h * a)) (kron S0 (ones2 M 1))).
    assert (H1 : shape K1 = [((m + 1) * M)%nat; m]).
    { unfold K1, kron. rewrite (nrows_shape2 _ _ _ _ HX), (ncols_shape2 _ _ _ _ HX).
      rewrite shape_mk2. cbn [nrows ncols ones2 mk2 shape nth]. rewrite Nat.mul_1_l. reflexivity. }
    assert (H2 : shape K2 = [((m + 1) * M)%nat; m]).
    { unfold K2, kron, amap. cbn [nrows ncols ones2 mk2 shape nth]. unfold S0. cbn [nrows ncols mk2 shape nth].
      rewrite Nat.mul_1_r. f_equal. f_equal. lia. }
    destruct (bcast2_same _ _ _ (fun a b => rnd F (a + b)) K1 K2 _ _ H1 H2) as (Z & Z1 & Z2 & Z3).
    exists Z. split; auto. split; auto. intros k i j Hk Hi Hj.
    rewrite Z3 by nia. unfold K1, K2, kron, amap. cbn [at_].
    rewrite (nrows_shape2 _ _ _ _ HX), (ncols_shape2 _ _ _ _ HX).
    cbn [nrows ncols ones2 mk2 shape nth at_].
    rewrite Nat.div_1_r, mod_add_lt, div_add_lt, (Nat.mod_small j) by auto.
    f_equal. f_equal; [ring|]. f_equal. rewrite Rmult_1_r. f_equal.
    unfold S0. rewrite at_mk2. destruct (Nat.ltb_spec k 1).
    - replace k with O by lia. cbn. reflexivity.
    - unfold eye. rewrite at_mk2. unfold kron_delta.
      destruct (Nat.eqb_spec (k - 1) j), (Nat.eqb_spec k (S j)); try lia; reflexivity.
  Qed.

  (** the k-th coordinate moved by h, as far as the format allows *)
  Definition moved_fl (X : nd R) (i : nat) (h : R) (k : nat) : nat -> R :=
    fun j => if Nat.eqb j k then rnd F (X.[i, j] + h) else X.[i, j].

  Lemma fd_pure_fl : forall (G : gen) (U : Type) (f : ufun (U:=U) (nd R) (nd R)) X M m h (w : world G U (nd R)) (g : (nat -> R) -> R), shape X = [M; m] ->
    (forall i j, (i < M)%nat -> (j < m)%nat -> fmt F (X.[i, j])) -> fmt F h ->
    (forall x y, (forall j, (j < m)%nat -> x j = y j) -> g x = g y) ->
    (forall x u, f x u = (Ok (ND [] (fun _ => g (fun j => x.[0%nat, j]))), u)) ->
    exists D w', finite_difference_gradients_fl F X (IsA f) h w = (Ok D, w') /\ shape D = [M; m] /\
      forall i k, (i < M)%nat -> (k < m)%nat ->
        D.[i, k] = rnd F (rnd F (g (moved_fl X i h k) - g (fun j => X.[i, j])) / h).
  Proof using V.
    intros G U f X M m h w g HX FX Fh Hg Hf.
    destruct (fd_points_fl_ok X M m h HX) as (XX & P1 & P2 & P3).
    destruct (sim_run_pure f XX _ m w (fun x => g (fun j => x.[0%nat, j])) P2 Hf) as (Y & w1 & HF & SF & E3 & _).
    assert (NF : nrows Y = ((m + 1) * M)%nat) by (eapply nrows_shape2; eauto).
    assert (CF : ncols Y = 1%nat) by (eapply ncols_shape2; eauto).
    assert (S1 : shape (rows_slice Y M (nrows Y)) = [(m * M)%nat; 1%nat]).
    { unfold rows_slice. rewrite shape_mk2, NF, CF, Nat.min_id. f_equal. nia. }
    destruct (reshape_ok _ [m; M] (rows_slice Y M (nrows Y))) as (F1 & R1 & R2 & R3).
    { unfold size. rewrite S1. simpl. lia. }
    assert (ST : shape (tr F1) = [M; m]).
    { unfold tr. rewrite (ncols_shape2 _ _ _ _ R2), (nrows_shape2 _ _ _ _ R2). reflexivity. }
    assert (S2 : shape (rows_slice Y 0 M) = [M; 1%nat]).
    { unfold rows_slice. rewrite shape_mk2, NF, CF. f_equal. rewrite Nat.sub_0_r. apply Nat.min_l. nia. }
    assert (BB : exists B, bcast2 (fun a b => rnd F (a - b)) (tr F1) (rows_slice Y 0 M) = Ok B /\ shape B = [M; m] /\
        forall i k, (i < M)%nat -> (k < m)%nat -> B.[i, k] = rnd F (Y.[((k + 1) * M + i)%nat, 0%nat] - Y.[i, 0%nat])).
    { unfold bcast2. rewrite ST, S2. unfold bdim at 1. rewrite Nat.eqb_refl.
      assert (E : bdim m 1 = Some m) by (unfold bdim; destruct (Nat.eqb_spec m 1); auto).
      rewrite E. eexists. split; [reflexivity|]. split; [reflexivity|]. intros i k Hi Hk.
      rewrite at_mk2, !(bidx_ok M), (bidx_ok m) by auto. f_equal. f_equal.
      unfold tr. rewrite at_mk2. rewrite R3 by (repeat constructor; auto).
      rewrite S1. cbn [unravel ravel prodn]. rewrite !Nat.mul_1_r, Nat.div_1_r, Nat.mod_1_r, Nat.div_1_r.
      unfold rows_slice. rewrite at_mk2. f_equal. f_equal. lia. }
    destruct BB as (B & B1 & B2 & B3).
    assert (RE : reshape [M; m] (amap (fun a => rnd F (a / h)) B) = Ok (amap (fun a => rnd F (a / h)) B)).
    { rewrite <- B2. apply (reshape_id _ (amap (fun a => rnd F (a / h)) B)). }
    exists (amap (fun a => rnd F (a / h)) B), w1. split; [|split; [exact B2|]].
    - unfold finite_difference_gradients_fl.
      unfold mlift at 1. rewrite (process_inputs_eq _ X M m HX). unfold mbind at 1.
      unfold mlift at 1. rewrite P1. unfold mbind at 1.
      unfold mlift at 1, SimulationRunner_init. unfold mbind at 1. unfold mbind at 1. rewrite HF.
      unfold mlift at 1. rewrite R1. unfold mbind at 1.
      unfold mlift at 1. rewrite B1. unfold mbind at 1. unfold mlift. rewrite RE. congruence.
    - intros i k Hi Hk. unfold amap. cbn [at_]. change (at_ B [i; k]) with (B.[i, k]). rewrite B3 by auto. rewrite !E3 by nia. f_equal. f_equal. f_equal. f_equal.
      + apply Hg. intros j Hj. unfold rowarr. rewrite at_mk2, P3 by lia. unfold moved_fl, kron_delta.
        destruct (Nat.eqb_spec (k + 1) (S j)), (Nat.eqb_spec j k); try lia.
        * rewrite Rmult_1_r, (fmt_fix F V h Fh). reflexivity.
        * rewrite Rmult_0_r, (rnd_0 F), Rplus_0_r. apply fmt_fix; auto.
      + apply Hg. intros j Hj. unfold rowarr. rewrite at_mk2. replace i with (0 * M + i)%nat at 1 by lia. rewrite P3 by lia.
        rewrite kd_diff by lia. rewrite Rmult_0_r, (rnd_0 F), Rplus_0_r. apply fmt_fix; auto.
  Qed.

  (** a step below half the spacing of the numbers is lost *)
  Lemma step_lost : forall x h e, fmt F x -> (f_emin F <= e - f_prec F + 1)%Z -> bpow e <= x -> 0 <= h < bpow (e - f_prec F) -> rnd F (x + h) = x.
  Proof using V.
    intros x h e Fx He Hx [H0 H1]. set (r := rnd F (x + h)). set (c := (e - f_prec F + 1)%Z) in *.
    assert (P := bpow_pos e).
    assert (L : x <= r) by (unfold r; rewrite <- (fmt_fix F V x Fx) at 1; apply rnd_mono; auto; lra).
    assert (N := rnd_nearest F V (x + h) x Fx). fold r in N. replace (x - (x + h)) with (- h) in N by ring. rewrite Rabs_Ropp, (Rabs_pos_eq h) in N by lra.
    assert (GR : forall y, fmt F y -> bpow e <= y -> exists n, y = IZR n * bpow c).
    { intros y Fy Hy. apply (fmt_grid F V y c Fy); [lra|]. unfold cexp. apply Z.le_trans with (2 := Z.le_max_l _ _). unfold c.
      assert (e <= mag y)%Z; [|lia]. rewrite <- (mag_unique (bpow e) e). apply mag_le; [lra|rewrite !Rabs_pos_eq; lra].
      rewrite Rabs_pos_eq by lra. rewrite bpow_S. lra. }
    destruct (GR x Fx Hx) as (n & En). destruct (GR r (rnd_fmt F V _) ltac:(lra)) as (n' & En').
    assert (D : r - x < bpow c). { unfold c. rewrite bpow_S. dabs; lra. }
    assert (Q : IZR (n' - n) < 1). { rewrite minus_IZR. apply Rmult_lt_reg_r with (bpow c); [apply bpow_pos|]. lra. }
    assert (Q' : 0 <= IZR (n' - n)). { rewrite minus_IZR. apply Rmult_le_reg_r with (bpow c); [apply bpow_pos|]. lra. }
    assert (n' - n = 0)%Z by (apply Z.le_antisymm; [apply Z.lt_succ_r, lt_IZR; simpl; lra|now apply le_IZR]).
    rewrite En, En'. f_equal. f_equal. lia.
  Qed.
End Fl.
