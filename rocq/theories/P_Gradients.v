(** Proofs about gradients.py *)
From Coq Require Import Reals Lra Lia List Arith ZArith String Bool Permutation.
From Verif Require Import Prelude Py NumArr LinAlg M_Misc M_SimRunners M_Gradients P_Misc P_SimRunners.
Import ListNotations.
Open Scope R_scope.

(** ** Finite differences *)

Lemma fd_points_ok : forall X M m h, shape X = [M; m] ->
  exists XX, fd_points X M m h = Ok XX /\ shape XX = [((m + 1) * M)%nat; m] /\
  forall k i j, (k <= m)%nat -> (i < M)%nat -> (j < m)%nat ->
    XX.[(k * M + i)%nat, j] = X.[i, j] + h * kron_delta k (S j).
Proof.
  intros X M m h HX. unfold fd_points.
  assert (HV : vstack (zeros2 1 m) (eye m) = Ok (mk2 (1 + m) m (fun i j =>
     if Nat.ltb i 1 then (zeros2 1 m).[i, j] else (eye m).[(i - 1)%nat, j]))).
  { unfold vstack. cbn [shape zeros2 eye mk2]. rewrite Nat.eqb_refl. reflexivity. }
  rewrite HV. cbn [rbind]. clear HV.
  set (S0 := mk2 (1 + m) m _).
  set (K1 := kron (ones2 (m + 1) 1) X). set (K2 := amap (Rmult h) (kron S0 (ones2 M 1))).
  assert (H1 : shape K1 = [((m + 1) * M)%nat; m]).
  { unfold K1, kron. rewrite (nrows_shape2 _ _ _ _ HX), (ncols_shape2 _ _ _ _ HX).
    rewrite shape_mk2. cbn [nrows ncols ones2 mk2 shape nth]. rewrite Nat.mul_1_l. reflexivity. }
  assert (H2 : shape K2 = [((m + 1) * M)%nat; m]).
  { unfold K2, kron, amap. cbn [nrows ncols ones2 mk2 shape nth]. unfold S0. cbn [nrows ncols mk2 shape nth].
    rewrite Nat.mul_1_r. f_equal. f_equal. lia. }
  destruct (bcast2_same _ _ _ Rplus K1 K2 _ _ H1 H2) as (Z & Z1 & Z2 & Z3).
  exists Z. split; auto. split; auto. intros k i j Hk Hi Hj.
  rewrite Z3 by nia. unfold K1, K2, kron, amap. cbn [at_].
  rewrite (nrows_shape2 _ _ _ _ HX), (ncols_shape2 _ _ _ _ HX).
  cbn [nrows ncols ones2 mk2 shape nth at_].
  rewrite Nat.div_1_r, mod_add_lt, div_add_lt, (Nat.mod_small j) by auto.
  f_equal; [ring|]. rewrite Rmult_1_r. f_equal.
  unfold S0. rewrite at_mk2. destruct (Nat.ltb_spec k 1).
  - replace k with O by lia. cbn. reflexivity.
  - unfold eye. rewrite at_mk2. unfold kron_delta.
    destruct (Nat.eqb_spec (k - 1) j), (Nat.eqb_spec k (S j)); try lia; reflexivity.
Qed.

(** the point x_i moved by h along coordinate k *)
Definition moved (X : nd R) (i : nat) (h : R) (k : nat) : nat -> R :=
  fun j => X.[i, j] + (if Nat.eqb j k then h else 0).

Section FD.
  Context {G : gen} {U : Type}.
  Notation W := (world G U (nd R)).
  Variable f : ufun (U:=U) (nd R) (nd R).

  (** The evaluation points: M base points, then for each coordinate k the M
      points moved by h along k. *)
  Definition fd_design (X XX : nd R) (M m : nat) (h : R) : Prop :=
    shape XX = [((m + 1) * M)%nat; m] /\
    (forall i j, (i < M)%nat -> (j < m)%nat -> XX.[i, j] = X.[i, j]) /\
    (forall i k j, (i < M)%nat -> (k < m)%nat -> (j < m)%nat ->
        XX.[((k + 1) * M + i)%nat, j] = moved X i h k j).

  Lemma fd_eval : forall X M m h, shape X = [M; m] -> exists XX, fd_design X XX M m h /\
    forall w : W, match sim_run f XX w with
    | (Ok F, w1) => exists D, finite_difference_gradients X (IsA f) h w = (Ok D, w1) /\ shape D = [M; m] /\
        forall i k, (i < M)%nat -> (k < m)%nat ->
          D.[i, k] = (F.[((k + 1) * M + i)%nat, 0%nat] - F.[i, 0%nat]) / h
    | (Err e, w1) => finite_difference_gradients X (IsA f) h w = (Err e, w1)
    end.
  Proof.
    intros X M m h HX.
    destruct (fd_points_ok X M m h HX) as (XX & P1 & P2 & P3).
    exists XX. split.
    { split; auto. split.
      - intros i j Hi Hj. replace i with (0 * M + i)%nat at 1 by lia. rewrite P3 by lia. rewrite kd_diff by lia. ring.
      - intros i k j Hi Hk Hj. rewrite P3 by lia. unfold moved. f_equal. unfold kron_delta.
        destruct (Nat.eqb_spec (k + 1) (S j)), (Nat.eqb_spec j k); try lia; ring. }
    intros w. destruct (sim_run f XX w) as [[F|e] w1] eqn:HF.
    2:{ unfold finite_difference_gradients.
        unfold mlift at 1. rewrite (process_inputs_eq _ X M m HX). unfold mbind at 1.
        unfold mlift at 1. rewrite P1. unfold mbind at 1.
        unfold mlift at 1, SimulationRunner_init. unfold mbind at 1. unfold mbind at 1. rewrite HF. reflexivity. }
    destruct (sim_run_trace (G:=G) f XX _ m w P2) as (us & U0 & [(F' & w1' & E & SF & EW & EF)|(k & e & w1' & _ & E & _)]);
      rewrite HF in E; inversion E; subst F' w1'; clear E.
    assert (NF : nrows F = ((m + 1) * M)%nat) by (eapply nrows_shape2; eauto).
    assert (CF : ncols F = 1%nat) by (eapply ncols_shape2; eauto).
    assert (S1 : shape (rows_slice F M (nrows F)) = [(m * M)%nat; 1%nat]).
    { unfold rows_slice. rewrite shape_mk2, NF, CF, Nat.min_id. f_equal. nia. }
    destruct (reshape_ok _ [m; M] (rows_slice F M (nrows F))) as (F1 & R1 & R2 & R3).
    { unfold size. rewrite S1. simpl. lia. }
    assert (ST : shape (tr F1) = [M; m]).
    { unfold tr. rewrite (ncols_shape2 _ _ _ _ R2), (nrows_shape2 _ _ _ _ R2). reflexivity. }
    assert (S2 : shape (rows_slice F 0 M) = [M; 1%nat]).
    { unfold rows_slice. rewrite shape_mk2, NF, CF. f_equal. rewrite Nat.sub_0_r. apply Nat.min_l. nia. }
    assert (BB : exists B, bcast2 Rminus (tr F1) (rows_slice F 0 M) = Ok B /\ shape B = [M; m] /\
        forall i k, (i < M)%nat -> (k < m)%nat -> B.[i, k] = F.[((k + 1) * M + i)%nat, 0%nat] - F.[i, 0%nat]).
    { unfold bcast2. rewrite ST, S2. unfold bdim at 1. rewrite Nat.eqb_refl.
      assert (E : bdim m 1 = Some m) by (unfold bdim; destruct (Nat.eqb_spec m 1); auto).
      rewrite E. eexists. split; [reflexivity|]. split; [reflexivity|]. intros i k Hi Hk.
      rewrite at_mk2, !(bidx_ok M), (bidx_ok m) by auto. f_equal.
      unfold tr. rewrite at_mk2. rewrite R3 by (repeat constructor; auto).
      rewrite S1. cbn [unravel ravel prodn]. rewrite !Nat.mul_1_r, Nat.div_1_r, Nat.mod_1_r, Nat.div_1_r.
      unfold rows_slice. rewrite at_mk2. f_equal. f_equal. lia. }
    destruct BB as (B & B1 & B2 & B3).
    assert (RE : reshape [M; m] (amap (fun a => a / h) B) = Ok (amap (fun a => a / h) B)).
    { rewrite <- B2. apply (reshape_id _ (amap (fun a => a / h) B)). }
    exists (amap (fun a => a / h) B). split; [|split; [exact B2|]].
    - unfold finite_difference_gradients.
      unfold mlift at 1. rewrite (process_inputs_eq _ X M m HX). unfold mbind at 1.
      unfold mlift at 1. rewrite P1. unfold mbind at 1.
      unfold mlift at 1, SimulationRunner_init. unfold mbind at 1. unfold mbind at 1. rewrite HF.
      unfold mlift at 1. rewrite R1. unfold mbind at 1.
      unfold mlift at 1. rewrite B1. unfold mbind at 1. unfold mlift. rewrite RE. congruence.
    - intros i k Hi Hk. unfold amap. cbn [at_]. rewrite B3 by auto. reflexivity.
  Qed.

  (** A simulation that is a mathematical function of the m inputs. *)
  Lemma fd_pure : forall X M m h (w : W) (g : (nat -> R) -> R), shape X = [M; m] ->
    (forall x y, (forall j, (j < m)%nat -> x j = y j) -> g x = g y) ->
    (forall x u, f x u = (Ok (ND [] (fun _ => g (fun j => x.[0%nat, j]))), u)) ->
    exists D w', finite_difference_gradients X (IsA f) h w = (Ok D, w') /\ shape D = [M; m] /\
      forall i k, (i < M)%nat -> (k < m)%nat ->
        D.[i, k] = (g (moved X i h k) - g (fun j => X.[i, j])) / h.
  Proof.
    intros X M m h w g HX Hg Hf.
    destruct (fd_eval X M m h HX) as (XX & (P1 & P2 & P3) & HE). specialize (HE w).
    destruct (sim_run_pure f XX _ m w (fun x => g (fun j => x.[0%nat, j])) P1 Hf) as (F & w1 & E1 & E2 & E3 & E4).
    rewrite E1 in HE. destruct HE as (D & D1 & D2 & D3). exists D, w1. split; auto. split; auto.
    intros i k Hi Hk. rewrite D3 by auto. rewrite !E3 by nia. f_equal. f_equal.
    - apply Hg. intros j Hj. unfold rowarr. rewrite at_mk2. now apply P3.
    - apply Hg. intros j Hj. unfold rowarr. rewrite at_mk2. now apply P2.
  Qed.

  Lemma fd_noncallable : forall X M m h (w : W), shape X = [M; m] ->
    finite_difference_gradients X NotA h w = (Err TypeError, w).
  Proof.
    intros X M m h w HX. unfold finite_difference_gradients.
    unfold mlift at 1. rewrite (process_inputs_eq _ X M m HX). unfold mbind at 1.
    destruct (fd_points_ok X M m h HX) as (XX & P1 & _).
    unfold mlift at 1. rewrite P1. reflexivity.
  Qed.
End FD.

(** Affine and quadratic functions, limits. *)
Definition affine_fn (m : nat) (a : R) (b : nat -> R) (x : nat -> R) : R := a + sumf m (fun j => b j * x j).
Definition quadratic_fn (m : nat) (a : R) (b : nat -> R) (H : nat -> nat -> R) (x : nat -> R) : R :=
  a + sumf m (fun j => b j * x j) + / 2 * sumf m (fun i => sumf m (fun j => H i j * x i * x j)).

Lemma sum_moved : forall m b X i h k, (k < m)%nat ->
  sumf m (fun j => b j * moved X i h k j) = sumf m (fun j => b j * X.[i, j]) + h * b k.
Proof.
  intros m b X i h k Hk.
  rewrite (sumf_ext m _ (fun j => b j * X.[i, j] + kron_delta k j * (h * b j))).
  - rewrite sumf_plus, (sumf_kd_l m k (fun j => h * b j)) by auto. reflexivity.
  - intros j Hj. unfold moved, kron_delta. rewrite Nat.eqb_sym. destruct (Nat.eqb k j); ring.
Qed.

Lemma affine_quotient : forall m a b X i h k, (k < m)%nat -> h <> 0 ->
  (affine_fn m a b (moved X i h k) - affine_fn m a b (fun j => X.[i, j])) / h = b k.
Proof. intros. unfold affine_fn. rewrite sum_moved by auto. field. auto. Qed.

Lemma quad_moved : forall m H X i h k, (k < m)%nat ->
  sumf m (fun p => sumf m (fun q => H p q * moved X i h k p * moved X i h k q)) =
  sumf m (fun p => sumf m (fun q => H p q * X.[i, p] * X.[i, q])) +
  h * sumf m (fun q => (H k q + H q k) * X.[i, q]) + h * h * H k k.
Proof.
  intros m H X i h k Hk.
  rewrite (sumf_ext m _ (fun p => (sumf m (fun q => H p q * X.[i, p] * X.[i, q]) + h * H p k * X.[i, p])
      + kron_delta k p * (h * sumf m (fun q => H p q * X.[i, q]) + h * h * H p k))).
  - rewrite sumf_plus, (sumf_kd_l m k (fun p => h * sumf m (fun q => H p q * X.[i, q]) + h * h * H p k)) by auto.
    rewrite sumf_plus.
    rewrite (sumf_ext m (fun p => h * H p k * X.[i, p]) (fun p => h * (H p k * X.[i, p]))) by (intros; ring).
    rewrite sumf_scal_l.
    rewrite (sumf_ext m (fun q => (H k q + H q k) * X.[i, q]) (fun q => H k q * X.[i, q] + H q k * X.[i, q])) by (intros; ring).
    rewrite sumf_plus. ring.
  - intros p Hp. rewrite (sum_moved m (fun q => H p q * moved X i h k p) X i h k Hk).
    unfold moved at 1 2. unfold kron_delta. rewrite Nat.eqb_sym. destruct (Nat.eqb_spec k p) as [->|].
    + rewrite (sumf_ext m (fun q => H p q * (X.[i, p] + h) * X.[i, q])
         (fun q => H p q * X.[i, p] * X.[i, q] + h * (H p q * X.[i, q]))) by (intros; ring).
      rewrite sumf_plus, sumf_scal_l. ring.
    + rewrite (sumf_ext m (fun q => H p q * (X.[i, p] + 0) * X.[i, q]) (fun q => H p q * X.[i, p] * X.[i, q])) by (intros; ring).
      ring.
Qed.

Lemma quadratic_quotient : forall m a b H X i h k, (k < m)%nat -> h <> 0 ->
  (forall p q, (p < m)%nat -> (q < m)%nat -> H p q = H q p) ->
  (quadratic_fn m a b H (moved X i h k) - quadratic_fn m a b H (fun j => X.[i, j])) / h =
  (b k + sumf m (fun q => H k q * X.[i, q])) + h * H k k / 2.
Proof.
  intros m a b H X i h k Hk Hh HS. unfold quadratic_fn. rewrite sum_moved, quad_moved by auto.
  rewrite (sumf_ext m (fun q => (H k q + H q k) * X.[i, q]) (fun q => 2 * (H k q * X.[i, q]))).
  2:{ intros q Hq. rewrite (HS q k) by auto. ring. }
  rewrite sumf_scal_l. field. auto.
Qed.

Lemma quotient_limit : forall (g : (nat -> R) -> R) X i k l,
  (forall x y, (forall j, x j = y j) -> g x = g y) ->
  derivable_pt_lim (fun t => g (moved X i t k)) 0 l ->
  forall eps, 0 < eps -> exists delta, 0 < delta /\
    forall h, h <> 0 -> Rabs h < delta ->
      Rabs ((g (moved X i h k) - g (fun j => X.[i, j])) / h - l) < eps.
Proof.
  intros g X i k l Hg H eps He. destruct (H eps He) as (d & Hd). exists d. split; [apply cond_pos|].
  intros h Hh Hl. specialize (Hd h Hh Hl).
  rewrite Rplus_0_l in Hd.
  rewrite (Hg (moved X i 0 k) (fun j => X.[i, j])) in Hd; auto.
  intros j. unfold moved. destruct (Nat.eqb j k); ring.
Qed.
