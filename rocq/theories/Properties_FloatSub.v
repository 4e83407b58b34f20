(** Final statements about active_subspace in floating point: C112. *)
From Coq Require Import Reals Lra Lia List Arith ZArith String Bool Permutation.
From Verif Require Import Properties_Float Prelude Py NumArr LinAlg Lsq Sorting Spectral Perturb M_Misc M_Subspaces P_Misc P_Subspaces M_Float M_FloatGrad P_Float P_FloatCode P_Stability P_FloatSub EighRef P_Partition Toy Properties_Gradients Properties_Subspaces Properties_FloatGrad.
Import ListNotations.
Open Scope R_scope.

(** ** C112 *)
(** Entry (i, j) of the matrix, added up in any order of depth at most d: *)
Theorem C112_matrix : forall F t M m df weights d L, valid F -> shape df = [M; m] -> shape weights = [M; 1%nat] ->
  (forall s, (s < M)%nat -> 0 <= weights.[s, 0%nat]) -> (forall s i, (s < M)%nat -> (i < m)%nat -> Rabs (df.[s, i]) <= L) ->
  (forall i j, (i < m)%nat -> (j < m)%nat -> Permutation (dleaves (t i j)) (seq 0 M) /\ (ddepth (t i j) <= d)%nat) ->
  exists C, gradient_matrix_fl F t df weights = Ok C /\ shape C = [m; m] /\
    forall i j, (i < m)%nat -> (j < m)%nat ->
      let g := (1 + ulp1 F) ^ d in
      fmt F (C.[i, j]) /\
      Rabs (C.[i, j] - sumf M (fun s => weights.[s, 0%nat] * (df.[s, i] * df.[s, j]))) <=
        ((1 + ulp1 F) ^ (d + 1) - 1) * sumf M (fun s => weights.[s, 0%nat] * (Rabs (df.[s, i]) * Rabs (df.[s, j]))) +
        g * INR M * (1 + L) * eta F.
Proof.
  intros F t M m df weights d L V Sd Sw Hw HL Ht.
  destruct (bcast2_colr _ _ _ (fun a b => rnd F (a * b)) df weights M m Sd Sw) as (Z & Z1 & Z2 & Z3).
  unfold gradient_matrix_fl. rewrite Z1. cbn [rbind]. rewrite (nrows_shape2 _ df M m Sd), (nrows_shape2 _ Z M m Z2), Nat.eqb_refl. cbn [negb].
  rewrite (ncols_shape2 _ df M m Sd), (ncols_shape2 _ Z M m Z2).
  eexists. split; [reflexivity|]. split; [reflexivity|]. intros i j Hi Hj. cbv zeta. rewrite at_mk2.
  split; [apply dfl_fmt; auto|].
  destruct (Ht i j Hi Hj) as (Hp & Hd).
  assert (E := dfl_err F V (t i j) (fun s => df.[s, i]) (fun s => Z.[s, j])). cbv zeta in E.
  rewrite !(sumr_perm_seq _ _ _ Hp), (Permutation_length Hp), seq_length in E.
  set (g0 := (1 + ulp1 F) ^ ddepth (t i j)) in *. set (g := (1 + ulp1 F) ^ d).
  assert (Gg : g0 <= g) by (apply Gmono; auto). assert (G0 : 1 <= g0) by apply G1.
  set (u := ulp1 F) in *. assert (Hu : 0 < u) by apply ulp1_pos. assert (He := eta_pos F). set (h := eta F) in *.
  set (T := sumf M (fun s => weights.[s, 0%nat] * (Rabs (df.[s, i]) * Rabs (df.[s, j])))).
  assert (T0 : 0 <= T) by (apply sumf_nonneg; intros s Hs; apply Rmult_le_pos; auto; apply Rmult_le_pos; apply Rabs_pos).
  set (N := INR M). assert (N0 : 0 <= N) by apply pos_INR.
  assert (DZ : forall s, (s < M)%nat -> Rabs (Z.[s, j] - df.[s, j] * weights.[s, 0%nat]) <= u * (weights.[s, 0%nat] * Rabs (df.[s, j])) + h).
  { intros s Hs. rewrite Z3 by auto. eapply Rle_trans; [apply rnd_err|]. rewrite Rabs_mult, (Rabs_pos_eq (weights.[s, 0%nat])) by auto. right. unfold u, h. ring. }
  assert (B1 : Rabs (sumf M (fun s => df.[s, i] * Z.[s, j]) - sumf M (fun s => weights.[s, 0%nat] * (df.[s, i] * df.[s, j]))) <= u * T + N * L * h).
  { rewrite <- sumf_minus. eapply Rle_trans; [apply sumf_abs|].
    replace (u * T + N * L * h) with (sumf M (fun s => u * (weights.[s, 0%nat] * (Rabs (df.[s, i]) * Rabs (df.[s, j]))) + L * h)).
    - apply sumf_le. intros s Hs. replace (df.[s, i] * Z.[s, j] - weights.[s, 0%nat] * (df.[s, i] * df.[s, j])) with (df.[s, i] * (Z.[s, j] - df.[s, j] * weights.[s, 0%nat])) by ring.
      rewrite Rabs_mult. specialize (DZ s Hs). specialize (HL s i Hs Hi). assert (Pi := Rabs_pos (df.[s, i])).
      apply (Rmult_le_compat_l (Rabs (df.[s, i]))) in DZ; auto. assert (Rabs (df.[s, i]) * h <= L * h) by (apply Rmult_le_compat_r; lra). lra.
    - rewrite sumf_plus, sumf_scal_l, sumf_const. fold T N. ring. }
  assert (B2 : sumf M (fun s => Rabs (df.[s, i] * Z.[s, j])) <= (1 + u) * T + N * L * h).
  { replace ((1 + u) * T + N * L * h) with (sumf M (fun s => (1 + u) * (weights.[s, 0%nat] * (Rabs (df.[s, i]) * Rabs (df.[s, j]))) + L * h)).
    - apply sumf_le. intros s Hs. rewrite Rabs_mult. specialize (DZ s Hs). specialize (HL s i Hs Hi). assert (Pi := Rabs_pos (df.[s, i])).
      assert (Q : Rabs (Z.[s, j]) <= (1 + u) * (weights.[s, 0%nat] * Rabs (df.[s, j])) + h).
      { apply abs_of_diff in DZ. rewrite Rabs_mult, (Rabs_pos_eq (weights.[s, 0%nat])) in DZ by auto. lra. }
      apply (Rmult_le_compat_l (Rabs (df.[s, i]))) in Q; auto. assert (Rabs (df.[s, i]) * h <= L * h) by (apply Rmult_le_compat_r; lra). lra.
    - rewrite sumf_plus, sumf_scal_l, sumf_const. fold T N. ring. }
  set (S := sumf M (fun s => df.[s, i] * Z.[s, j])) in *. set (C := sumf M (fun s => weights.[s, 0%nat] * (df.[s, i] * df.[s, j]))) in *.
  set (A := sumf M (fun s => Rabs (df.[s, i] * Z.[s, j]))) in *.
  assert (A0 : 0 <= A) by (apply sumf_nonneg; intros; apply Rabs_pos).
  rewrite pow_add, pow_1. fold g.
  replace (dfl F (t i j) (fun s => df.[s, i]) (fun s => Z.[s, j]) - C) with (dfl F (t i j) (fun s => df.[s, i]) (fun s => Z.[s, j]) - S + (S - C)) by ring.
  eapply Rle_trans; [apply Rabs_triang|].
  assert (K1 : (g0 - 1) * A <= (g - 1) * ((1 + u) * T + N * L * h)) by (apply Rmult_le_compat; lra).
  assert (K2 : g0 * N * h <= g * N * h) by (apply Rmult_le_compat_r; [lra|]; apply Rmult_le_compat_r; auto).
  fold N in E. lra.
Qed.
Print Assumptions C112_matrix.

Section Sub.
  Variables (eigh eigh' : nd R -> res (nd R * nd R)) (argsort argsort' : list R -> list nat).
  Hypothesis (HE : eigh_contract eigh) (HA : argsort_contract argsort) (HE' : eigh_contract eigh') (HA' : argsort_contract argsort').
  Variables (F : format) (t : nat -> nat -> dtree) (M m d : nat) (df weights e V e' V' : nd R) (L : R).
  Hypothesis (Vf : valid F) (Sd : shape df = [M; m]) (Sw : shape weights = [M; 1%nat]) (Hw : forall s, (s < M)%nat -> 0 <= weights.[s, 0%nat]).
  Hypothesis (HL : 0 <= L) (BL : forall s, (s < M)%nat -> sumf m (fun i => df.[s, i] * df.[s, i]) <= L * L).
  Hypothesis Ht : forall i j, (i < m)%nat -> (j < m)%nat -> Permutation (dleaves (t i j)) (seq 0 M) /\ (ddepth (t i j) <= d)%nat.
  Hypothesis (H : active_subspace eigh argsort df weights = Ok (e, V)) (H' : active_subspace_fl eigh' argsort' F t df weights = Ok (e', V')).
  Let g := (1 + ulp1 F) ^ d.
  Let eps := ((1 + ulp1 F) ^ (d + 1) - 1) * (L * L) * sumf M (fun s => weights.[s, 0%nat]) + INR m * (g * INR M * (1 + L) * eta F).
  Let C := gradC M (ent df) (fun s => weights.[s, 0%nat]).

  Lemma entry_le : forall s i, (s < M)%nat -> (i < m)%nat -> Rabs (df.[s, i]) <= L.
  Proof using BL HL.
    intros s i Hs Hi. rewrite <- sqrt_sq_abs, <- (sqrt_square L) by auto. apply sqrt_le_1_alt. eapply Rle_trans; [|exact (BL s Hs)].
    apply (sumf_term_le m (fun i => df.[s, i] * df.[s, i]) i); auto. intros. apply Rle_0_sqr.
  Qed.
  Lemma eps_nonneg : 0 <= eps.
  Proof using HL Hw.
    assert (U := ulp1_pos F). assert (Eh := eta_pos F). assert (1 <= (1 + ulp1 F) ^ (d + 1)) by apply G1. assert (1 <= g) by apply G1.
    assert (0 <= sumf M (fun s => weights.[s, 0%nat])) by (apply sumf_nonneg; auto). assert (Nm := pos_INR m). assert (NM := pos_INR M).
    unfold eps. apply Rplus_le_le_0_compat.
    - apply Rmult_le_pos; auto. apply Rmult_le_pos; [lra|]. now apply Rmult_le_pos.
    - apply Rmult_le_pos; auto. apply Rmult_le_pos; [|lra]. apply Rmult_le_pos; [|lra]. apply Rmult_le_pos; lra.
  Qed.

  (** what the computed eigenvectors and eigenvalues belong to *)
  Lemma computed : exists B mu, eigsorted m B e' V' mu /\ symmetric m B /\
    forall y x, Rabs (bil m (fun i l => B i l - C i l) y x) <= eps * (len m y * len m x).
  Proof using HE' HA' Vf Sd Sw Hw HL BL Ht H'.
    destruct (C112_matrix F t M m df weights d L Vf Sd Sw Hw entry_le Ht) as (Cf & C1 & C2 & C3).
    unfold active_subspace_fl in H'. rewrite (process_inputs_eq _ df M m Sd) in H'. cbn [rbind] in H'. rewrite C1 in H'. cbn [rbind] in H'.
    destruct (sorted_eigh_gen eigh' argsort' HE' HA' Cf e' V' H') as (m' & mu & S1 & S2).
    rewrite C2 in S1. injection S1 as <-. exists (lower (ent Cf)), mu. split; [exact S2|]. split; [apply lower_sym|].
    assert (U := ulp1_pos F). assert (Eh := eta_pos F). assert (1 <= (1 + ulp1 F) ^ (d + 1)) by apply G1. assert (1 <= g) by apply G1. assert (NM := pos_INR M).
    apply (entries_bil M m _ (ent df) (fun s => weights.[s, 0%nat]) ((1 + ulp1 F) ^ (d + 1) - 1) (g * INR M * (1 + L) * eta F) L); auto.
    - lra.
    - apply Rmult_le_pos; [|lra]. apply Rmult_le_pos; [|lra]. apply Rmult_le_pos; lra.
    - intros s Hs. apply len_le; auto. exact (BL s Hs).
    - assert (Q : forall i k, (i < m)%nat -> (k < m)%nat -> Rabs (ent Cf i k - C i k) <= ((1 + ulp1 F) ^ (d + 1) - 1) * gradC M (fun s i => Rabs (ent df s i)) (fun s => weights.[s, 0%nat]) i k + g * INR M * (1 + L) * eta F).
      { intros i k Hi Hk. destruct (C3 i k Hi Hk) as (_ & Q). exact Q. }
      intros i k Hi Hk. unfold lower. destruct (Nat.leb k i); auto.
      unfold C. rewrite (gradC_sym M (ent df) _ m i k Hi Hk). rewrite (gradC_sym M (fun s i => Rabs (ent df s i)) _ m i k Hi Hk). apply Q; auto.
  Qed.

  Lemma fl_eigenvalues : forall j, (j < m)%nat -> Rabs (e'.[j, 0%nat] - e.[j, 0%nat]) <= eps.
  Proof using HE HA HE' HA' Vf Sd Sw Hw HL BL Ht H H'.
    destruct computed as (B & mu & S1 & _ & S3).
    destruct (active_subspace_spec eigh argsort HE HA M m df weights e V Sd Sw H) as (lam & Lm).
    assert (P := gradC_psd M m (ent df) (fun s => weights.[s, 0%nat]) Hw).
    assert (EV := eigsorted_psd_eig _ _ _ _ _ Lm P).
    apply (weyl_abs m C (fun j => e.[j, 0%nat]) (ent V) B mu (fun j => e'.[j, 0%nat]) (ent V') eps); auto.
    - apply (es_orth _ _ _ _ _ Lm).
    - apply (es_dec _ _ _ _ _ Lm).
    - apply (eigsorted_nonneg _ _ _ _ _ Lm).
    - apply (es_orth _ _ _ _ _ S1).
    - apply (es_eig _ _ _ _ _ S1).
    - apply (es_abs _ _ _ _ _ S1).
    - apply (es_dec _ _ _ _ _ S1).
    - apply eps_nonneg.
    - intros x. rewrite !quad_bil, <- bil_minus, <- len_sq. apply S3.
  Qed.

  Lemma fl_subspace : forall norm2 k P, norm2_contract norm2 ->
    let gap := e.[(k - 1)%nat, 0%nat] - e.[k, 0%nat] in
    (1 <= k)%nat -> (k < m)%nat -> eps < gap -> shape P = [k; (m - k)%nat] ->
    (forall a b, (a < k)%nat -> (b < m - k)%nat -> P.[a, b] = sumf m (fun i => V.[i, a] * V'.[i, (k + b)%nat])) ->
    norm2 P <= eps / (gap - eps).
  Proof using HE HA HE' HA' Vf Sd Sw Hw HL BL Ht H H'.
    intros norm2 k P HN gap Hk Hkm HG SP EP.
    assert (W := fl_eigenvalues k Hkm).
    destruct computed as (B & mu & S1 & _ & S3).
    destruct (active_subspace_spec eigh argsort HE HA M m df weights e V Sd Sw H) as (lam & Lm).
    assert (PS := gradC_psd M m (ent df) (fun s => weights.[s, 0%nat]) Hw).
    assert (EV := eigsorted_psd_eig _ _ _ _ _ Lm PS). assert (He := eps_nonneg).
    assert (N2 := HN k (m - k)%nat P SP ltac:(lia) ltac:(lia)).
    destruct (is_norm2_bil k (m - k) (ent P) (norm2 P) ltac:(lia) N2) as (B1 & B2).
    assert (N0 : 0 <= norm2 P) by (apply N2).
    assert (W' : e'.[k, 0%nat] <= e.[k, 0%nat] + eps) by (dabs; lra).
    assert (DK : norm2 P * (e.[(k - 1)%nat, 0%nat] - e'.[k, 0%nat]) <= eps).
    { apply (davis_kahan_abs m C (fun j => e.[j, 0%nat]) (ent V) B mu (ent V') eps k (norm2 P)); auto.
      - intros i l Hi Hl. apply (gradC_sym M _ _ m); auto.
      - apply (es_orth _ _ _ _ _ Lm).
      - apply (es_dec _ _ _ _ _ Lm).
      - apply (es_orth _ _ _ _ _ S1).
      - apply (es_eig _ _ _ _ _ S1).
      - intros j Hj1 Hj2. rewrite <- (es_abs _ _ _ _ _ S1 j Hj2). apply (es_dec _ _ _ _ _ S1); auto.
      - intros y x. rewrite bil_minus, Rabs_minus_sym, <- bil_minus. apply S3.
      - unfold gap in HG. cbv beta. lra.
      - intros y z. specialize (B1 y z). eapply Rle_trans; [|exact B1]. right.
        apply sumf_ext; intros a Ha. apply sumf_ext; intros b Hb. f_equal. f_equal. symmetry. apply EP; auto.
      - destruct B2 as (y & z & B3 & B4 & B5). exists y, z. split; auto. split; auto. rewrite <- B5.
        apply sumf_ext; intros a Ha. apply sumf_ext; intros b Hb. f_equal. f_equal. symmetry. apply EP; auto. }
    apply (Rmult_le_reg_r (gap - eps)); [lra|]. unfold Rdiv. rewrite Rmult_assoc, Rinv_l, Rmult_1_r by lra.
    eapply Rle_trans; [|exact DK]. apply Rmult_le_compat_l; auto. unfold gap. lra.
  Qed.
End Sub.

(** In the four statements below, [t i j] is the order in which the products for entry (i, j) are added, of depth at most d. *)
Theorem C112_eigenvalues : forall eigh argsort eigh' argsort' F t M m d df weights e V e' V' L,
  eigh_contract eigh -> argsort_contract argsort -> eigh_contract eigh' -> argsort_contract argsort' -> valid F ->
  shape df = [M; m] -> shape weights = [M; 1%nat] -> (forall s, (s < M)%nat -> 0 <= weights.[s, 0%nat]) ->
  0 <= L -> (forall s, (s < M)%nat -> sumf m (fun i => df.[s, i] * df.[s, i]) <= L * L) ->
  (forall i j, (i < m)%nat -> (j < m)%nat -> Permutation (dleaves (t i j)) (seq 0 M) /\ (ddepth (t i j) <= d)%nat) ->
  active_subspace eigh argsort df weights = Ok (e, V) -> active_subspace_fl eigh' argsort' F t df weights = Ok (e', V') ->
  let g := (1 + ulp1 F) ^ d in
  let eps := ((1 + ulp1 F) ^ (d + 1) - 1) * (L * L) * sumf M (fun s => weights.[s, 0%nat]) + INR m * (g * INR M * (1 + L) * eta F) in
  forall j, (j < m)%nat -> Rabs (e'.[j, 0%nat] - e.[j, 0%nat]) <= eps.
Proof.
  intros eigh argsort eigh' argsort' F t M m d df weights e V e' V' L HE HA HE' HA' Vf Sd Sw Hw HL BL Ht H H' g eps j Hj.
  exact (fl_eigenvalues eigh eigh' argsort argsort' HE HA HE' HA' F t M m d df weights e V e' V' L Vf Sd Sw Hw HL BL Ht H H' j Hj).
Qed.
Print Assumptions C112_eigenvalues.

Theorem C112_subspace : forall eigh argsort eigh' argsort' norm2 F t M m d df weights e V e' V' L k P,
  eigh_contract eigh -> argsort_contract argsort -> eigh_contract eigh' -> argsort_contract argsort' -> norm2_contract norm2 -> valid F ->
  shape df = [M; m] -> shape weights = [M; 1%nat] -> (forall s, (s < M)%nat -> 0 <= weights.[s, 0%nat]) ->
  0 <= L -> (forall s, (s < M)%nat -> sumf m (fun i => df.[s, i] * df.[s, i]) <= L * L) ->
  (forall i j, (i < m)%nat -> (j < m)%nat -> Permutation (dleaves (t i j)) (seq 0 M) /\ (ddepth (t i j) <= d)%nat) ->
  active_subspace eigh argsort df weights = Ok (e, V) -> active_subspace_fl eigh' argsort' F t df weights = Ok (e', V') ->
  let g := (1 + ulp1 F) ^ d in
  let eps := ((1 + ulp1 F) ^ (d + 1) - 1) * (L * L) * sumf M (fun s => weights.[s, 0%nat]) + INR m * (g * INR M * (1 + L) * eta F) in
  let gap := e.[(k - 1)%nat, 0%nat] - e.[k, 0%nat] in
  (1 <= k)%nat -> (k < m)%nat -> eps < gap -> shape P = [k; (m - k)%nat] ->
  (forall a b, (a < k)%nat -> (b < m - k)%nat -> P.[a, b] = sumf m (fun i => V.[i, a] * V'.[i, (k + b)%nat])) ->
  norm2 P <= eps / (gap - eps).
Proof.
  intros eigh argsort eigh' argsort' norm2 F t M m d df weights e V e' V' L k P HE HA HE' HA' HN Vf Sd Sw Hw HL BL Ht H H'.
  exact (fl_subspace eigh eigh' argsort argsort' HE HA HE' HA' F t M m d df weights e V e' V' L Vf Sd Sw Hw HL BL Ht H H' norm2 k P HN).
Qed.
Print Assumptions C112_subspace.

(** The eigenvectors that come out are orthonormal and ordered even so, and there is an answer whenever eigh gives one. *)
Theorem C112_returns : forall eigh argsort F t M m df weights,
  eigh_contract eigh -> argsort_contract argsort -> eigh_total eigh -> (0 < m)%nat -> shape df = [M; m] -> shape weights = [M; 1%nat] ->
  exists e V, active_subspace_fl eigh argsort F t df weights = Ok (e, V) /\ shape e = [m; 1%nat] /\ shape V = [m; m] /\
    (forall a b, (a < m)%nat -> (b < m)%nat -> sumf m (fun i => V.[i, a] * V.[i, b]) = if Nat.eqb a b then 1 else 0) /\
    (forall j, (j < m)%nat -> 0 <= e.[j, 0%nat]) /\ (forall i j, (i <= j)%nat -> (j < m)%nat -> e.[j, 0%nat] <= e.[i, 0%nat]) /\
    (forall j, (j < m)%nat -> 0 <= V.[0%nat, j]).
Proof.
  intros eigh argsort F t M m df weights HE HA HT Hm Sd Sw.
  destruct (bcast2_colr _ _ _ (fun a b => rnd F (a * b)) df weights M m Sd Sw) as (Z & Z1 & Z2 & Z3).
  unfold active_subspace_fl. rewrite (process_inputs_eq _ df M m Sd). cbn [rbind].
  unfold gradient_matrix_fl. rewrite Z1. cbn [rbind]. rewrite (nrows_shape2 _ df M m Sd), (nrows_shape2 _ Z M m Z2), Nat.eqb_refl. cbn [negb rbind].
  rewrite (ncols_shape2 _ df M m Sd), (ncols_shape2 _ Z M m Z2).
  set (C := mk2 m m _).
  destruct (sorted_eigh_returns eigh argsort HE m C HT Hm eq_refl) as ((e & V) & H).
  destruct (sorted_eigh_gen eigh argsort HE HA C e V H) as (m' & lam & S1 & S2). injection S1 as <-.
  exists e, V. split; auto. split; [apply (es_e _ _ _ _ _ S2)|]. split; [apply (es_V _ _ _ _ _ S2)|]. split; [intros a b Ha Hb; apply (es_orth _ _ _ _ _ S2); auto|].
  split; [apply (eigsorted_nonneg _ _ _ _ _ S2)|]. split; [intros i j Hi Hj; apply (es_dec _ _ _ _ _ S2); auto|exact (es_row0 _ _ _ _ _ S2)].
Qed.
Print Assumptions C112_returns.

(** One gradient (5, 2^52 + 1) with weight 5: the entries (0, 1) and (1, 0) are
    5 * rnd (5 * (2^52 + 1)) and (2^52 + 1) * 25, rounded, and differ by 16. *)
Definition df112 : nd R := mat_of [[5; 4503599627370497]].
Definition w112 : nd R := mat_of [[5]].
Lemma rnd_big : forall n k e, (0 < n)%Z -> (2 ^ (e + 52) <= n)%Z -> (n < 2 ^ (e + 53))%Z -> (0 < e)%Z -> (2 * Z.abs (n - k * 2 ^ e) < 2 ^ e)%Z ->
  rnd binary64 (IZR n) = IZR (k * 2 ^ e).
Proof.
  intros n k e Hn H1 H2 He H3. assert (P := bpow_pos e).
  assert (B : bpow e = IZR (2 ^ e)) by (apply bpow_IZR; lia).
  rewrite mult_IZR, <- B. replace e with (e + 52 - f_prec binary64 + 1)%Z at 1 by (cbn; lia). apply rnd_eval.
  - rewrite Rabs_pos_eq by (apply IZR_le; lia). replace (e + 52 + 1)%Z with (e + 53)%Z by lia. rewrite !bpow_IZR by lia. split; [apply IZR_le|apply IZR_lt]; auto.
  - cbn. lia.
  - replace (e + 52 - f_prec binary64 + 1)%Z with e by (cbn; lia). apply near_lt.
    replace (IZR n / bpow e - IZR k) with (IZR (n - k * 2 ^ e) / bpow e) by (rewrite minus_IZR, mult_IZR, <- B; field; lra).
    unfold Rdiv. rewrite Rabs_mult, (Rabs_pos_eq (/ bpow e)) by (left; now apply Rinv_0_lt_compat). apply (Rmult_lt_reg_r (2 * bpow e)); [lra|].
    replace (/ 2 * (2 * bpow e)) with (bpow e) by field. replace (Rabs (IZR (n - k * 2 ^ e)) * / bpow e * (2 * bpow e)) with (2 * Rabs (IZR (n - k * 2 ^ e))) by (field; lra).
    rewrite <- abs_IZR, <- mult_IZR, B. now apply IZR_lt.
Qed.
Lemma fmt_Z : forall n, (Z.abs n <=? 2 ^ 53)%Z = true -> fmt binary64 (IZR n).
Proof. intros n Hn. apply (fmt_by binary64 n 0); auto. rewrite bpow_0. ring. Qed.

Theorem C112_symmetric_refuted : exists F df weights C, valid F /\
  shape df = [1%nat; 2%nat] /\ shape weights = [1%nat; 1%nat] /\
  (forall i, (i < 2)%nat -> fmt F (df.[0%nat, i])) /\ fmt F (weights.[0%nat, 0%nat]) /\
  gradient_matrix_fl F (fun _ _ => Prod 0) df weights = Ok C /\ C.[1%nat, 0%nat] - C.[0%nat, 1%nat] = 16.
Proof.
  exists binary64, df112, w112. eexists. split; [exact valid64|]. split; [reflexivity|]. split; [reflexivity|]. split; [|split; [|split; [reflexivity|]]].
  - intros [|[|i]] Hi; try lia; apply fmt_Z; reflexivity.
  - apply fmt_Z; reflexivity.
  - change (rnd binary64 (4503599627370497 * rnd binary64 (5 * 5)) - rnd binary64 (5 * rnd binary64 (4503599627370497 * 5)) = 16).
    rewrite <- !mult_IZR. rewrite (fmt_fix binary64 valid64 (IZR (5 * 5))) by (apply fmt_Z; reflexivity).
    rewrite (rnd_big (4503599627370497 * 5) 5629499534213121 2) by (vm_compute; (reflexivity || discriminate)). rewrite <- !mult_IZR.
    rewrite (rnd_big (4503599627370497 * (5 * 5)) 7036874417766402 4) by (vm_compute; (reflexivity || discriminate)).
    rewrite (rnd_big (5 * (5629499534213121 * 2 ^ 2)) 7036874417766401 4) by (vm_compute; (reflexivity || discriminate)).
    rewrite <- minus_IZR. reflexivity.
Qed.
Print Assumptions C112_symmetric_refuted.

(** the data of C12_case in binary64: the eigenvalue 62.5 and the direction come out with an error below 1e-12 *)
Example C112_case : exists e V e' V', active_subspace eigh_ref argsort_ref df11 w11 = Ok (e, V) /\
  active_subspace_fl eigh_ref argsort_ref binary64 (fun _ _ => Fma (Prod 1) 0) df11 w11 = Ok (e', V') /\
  Rabs (e'.[0%nat, 0%nat] - 125 / 2) <= / 10 ^ 12 /\
  norm2_ref (mk2 1 1 (fun _ _ => sumf 2 (fun i => V.[i, 0%nat] * V'.[i, 1%nat]))) < / 10 ^ 12.
Proof.
  destruct C12_case as (e & V & H & E0 & E1).
  destruct (C112_returns eigh_ref argsort_ref binary64 (fun _ _ => Fma (Prod 1) 0) 2 2 df11 w11 eigh_ref_contract argsort_ref_contract eigh_ref_total ltac:(lia) eq_refl eq_refl) as (e' & V' & H' & _).
  exists e, V, e', V'. split; auto. split; auto.
  assert (BL : forall s, (s < 2)%nat -> sumf 2 (fun i => df11.[s, i] * df11.[s, i]) <= 10 * 10) by (intros [|[|s]] Hs; try lia; cbn; lra).
  assert (Ht : forall i j : nat, (i < 2)%nat -> (j < 2)%nat -> Permutation (dleaves (Fma (Prod 1) 0)) (seq 0 2) /\ (ddepth (Fma (Prod 1) 0) <= 2)%nat).
  { intros i j _ _. split; [apply perm_swap|cbn; lia]. }
  pose proof (C112_eigenvalues eigh_ref argsort_ref eigh_ref argsort_ref binary64 (fun _ _ => Fma (Prod 1) 0) 2 2 2 df11 w11 e V e' V' 10 eigh_ref_contract argsort_ref_contract
     eigh_ref_contract argsort_ref_contract valid64 eq_refl eq_refl w11_nonneg ltac:(lra) BL Ht H H') as ES.
  pose proof (C112_subspace eigh_ref argsort_ref eigh_ref argsort_ref norm2_ref binary64 (fun _ _ => Fma (Prod 1) 0) 2 2 2 df11 w11 e V e' V' 10 1
     (mk2 1 1 (fun _ _ => sumf 2 (fun i => V.[i, 0%nat] * V'.[i, 1%nat]))) eigh_ref_contract argsort_ref_contract
     eigh_ref_contract argsort_ref_contract norm2_ref_contract valid64 eq_refl eq_refl w11_nonneg ltac:(lra) BL Ht H H') as SS.
  cbv zeta in ES, SS.
  set (eps := ((1 + ulp1 binary64) ^ (2 + 1) - 1) * (10 * 10) * sumf 2 (fun s => w11.[s, 0%nat]) + INR 2 * ((1 + ulp1 binary64) ^ 2 * INR 2 * (1 + 10) * eta binary64)) in *.
  assert (B : 0 <= eps <= / 10 ^ 12).
  { unfold eps. replace (sumf 2 (fun s => w11.[s, 0%nat])) with 1 by (cbn; lra). replace (INR 2) with 2 by (cbn; lra).
    assert (U : 0 < ulp1 binary64 <= / 10 ^ 15).
    { split; [apply ulp1_pos|]. unfold ulp1. change (- f_prec binary64)%Z with (-(53))%Z. rewrite pow2m by lia. apply Rinv_le_contravar; [apply pow_lt; lra|].
      rewrite pow_IZR. apply IZR_le. cbn. lia. }
    destruct (Heta binary64 valid64) as (X1 & X2). fold (eta binary64) (ulp1 binary64) in X1, X2.
    set (u := ulp1 binary64) in *. set (h := eta binary64) in *. clearbody u h.
    cbn [pow Nat.add] in *. assert (u * u <= u) by nra. assert (u * u * u <= u) by nra. assert (0 <= u * u) by nra. assert (u * h <= h) by nra. assert (u * u * h <= h) by nra. 
    assert (0 <= u * u * u) by nra. assert (0 <= u * h) by nra. assert (0 <= u * u * h) by nra. split; lra. }
  assert (T : / 10 ^ 12 < 1) by (cbn; lra).
  split; [rewrite <- E0; eapply Rle_trans; [apply ES; lia|lra]|].
  change (1 - 1)%nat with 0%nat in SS. rewrite E0, E1 in SS.
  eapply Rle_lt_trans; [apply SS; auto; try lra; try lia|].
  - intros a b Ha Hb. replace a with 0%nat by lia. replace b with 0%nat by lia. reflexivity.
  - apply (Rmult_lt_reg_r (125 / 2 - 0 - eps)); [lra|]. unfold Rdiv at 1. rewrite Rmult_assoc, Rinv_l by lra. assert (0 < / 10 ^ 12) by (apply Rinv_0_lt_compat, pow_lt; lra). nra.
Qed.
