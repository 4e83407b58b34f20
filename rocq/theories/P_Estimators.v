(** Facts about active_subspace, ols_subspace, qphd_subspace, opg_subspace *)
From Coq Require Import String Reals Lra Lia List Arith ZArith Bool Permutation.
From Verif Require Import Prelude Py NumArr LinAlg Lsq Sorting Spectral M_Misc P_Misc M_RespSurf P_IndexSet P_Poly P_PolyTrain P_PolyFacts M_Gradients M_Subspaces P_Subspaces.
Import ListNotations.
Open Scope R_scope.

(** ** Ridge structure *)

(** eigenvectors with nonzero eigenvalue lie in the span of the gradients *)
Lemma gradC_range : forall M m D w lam V k B c j, eigcols m (gradC M D w) lam V -> (j < m)%nat -> lam j <> 0 ->
  (forall s i, (s < M)%nat -> w s <> 0 -> (i < m)%nat -> D s i = sumf k (fun a => c s a * B a i)) ->
  exists u, forall i, (i < m)%nat -> V i j = sumf k (fun a => u a * B a i).
Proof.
  intros M m D w lam V k B c j HE Hj Hl HS.
  exists (fun a => / lam j * sumf M (fun s => w s * dot m (D s) (fun i => V i j) * c s a)).
  intros i Hi.
  apply (Rmult_eq_reg_l (lam j)); auto. rewrite <- (HE i j Hi Hj). unfold gradC.
  rewrite (sumf_ext m _ (fun q => sumf M (fun s => w s * D s i * (D s q * V q j)))).
  2: { intros q Hq. rewrite <- sumf_scal_r. apply sumf_ext; intros; ring. }
  rewrite sumf_swap.
  transitivity (sumf k (fun a => sumf M (fun s => w s * dot m (D s) (fun i => V i j) * c s a) * B a i)).
  2: { rewrite <- sumf_scal_l. apply sumf_ext; intros a Ha. field; auto. }
  rewrite (sumf_ext k _ (fun a => sumf M (fun s => w s * dot m (D s) (fun i => V i j) * (c s a * B a i)))).
  2: { intros a Ha. rewrite <- sumf_scal_r. apply sumf_ext; intros; ring. }
  rewrite (sumf_swap k M). apply sumf_ext; intros s Hs.
  rewrite !sumf_scal_l. fold (dot m (D s) (fun i => V i j)).
  destruct (Req_dec (w s) 0) as [E|E]; [rewrite E; ring|].
  rewrite <- HS by auto. ring.
Qed.

(** at most k eigenvalues are nonzero when the gradients span at most k directions *)
Lemma gradC_rank : forall M m D w e V lam k B c, eigsorted m (gradC M D w) e V lam ->
  (forall s i, (s < M)%nat -> w s <> 0 -> (i < m)%nat -> D s i = sumf k (fun a => c s a * B a i)) ->
  forall j, (k <= j)%nat -> (j < m)%nat -> e.[j, 0%nat] = 0.
Proof.
  intros M m D w e V lam k B c H HS j Hk Hj.
  destruct (Req_dec (e.[j, 0%nat]) 0) as [|N]; auto. exfalso.
  assert (P := eigsorted_nonneg _ _ _ _ _ H j Hj).
  assert (HL : forall i, (i <= j)%nat -> lam i <> 0).
  { intros i Hi E. assert (D1 := es_dec _ _ _ _ _ H i j Hi Hj). simpl in D1.
    rewrite (es_abs _ _ _ _ _ H i) in D1 by lia. rewrite E, Rabs_R0 in D1. lra. }
  (* k+1 orthonormal vectors as combinations of k vectors *)
  assert (HU : exists u : nat -> nat -> R, forall q, (q < S k)%nat -> forall i, (i < m)%nat -> ent V i q = sumf k (fun a => u q a * B a i)).
  { assert (HA : forall n, (n <= S k)%nat -> exists u : nat -> nat -> R, forall q, (q < n)%nat -> forall i, (i < m)%nat -> ent V i q = sumf k (fun a => u q a * B a i)).
    { induction n as [|n IH]; intros Hn; [exists (fun _ _ => 0); intros; lia|].
      destruct IH as (u & Hu); [lia|].
      destruct (gradC_range M m D w lam (ent V) k B c n (es_eig _ _ _ _ _ H)) as (u1 & Hu1); auto; try lia.
      { apply HL. lia. }
      exists (fun q => if Nat.eqb q n then u1 else u q). intros q Hq i Hi. destruct (Nat.eqb_spec q n) as [->|Nq]; auto.
      apply Hu; auto. lia. }
    apply (HA (S k)); lia. }
  destruct HU as (u & Hu).
  destruct (lin_dep k (S k) u ltac:(lia)) as (d & (i0 & Hi0 & Hd) & Hz).
  apply Hd. apply (orthonormal_indep m (S k) (ent V)) with (c := d); auto.
  - apply (orthonormal_sub m m); [apply (es_orth _ _ _ _ _ H)|lia].
  - intros i Hi. rewrite (sumf_ext (S k) _ (fun q => sumf k (fun a => d q * u q a * B a i))).
    2: { intros q Hq. rewrite Hu by auto. rewrite <- sumf_scal_l. apply sumf_ext; intros; ring. }
    rewrite sumf_swap. apply sumf_zero; intros a Ha. rewrite sumf_scal_r, Hz by auto. ring.
Qed.

(** ** Rank-one matrices *)
Lemma rank_one : forall m b e V lam, eigsorted m (fun i k => b i * b k) e V lam ->
  e.[0%nat, 0%nat] = dot m b b /\ (forall j, (1 <= j)%nat -> (j < m)%nat -> e.[j, 0%nat] = 0) /\
  (dot m b b <> 0 -> exists s, (s = 1 \/ s = -1) /\ forall i, (i < m)%nat -> V.[i, 0%nat] = s * (b i / sqrt (dot m b b))).
Proof.
  intros m b e V lam H. assert (Hm := es_m _ _ _ _ _ H).
  assert (HC : forall i k, (i < m)%nat -> (k < m)%nat -> b i * b k = gradC 1 (fun _ => b) (fun _ => 1) i k)
    by (intros; unfold gradC; simpl; ring).
  pose proof (eigsorted_ext m _ _ e V lam HC H) as HG.
  assert (HP : psd m (gradC 1 (fun _ => b) (fun _ => 1))) by (apply gradC_psd; intros; lra).
  assert (HR : forall j, (1 <= j)%nat -> (j < m)%nat -> e.[j, 0%nat] = 0).
  { intros j H1 H2. apply (gradC_rank 1 m (fun _ => b) (fun _ => 1) e V lam 1 (fun _ => b) (fun _ _ => 1)); auto.
    intros; simpl; ring. }
  assert (HT := trace_spectral m _ _ _ (es_orth _ _ _ _ _ HG) (eigsorted_psd_eig _ _ _ _ _ HG HP)).
  assert (E0 : e.[0%nat, 0%nat] = dot m b b).
  { rewrite (sumf_single m 0 (fun j => e.[j, 0%nat])) in HT; auto.
    - rewrite <- HT. apply sumf_ext; intros; unfold gradC; simpl; ring.
    - intros i Hi N. apply HR; auto; lia. }
  split; auto. split; auto. intros Hb.
  destruct (gradC_range 1 m (fun _ => b) (fun _ => 1) lam (ent V) 1 (fun _ => b) (fun _ _ => 1) 0 (es_eig _ _ _ _ _ HG)) as (u & Hu); auto.
  { rewrite (eigsorted_psd _ _ _ _ _ HG HP) by auto. now rewrite E0. }
  { intros; simpl; ring. }
  simpl in Hu.
  assert (Hpos : 0 < dot m b b) by (pose proof (dot_self_nonneg m b); lra).
  assert (Hn : u 0%nat * u 0%nat * dot m b b = 1).
  { rewrite <- (kd_same 0). rewrite <- (es_orth _ _ _ _ _ HG 0%nat 0%nat Hm Hm).
    unfold dot. rewrite <- sumf_scal_l. apply sumf_ext; intros i Hi. rewrite Hu by auto. ring. }
  assert (Hs : sqrt (dot m b b) * sqrt (dot m b b) = dot m b b) by (apply sqrt_sqrt; lra).
  assert (Hs0 : sqrt (dot m b b) <> 0) by (apply Rgt_not_eq, sqrt_lt_R0; auto).
  exists (u 0%nat * sqrt (dot m b b)). split.
  - assert (Q : (u 0%nat * sqrt (dot m b b) - 1) * (u 0%nat * sqrt (dot m b b) + 1) = 0).
    { replace ((u 0%nat * sqrt (dot m b b) - 1) * (u 0%nat * sqrt (dot m b b) + 1))
        with (u 0%nat * u 0%nat * (sqrt (dot m b b) * sqrt (dot m b b)) - 1) by ring. rewrite Hs. lra. }
    apply Rmult_integral in Q. destruct Q; [left|right]; lra.
  - intros i Hi. change (V.[i, 0%nat]) with (ent V i 0%nat). rewrite Hu by auto. field. auto.
Qed.

(** ** OLS *)
(** weighted residual sum of squares of the affine model a + b.x *)
Definition wls (M m : nat) (X f w : nd R) (a : R) (b : nat -> R) : R :=
  sumf M (fun i => w.[i, 0%nat] * ((f.[i, 0%nat] - a - sumf m (fun j => b j * X.[i, j]))
                                 * (f.[i, 0%nat] - a - sumf m (fun j => b j * X.[i, j])))).

Definition aug (X : nd R) (i j : nat) : R := match j with O => 1 | S j' => X.[i, j'] end.

Section Ols.
  Variable eigh : nd R -> res (nd R * nd R).
  Variable argsort : list R -> list nat.
  Variable lstsq : nd R -> nd R -> res (nd R).
  Hypothesis Heigh : eigh_contract eigh.
  Hypothesis Hsort : argsort_contract argsort.
  Hypothesis HL : lstsq_contract lstsq.

  Lemma ols_subspace_steps : forall M m X f w, shape X = [M; m] -> shape f = [M; 1%nat] -> shape w = [M; 1%nat] ->
    exists A b, shape A = [M; S m] /\ shape b = [M; 1%nat] /\
      (forall i j, (i < M)%nat -> (j < S m)%nat -> A.[i, j] = aug X i j * sqrt (w.[i, 0%nat])) /\
      (forall i, (i < M)%nat -> b.[i, 0%nat] = f.[i, 0%nat] * sqrt (w.[i, 0%nat])) /\
      ols_subspace eigh argsort lstsq X f w = (do u <- lstsq A b;
        do v <- reshape [m; 1%nat] (rows_slice u 1 (nrows u)); do C <- mdot v (tr v); sorted_eigh eigh argsort C).
  Proof.
    intros M m X f w HX Hf Hw. unfold ols_subspace. rewrite (process_io_eq _ X f M m HX Hf). cbn [rbind].
    unfold hstack. rewrite HX. cbn [shape ones2 mk2]. rewrite Nat.eqb_refl. cbn [rbind].
    set (A0 := mk2 M (1 + m) _).
    assert (Hw' : shape (amap sqrt w) = [M; 1%nat]) by exact Hw.
    destruct (bcast2_colr _ _ _ Rmult A0 (amap sqrt w) M (1 + m) eq_refl Hw') as (A & E1 & E2 & E3).
    destruct (bcast2_colr _ _ _ Rmult f (amap sqrt w) M 1 Hf Hw') as (b & F1 & F2 & F3).
    rewrite E1, F1. cbn [rbind]. exists A, b. split; [exact E2|]. split; [exact F2|]. split; [|split; [|reflexivity]].
    - intros i j Hi Hj. rewrite E3 by auto. unfold A0. rewrite at_mk2. unfold aug.
      destruct j as [|j]; cbn [Nat.ltb Nat.leb]; [reflexivity|]. replace (S j - 1)%nat with j by lia. reflexivity.
    - intros i Hi. rewrite F3 by (auto; lia). reflexivity.
  Qed.

  Lemma wls_rss : forall M m X f w A b u, (forall i, (i < M)%nat -> 0 <= w.[i, 0%nat]) ->
    (forall i j, (i < M)%nat -> (j < S m)%nat -> A i j = aug X i j * sqrt (w.[i, 0%nat])) ->
    (forall i, (i < M)%nat -> b i = f.[i, 0%nat] * sqrt (w.[i, 0%nat])) ->
    rss M (S m) A b u = wls M m X f w (u 0%nat) (fun j => u (S j)).
  Proof.
    intros M m X f w A b u Hw HA Hb. unfold rss, wls. apply sumf_ext; intros i Hi. unfold resid.
    rewrite (sumf_ext (S m) _ (fun j => sqrt (w.[i, 0%nat]) * (aug X i j * u j))) by (intros; rewrite HA by auto; ring).
    rewrite sumf_scal_l, sumf_shift. cbn [aug]. rewrite Hb by auto.
    rewrite (sumf_ext m (fun i0 => X.[i, i0] * u (S i0)) (fun j => u (S j) * X.[i, j])) by (intros; ring).
    set (q := sumf m _).
    replace (w.[i, 0%nat]) with (sqrt (w.[i, 0%nat]) * sqrt (w.[i, 0%nat])) at 5 by (apply sqrt_sqrt; auto). ring.
  Qed.

  Lemma ols_subspace_spec : forall M m X f w e V, shape X = [M; m] -> shape f = [M; 1%nat] -> shape w = [M; 1%nat] ->
    (forall i, (i < M)%nat -> 0 <= w.[i, 0%nat]) ->
    ols_subspace eigh argsort lstsq X f w = Ok (e, V) ->
    exists a b lam, (forall a' b', wls M m X f w a b <= wls M m X f w a' b') /\
      eigsorted m (fun i k => b i * b k) e V lam.
  Proof.
    intros M m X f w e V HX Hf Hw Hpos H.
    destruct (ols_subspace_steps M m X f w HX Hf Hw) as (A & b & SA & Sb & EA & Eb & ES). rewrite ES in H.
    apply rbind_ok in H. destruct H as (u & Hu & H). destruct (HL M (S m) A b u SA Sb Hu) as (Su & Hmin).
    rewrite (nrows_shape2 _ u (S m) 1 Su) in H.
    assert (Ssl : shape (rows_slice u 1 (S m)) = [m; 1%nat]).
    { unfold rows_slice. rewrite shape_mk2, (nrows_shape2 _ u (S m) 1 Su), (ncols_shape2 _ u (S m) 1 Su).
      rewrite Nat.min_id. do 2 f_equal. lia. }
    rewrite <- Ssl in H at 1. rewrite reshape_id in H. cbn [rbind] in H.
    set (v := rows_slice u 1 (S m)) in *.
    assert (Strv : shape (tr v) = [1%nat; m]).
    { unfold tr. rewrite shape_mk2, (nrows_shape2 _ v m 1 Ssl), (ncols_shape2 _ v m 1 Ssl). reflexivity. }
    rewrite (mdot_ok v (tr v) m 1 m Ssl Strv) in H. cbn [rbind] in H.
    set (C := mk2 m m _) in H.
    assert (EC : forall i k, (i < m)%nat -> (k < m)%nat -> ent C i k = u.[S i, 0%nat] * u.[S k, 0%nat]).
    { intros i k Hi Hk. unfold ent, C. rewrite at_mk2. cbn [sumf]. unfold tr. rewrite at_mk2. unfold v, rows_slice. rewrite !at_mk2. simpl. ring. }
    destruct (sorted_eigh_spec eigh argsort Heigh Hsort m C e V eq_refl) as (lam & HE); auto.
    { intros i k Hi Hk. rewrite !EC by auto. ring. }
    exists (u.[0%nat, 0%nat]), (fun j => u.[S j, 0%nat]), lam. split.
    - intros a' b'. specialize (Hmin (fun j => match j with O => a' | S j' => b' j' end)).
      rewrite !(wls_rss M m X f w (fun i j => A.[i, j]) (fun i => b.[i, 0%nat])) in Hmin by auto. exact Hmin.
    - apply (eigsorted_ext m (ent C)); auto.
  Qed.

  (** the minimiser is unique on a full-rank, positively weighted design *)
  Lemma wls_exact : forall M m X f w a b a0 b0, (forall i, (i < M)%nat -> 0 < w.[i, 0%nat]) ->
    full_rank M (S m) (aug X) ->
    (forall i, (i < M)%nat -> f.[i, 0%nat] = a0 + sumf m (fun j => b0 j * X.[i, j])) ->
    (forall a' b', wls M m X f w a b <= wls M m X f w a' b') ->
    a = a0 /\ forall j, (j < m)%nat -> b j = b0 j.
  Proof.
    intros M m X f w a b a0 b0 Hw HR Hf Hmin.
    assert (Z : wls M m X f w a0 b0 = 0).
    { apply sumf_zero; intros i Hi. rewrite Hf by auto. ring. }
    specialize (Hmin a0 b0). rewrite Z in Hmin.
    assert (Hnn : forall i, (i < M)%nat -> 0 <= w.[i, 0%nat] * ((f.[i, 0%nat] - a - sumf m (fun j => b j * X.[i, j]))
                                 * (f.[i, 0%nat] - a - sumf m (fun j => b j * X.[i, j])))).
    { intros i Hi. apply Rmult_le_pos; [left; auto|apply Rle_0_sqr]. }
    assert (E : wls M m X f w a b = 0) by (apply Rle_antisym; auto; apply sumf_nonneg; auto).
    pose proof (sumf_nonneg_eq0 M _ Hnn E) as HZ. cbv beta in HZ.
    set (x := fun j => match j with O => a - a0 | S j' => b j' - b0 j' end).
    assert (Hx : forall j, (j < S m)%nat -> x j = 0).
    { apply HR. intros i Hi. rewrite sumf_shift. cbn [aug x].
      rewrite (sumf_ext m _ (fun j => b j * X.[i, j] - b0 j * X.[i, j])) by (intros; ring). rewrite sumf_minus.
      specialize (HZ i Hi). apply Rmult_integral in HZ. destruct HZ as [HZ|HZ]; [specialize (Hw i Hi); lra|].
      apply Rmult_integral in HZ. rewrite Hf in HZ by auto. destruct HZ; lra. }
    split; [specialize (Hx 0%nat ltac:(lia)); simpl in Hx; lra|].
    intros j Hj. specialize (Hx (S j) ltac:(lia)). simpl in Hx. lra.
  Qed.

  Lemma ols_subspace_returns : forall M m X f w, lstsq_total lstsq -> eigh_total eigh -> (0 < m)%nat ->
    shape X = [M; m] -> shape f = [M; 1%nat] -> shape w = [M; 1%nat] ->
    exists r, ols_subspace eigh argsort lstsq X f w = Ok r.
  Proof.
    intros M m X f w HT HET Hm HX Hf Hw.
    destruct (ols_subspace_steps M m X f w HX Hf Hw) as (A & b & SA & Sb & EA & Eb & ES). rewrite ES.
    destruct (HT M (S m) A b SA Sb) as (u & Hu). rewrite Hu. cbn [rbind].
    destruct (HL M (S m) A b u SA Sb Hu) as (Su & _).
    rewrite (nrows_shape2 _ u (S m) 1 Su).
    assert (Ssl : shape (rows_slice u 1 (S m)) = [m; 1%nat]).
    { unfold rows_slice. rewrite shape_mk2, (nrows_shape2 _ u (S m) 1 Su), (ncols_shape2 _ u (S m) 1 Su).
      rewrite Nat.min_id. do 2 f_equal. lia. }
    set (v := rows_slice u 1 (S m)) in *.
    assert (ER : reshape [m; 1%nat] v = Ok v) by (rewrite <- Ssl; apply reshape_id).
    rewrite ER. cbn [rbind].
    assert (Strv : shape (tr v) = [1%nat; m]).
    { unfold tr. rewrite shape_mk2, (nrows_shape2 _ v m 1 Ssl), (ncols_shape2 _ v m 1 Ssl). reflexivity. }
    rewrite (mdot_ok v (tr v) m 1 m Ssl Strv). cbn [rbind].
    apply (sorted_eigh_returns eigh argsort Heigh m); auto.
  Qed.
End Ols.
