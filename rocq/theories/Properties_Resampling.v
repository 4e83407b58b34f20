(** Final statements about sampling error: C91.
    M samples drawn from K ones (the bootstrap: M = K; Monte Carlo sampling: the K are the population). *)
From Coq Require Import String Reals Lra Lia List Arith ZArith Bool.
From Verif Require Import Prelude Py NumArr LinAlg Lsq Sorting Spectral Perturb M_Subspaces P_Subspaces
  EighRef P_Partition P_Bootstrap P_SubsState Toy Properties_Subspaces Properties_SubsState P_Stability P_Resampling.
Import ListNotations.
Open Scope R_scope.

(** gradients of the drawn samples, and their weights scaled to keep the total comparable *)
Definition resampled (K M m : nat) (df weights : nd R) (ind : list nat) (df0 w0 : nd R) : Prop :=
  shape df0 = [M; m] /\ shape w0 = [M; 1%nat] /\
  (forall i j, (i < M)%nat -> (j < m)%nat -> df0.[i, j] = df.[nth i ind 0%nat, j]) /\
  (forall i, (i < M)%nat -> w0.[i, 0%nat] = INR K / INR M * weights.[nth i ind 0%nat, 0%nat]).

(** squared length of gradient s *)
Definition glen2 (df : nd R) (m s : nat) : R := sumf m (fun i => df.[s, i] * df.[s, i]).

(** the mean square error of the sampled matrix, summed over its entries *)
Definition spread (K M m : nat) (df weights e : nd R) : R :=
  INR K / INR M * sumf K (fun s => weights.[s, 0%nat] * weights.[s, 0%nat] * (glen2 df m s * glen2 df m s))
  - sumf m (fun j => e.[j, 0%nat] * e.[j, 0%nat]) / INR M.

Section Resampling.
  Variables (K M m : nat) (df weights : nd R).
  Hypothesis HK : (0 < K)%nat.
  Hypothesis HM : (0 < M)%nat.
  Let C : nat -> nat -> R := gradC K (ent df) (fun s => weights.[s, 0%nat]).
  Let a (i k s : nat) : R := weights.[s, 0%nat] * (df.[s, i] * df.[s, k]).
  Let Cl (l : list nat) (i k : nat) : R := INR K / INR M * lsum (a i k) l.

  Lemma resampled_C : forall ind df0 w0, drawn_from K M ind -> resampled K M m df weights ind df0 w0 ->
    forall i k, (i < m)%nat -> (k < m)%nat -> gradC M (ent df0) (fun s => w0.[s, 0%nat]) i k = Cl ind i k.
  Proof.
    intros ind df0 w0 (L & _) (S1 & S2 & E1 & E2) i k Hi Hk. unfold Cl, gradC. rewrite lsum_nth, L, <- sumf_scal_l.
    apply sumf_ext; intros s Hs. unfold ent, a. rewrite !E1, E2 by auto. ring.
  Qed.

  Lemma Cl_mean : forall i k, draw_mean K M (fun l => Cl l i k) = C i k.
  Proof.
    intros i k. unfold Cl. rewrite draw_mean_scal, draw_mean_lsum by auto. unfold C, gradC, a, ent.
    field. split; apply not_0_INR; lia.
  Qed.

  Lemma Cl_square : forall i k, draw_mean K M (fun l => (Cl l i k - C i k) * (Cl l i k - C i k)) =
    INR K / INR M * sumf K (fun s => a i k s * a i k s) - C i k * C i k / INR M.
  Proof.
    intros i k.
    rewrite (draw_mean_ext K M _ (fun l => (INR K / INR M * (INR K / INR M)) * (lsum (a i k) l * lsum (a i k) l)
        + ((- 2 * C i k) * Cl l i k + C i k * C i k))).
    2: { intros l Hl. unfold Cl. ring. }
    rewrite !draw_mean_plus, !draw_mean_scal, Cl_mean, draw_mean_const, draw_mean_lsum2 by auto.
    assert (E : sumf K (a i k) = C i k) by reflexivity. rewrite E.
    field. split; apply not_0_INR; lia.
  Qed.

  Lemma Cl_frob : forall e lam V, orthonormal m m V -> eigcols m C lam V -> (forall j, (j < m)%nat -> e.[j, 0%nat] = lam j) ->
    draw_mean K M (fun l => frob m (fun i k => Cl l i k - C i k) (fun i k => Cl l i k - C i k)) = spread K M m df weights e.
  Proof.
    intros e lam V HO HE He. unfold frob at 1.
    rewrite (draw_mean_sum K M m (fun i l => sumf m (fun k => (Cl l i k - C i k) * (Cl l i k - C i k)))).
    rewrite (sumf_ext m _ (fun i => sumf m (fun k => INR K / INR M * sumf K (fun s => a i k s * a i k s) - C i k * C i k / INR M))).
    2: { intros i Hi. rewrite (draw_mean_sum K M m (fun k l => (Cl l i k - C i k) * (Cl l i k - C i k))).
         apply sumf_ext; intros k Hk. apply Cl_square. }
    unfold spread. f_equal.
    transitivity (INR K / INR M * sumf m (fun i => sumf m (fun k => sumf K (fun s => a i k s * a i k s))) - frob m C C / INR M).
    { unfold frob. rewrite <- sumf_scal_l, <- sumf_div, <- sumf_minus. apply sumf_ext; intros i Hi.
      rewrite sumf_minus, sumf_div, sumf_scal_l. reflexivity. }
    f_equal.
    - f_equal. rewrite (sumf_ext m _ (fun i => sumf K (fun s => sumf m (fun k => a i k s * a i k s)))) by (intros; apply sumf_swap).
      rewrite sumf_swap. apply sumf_ext; intros s Hs. unfold glen2. rewrite sumf_mul, <- sumf_scal_l.
      apply sumf_ext; intros i Hi. rewrite <- sumf_scal_l. apply sumf_ext; intros k Hk. unfold a. ring.
    - f_equal. rewrite (frob_self m C lam V HO HE). apply sumf_ext; intros. now rewrite He.
  Qed.
End Resampling.

Section C91.
  Variables (eigh eigh' : nd R -> res (nd R * nd R)) (argsort argsort' : list R -> list nat).
  Variables (K M m : nat) (df weights e V : nd R) (eb Vb : list nat -> nd R).

  (** the population result, and the result for each possible draw *)
  Definition resampling_study : Prop :=
    eigh_contract eigh /\ argsort_contract argsort /\ eigh_contract eigh' /\ argsort_contract argsort' /\
    (0 < K)%nat /\ (0 < M)%nat /\ shape df = [K; m] /\ shape weights = [K; 1%nat] /\
    (forall s, (s < K)%nat -> 0 <= weights.[s, 0%nat]) /\
    active_subspace eigh argsort df weights = Ok (e, V) /\
    (forall ind, List.length ind = M -> Forall (fun k => (k < K)%nat) ind ->
       exists df0 w0, resampled K M m df weights ind df0 w0 /\ active_subspace eigh' argsort' df0 w0 = Ok (eb ind, Vb ind)).

  Hypothesis Study : resampling_study.
  Let C : nat -> nat -> R := gradC K (ent df) (fun s => weights.[s, 0%nat]).
  Let Cl (l : list nat) (i k : nat) : R := INR K / INR M * lsum (fun s => weights.[s, 0%nat] * (df.[s, i] * df.[s, k])) l.

  Lemma study_pop : (0 < m)%nat /\ orthonormal m m (ent V) /\ eigcols m C (fun j => e.[j, 0%nat]) (ent V) /\ decreasing m (fun j => e.[j, 0%nat]).
  Proof.
    destruct Study as (HE & HA & _ & _ & HK & HM & Sd & Sw & Hp & H & _).
    destruct (active_subspace_spec eigh argsort HE HA K m df weights e V Sd Sw H) as (lam & L).
    split; [apply L|]. split; [apply L|]. split; [|apply L].
    apply (eigsorted_psd_eig _ _ _ _ _ L). now apply gradC_psd.
  Qed.

  Lemma study_draw : forall ind, drawn_from K M ind ->
    orthonormal m m (ent (Vb ind)) /\ eigcols m (Cl ind) (fun j => (eb ind).[j, 0%nat]) (ent (Vb ind)) /\ decreasing m (fun j => (eb ind).[j, 0%nat]).
  Proof.
    intros ind HI. destruct Study as (_ & _ & HE & HA & HK & HM & Sd & Sw & Hp & _ & H).
    destruct (H ind (proj1 HI) (proj2 HI)) as (df0 & w0 & HR & HB). destruct HR as (S1 & S2 & E1 & E2) eqn:EHR.
    destruct (active_subspace_spec eigh' argsort' HE HA M m df0 w0 _ _ S1 S2 HB) as (lam & L).
    assert (P0 : forall s, (s < M)%nat -> 0 <= w0.[s, 0%nat]).
    { intros s Hs. rewrite E2 by auto. apply Rmult_le_pos.
      - apply Rmult_le_pos; [apply pos_INR|left; apply Rinv_0_lt_compat, lt_0_INR; auto].
      - apply Hp. destruct HI as (L1 & L2). rewrite Forall_forall in L2. apply L2, nth_In. lia. }
    assert (L' := eigsorted_ext m _ (Cl ind) _ _ _ (resampled_C K M m df weights ind df0 w0 HI HR) L).
    split; [apply L|]. split; [|apply L].
    apply (eigsorted_psd_eig _ _ _ _ _ L'). intros x. unfold quad.
    assert (Q := gradC_psd M m (ent df0) (fun s => w0.[s, 0%nat]) P0 x). unfold quad in Q.
    rewrite (sumf_ext m _ (fun i => sumf m (fun k => x i * gradC M (ent df0) (fun s => w0.[s, 0%nat]) i k * x k))); auto.
    intros i Hi. apply sumf_ext; intros k Hk. now rewrite (resampled_C K M m df weights ind df0 w0 HI HR i k Hi Hk).
  Qed.

  Lemma study_mean : forall x, draw_mean K M (fun l => quad m (Cl l) x) = quad m C x.
  Proof.
    intros x. destruct Study as (_ & _ & _ & _ & HK & HM & _).
    unfold quad. rewrite (draw_mean_sum K M m (fun i l => sumf m (fun k => x i * Cl l i k * x k))). apply sumf_ext; intros i Hi.
    rewrite (draw_mean_sum K M m (fun k l => x i * Cl l i k * x k)). apply sumf_ext; intros k Hk.
    rewrite (draw_mean_ext K M _ (fun l => (x i * x k) * Cl l i k)) by (intros; ring).
    rewrite draw_mean_scal. assert (E := Cl_mean K M df weights HK HM i k). unfold C. rewrite <- E. unfold Cl. ring.
  Qed.

  Lemma study_spread : draw_mean K M (fun l => frob m (fun i k => Cl l i k - C i k) (fun i k => Cl l i k - C i k)) = spread K M m df weights e.
  Proof.
    destruct study_pop as (Hm & HO & HEi & HDe). destruct Study as (_ & _ & _ & _ & HK & HM & _).
    exact (Cl_frob K M m df weights HK HM e (fun j => e.[j, 0%nat]) (ent V) HO HEi (fun j _ => eq_refl)).
  Qed.
End C91.

(** the mean square of the slopes along any direction has the right mean over the draws;
    leading eigenvalues are too large on average, trailing ones too small, and their total is right *)
Theorem C91_bias : forall eigh eigh' argsort argsort' K M m df weights e V eb Vb,
  resampling_study eigh eigh' argsort argsort' K M m df weights e V eb Vb ->
  (forall x, draw_mean K M (fun ind => sumf M (fun i => INR K / INR M * weights.[nth i ind 0%nat, 0%nat] *
       (sumf m (fun j => df.[nth i ind 0%nat, j] * x j) * sumf m (fun j => df.[nth i ind 0%nat, j] * x j)))) = variation df weights K m x) /\
  (forall n, (n <= m)%nat -> sumf n (fun j => e.[j, 0%nat]) <= draw_mean K M (fun ind => sumf n (fun j => (eb ind).[j, 0%nat]))) /\
  draw_mean K M (fun ind => sumf m (fun j => (eb ind).[j, 0%nat])) = sumf m (fun j => e.[j, 0%nat]) /\
  (forall n, (n <= m)%nat -> draw_mean K M (fun ind => sumf (m - n) (fun j => (eb ind).[(n + j)%nat, 0%nat])) <= sumf (m - n) (fun j => e.[(n + j)%nat, 0%nat])).
Proof.
  intros eigh eigh' argsort argsort' K M m df weights e V eb Vb S.
  destruct (study_pop _ _ _ _ _ _ _ _ _ _ _ _ _ S) as (Hm & HO & HE & HD).
  assert (SD := study_draw _ _ _ _ _ _ _ _ _ _ _ _ _ S). assert (SM := study_mean _ _ _ _ _ _ _ _ _ _ _ _ _ S).
  cbv zeta in SD, SM, HE.
  destruct S as (_ & _ & _ & _ & HK & HM & _).
  assert (LE : forall n, (n <= m)%nat -> sumf n (fun j => e.[j, 0%nat]) <= draw_mean K M (fun ind => sumf n (fun j => (eb ind).[j, 0%nat]))).
  { intros n Hn.
    rewrite (sumf_ext n _ (fun j => draw_mean K M (fun l => quad m (fun i k => INR K / INR M * lsum (fun s => weights.[s, 0%nat] * (df.[s, i] * df.[s, k])) l) (fun i => V.[i, j])))).
    2: { intros j Hj. rewrite SM. symmetry. apply (quad_eigvec m _ (fun j => e.[j, 0%nat]) (ent V) HO HE). lia. }
    rewrite <- draw_mean_sum. apply draw_mean_le; auto. intros ind HI. destruct (SD ind HI) as (O' & E' & D').
    apply (ky_fan m _ (fun j => (eb ind).[j, 0%nat]) (ent (Vb ind)) n (ent V) O' E' D'). apply (orthonormal_sub m m); auto. }
  assert (TOT : draw_mean K M (fun ind => sumf m (fun j => (eb ind).[j, 0%nat])) = sumf m (fun j => e.[j, 0%nat])).
  { rewrite (draw_mean_ext K M _ (fun l => sumf m (fun i => INR K / INR M * lsum (fun s => weights.[s, 0%nat] * (df.[s, i] * df.[s, i])) l))).
    2: { intros ind HI. destruct (SD ind HI) as (O' & E' & D'). symmetry. apply (trace_spectral m _ (fun j => (eb ind).[j, 0%nat]) (ent (Vb ind)) O' E'). }
    rewrite (draw_mean_sum K M m (fun i l => INR K / INR M * lsum (fun s => weights.[s, 0%nat] * (df.[s, i] * df.[s, i])) l)).
    rewrite <- (trace_spectral m _ (fun j => e.[j, 0%nat]) (ent V) HO HE). apply sumf_ext; intros i Hi.
    exact (Cl_mean K M df weights HK HM i i). }
  split; [|split; [exact LE|split; [exact TOT|]]].
  - intros x. rewrite variation_quad, <- SM. apply draw_mean_ext. intros ind (L1 & L2).
    transitivity (sumf M (fun i => INR K / INR M * weights.[nth i ind 0%nat, 0%nat] * (dot m (fun j => df.[nth i ind 0%nat, j]) x * dot m (fun j => df.[nth i ind 0%nat, j]) x))); [reflexivity|].
    rewrite <- (gradC_quad M m (fun i j => df.[nth i ind 0%nat, j]) (fun i => INR K / INR M * weights.[nth i ind 0%nat, 0%nat])).
    unfold quad, gradC. apply sumf_ext; intros i Hi. apply sumf_ext; intros k Hk. f_equal. f_equal.
    rewrite lsum_nth, L1, <- sumf_scal_l. apply sumf_ext; intros s Hs. ring.
  - intros n Hn. specialize (LE n Hn). rewrite (sumf_le_split m n (fun j => e.[j, 0%nat]) Hn) in TOT.
    rewrite (draw_mean_ext K M _ (fun ind => sumf n (fun j => (eb ind).[j, 0%nat]) + sumf (m - n) (fun j => (eb ind).[(n + j)%nat, 0%nat]))) in TOT.
    2: { intros. now apply sumf_le_split. }
    rewrite draw_mean_plus in TOT. lra.
Qed.
Print Assumptions C91_bias.

(** the mean square error of the eigenvalues and of the active subspace *)
Theorem C91_error : forall eigh eigh' argsort argsort' K M m df weights e V eb Vb,
  resampling_study eigh eigh' argsort argsort' K M m df weights e V eb Vb ->
  draw_mean K M (fun ind => sumf m (fun j => ((eb ind).[j, 0%nat] - e.[j, 0%nat]) * ((eb ind).[j, 0%nat] - e.[j, 0%nat]))) <= spread K M m df weights e /\
  (forall k norm2, (1 <= k)%nat -> (k < m)%nat -> norm2_contract norm2 -> let gap := e.[(k - 1)%nat, 0%nat] - e.[k, 0%nat] in 0 < gap ->
     (* distance as the program measures it: the largest stretch of W1^T W2b *)
     let dist ind := norm2 (mk2 k (m - k) (fun a b => sumf m (fun i => V.[i, a] * (Vb ind).[i, (k + b)%nat]))) in
     draw_mean K M (fun ind => dist ind * dist ind) <= 2 * spread K M m df weights e / (gap * gap)) /\
  ((forall s, (s < K)%nat -> weights.[s, 0%nat] = / INR K) ->
     spread K M m df weights e = (sumf K (fun s => glen2 df m s * glen2 df m s) / INR K - sumf m (fun j => e.[j, 0%nat] * e.[j, 0%nat])) / INR M).
Proof.
  intros eigh eigh' argsort argsort' K M m df weights e V eb Vb S.
  destruct (study_pop _ _ _ _ _ _ _ _ _ _ _ _ _ S) as (Hm & HO & HE & HD).
  assert (SD := study_draw _ _ _ _ _ _ _ _ _ _ _ _ _ S). assert (SS := study_spread _ _ _ _ _ _ _ _ _ _ _ _ _ S).
  cbv zeta in SD, SS, HE.
  destruct S as (_ & _ & _ & _ & HK & HM & _).
  split; [|split].
  - rewrite <- SS. apply draw_mean_le; auto. intros ind HI. destruct (SD ind HI) as (O' & E' & D').
    apply (hoffman_wielandt m _ _ (fun j => e.[j, 0%nat]) (fun j => (eb ind).[j, 0%nat]) (ent V) (ent (Vb ind))); auto.
  - intros k norm2 Hk Hkm HN gap HG dist.
    apply Rmult_le_reg_r with (gap * gap); [nra|].
    replace (2 * spread K M m df weights e / (gap * gap) * (gap * gap)) with (2 * spread K M m df weights e) by (field; lra).
    rewrite Rmult_comm, <- draw_mean_scal, <- SS, <- draw_mean_scal.
    apply draw_mean_le; auto. intros ind HI. destruct (SD ind HI) as (O' & E' & D').
    eapply Rle_trans; [|apply (leak_bound m _ _ (fun j => e.[j, 0%nat]) (fun j => (eb ind).[j, 0%nat]) (ent V) (ent (Vb ind)) HO HE HD O' E' D' k ltac:(lia) Hk Hkm HG)].
    fold gap. rewrite Rmult_comm. apply Rmult_le_compat_r; [nra|].
    set (P := mk2 k (m - k) (fun a b => sumf m (fun i => V.[i, a] * (Vb ind).[i, (k + b)%nat]))).
    destruct (HN k (m - k)%nat P eq_refl ltac:(lia) ltac:(lia)) as (N0 & _ & x & X1 & X2).
    change (dist ind) with (norm2 P). rewrite <- X2. unfold leak. apply sumf_le; intros a Ha.
    (* Cauchy-Schwarz on row a *)
    eapply Rle_trans; [apply cauchy_schwarz|]. rewrite X1, Rmult_1_r. right. reflexivity.
  - intros Hw. unfold spread.
    rewrite (sumf_ext K _ (fun s => / INR K * / INR K * (glen2 df m s * glen2 df m s))) by (intros; now rewrite Hw).
    rewrite sumf_scal_l. field. split; apply not_0_INR; lia.
Qed.
Print Assumptions C91_error.

(** Chebyshev: the fraction of the draws that are off by more than a given amount *)
Theorem C91_chance : forall eigh eigh' argsort argsort' K M m df weights e V eb Vb t,
  resampling_study eigh eigh' argsort argsort' K M m df weights e V eb Vb -> 0 < t ->
  (forall j, (j < m)%nat -> draw_mean K M (fun ind => if Rle_dec t (Rabs ((eb ind).[j, 0%nat] - e.[j, 0%nat])) then 1 else 0) <= spread K M m df weights e / (t * t)) /\
  (forall k norm2, (1 <= k)%nat -> (k < m)%nat -> norm2_contract norm2 -> let gap := e.[(k - 1)%nat, 0%nat] - e.[k, 0%nat] in 0 < gap ->
     let dist ind := norm2 (mk2 k (m - k) (fun a b => sumf m (fun i => V.[i, a] * (Vb ind).[i, (k + b)%nat]))) in
     draw_mean K M (fun ind => if Rle_dec t (dist ind) then 1 else 0) <= 2 * spread K M m df weights e / (gap * gap * (t * t))).
Proof.
  intros eigh eigh' argsort argsort' K M m df weights e V eb Vb t S Ht.
  assert (HK : (0 < K)%nat) by apply S. assert (HM : (0 < M)%nat) by apply S.
  destruct (C91_error _ _ _ _ _ _ _ _ _ _ _ _ _ S) as (A & B & _).
  assert (T2 : 0 < t * t) by nra.
  split.
  - intros j Hj. apply Rmult_le_reg_r with (t * t); auto. unfold Rdiv at 1. rewrite Rmult_assoc, Rinv_l, Rmult_1_r by lra.
    eapply Rle_trans; [|exact A]. rewrite Rmult_comm, <- draw_mean_scal. apply draw_mean_le; auto. intros ind HI. cbv beta.
    eapply Rle_trans; [|apply (sumf_term_le m (fun j => ((eb ind).[j, 0%nat] - e.[j, 0%nat]) * ((eb ind).[j, 0%nat] - e.[j, 0%nat])) j)]; auto; [|intros; apply Rle_0_sqr].
    cbv beta. set (d := (eb ind).[j, 0%nat] - e.[j, 0%nat]). destruct (Rle_dec t (Rabs d)) as [L|L]; [|nra].
    replace (d * d) with (Rabs d * Rabs d) by (rewrite <- Rabs_mult; apply Rabs_pos_eq, Rle_0_sqr). nra.
  - intros k norm2 Hk Hkm HN gap HG dist. specialize (B k norm2 Hk Hkm HN HG). fold gap in B. cbv zeta in B.
    apply Rmult_le_reg_r with (t * t); auto.
    replace (2 * spread K M m df weights e / (gap * gap * (t * t)) * (t * t)) with (2 * spread K M m df weights e / (gap * gap)) by (field; lra).
    eapply Rle_trans; [|exact B]. rewrite Rmult_comm, <- draw_mean_scal. apply draw_mean_le; auto. intros ind HI. cbv beta.
    change (norm2 (mk2 k (m - k) (fun a b => sumf m (fun i => V.[i, a] * (Vb ind).[i, (k + b)%nat])))) with (dist ind).
    assert (0 <= dist ind).
    { unfold dist. apply (HN k (m - k)%nat); [reflexivity|lia|lia]. }
    destruct (Rle_dec t (dist ind)) as [L|L]; nra.
Qed.
Print Assumptions C91_chance.

(** the program's bootstrap makes such draws, with M = K *)
Theorem C91_bootstrap_draws : forall (G : gen) (U : Type) X f df weights M m (w : world G U (nd R)) X0 f0 df0 w0 w',
  shape df = [M; m] -> shape weights = [M; 1%nat] ->
  bootstrap_replicate X f (Some df) weights w = (Ok (X0, f0, df0, w0), w') ->
  exists ind df1, List.length ind = M /\ Forall (fun k => (k < M)%nat) ind /\ df0 = Some df1 /\ resampled M M m df weights ind df1 w0.
Proof.
  intros G U X f df weights M m w X0 f0 df0 w0 w' Sd Sw H.
  destruct (bootstrap_replicate_ok _ _ _ _ _ _ _ _ _ _ H) as (ind & L1 & L2 & L3 & HX & Hf & Hd & Hw).
  rewrite (nrows_shape2 _ weights M 1%nat Sw) in L1, L2, L3.
  destruct Hd as (df1 & -> & (r & c & A1 & A2 & _ & A3)). destruct Hw as (r' & c' & B1 & B2 & _ & B3).
  rewrite Sd in A1. injection A1 as <- <-. rewrite Sw in B1. injection B1 as <- <-. rewrite L1 in *.
  exists ind, df1. split; auto. split; auto. split; auto. split; auto. split; auto. split; auto.
  intros i Hi. rewrite B3 by lia. field. apply not_0_INR; lia.
Qed.
Print Assumptions C91_bootstrap_draws.

(** gradients (1,0) and (0,2), weights 1/2: eigenvalues 2 and 1/2. Two draws from the two samples:
    the eigenvalues are (1,0), (2,1/2), (2,1/2) and (4,0) *)
Definition df91 : nd R := mat_of [[1; 0]; [0; 2]].
Definition w91 : nd R := mat_of [[/ 2]; [/ 2]].
Definition df91b (ind : list nat) : nd R := mk2 2 2 (fun i j => df91.[nth i ind 0%nat, j]).
Definition w91b (ind : list nat) : nd R := mk2 2 1 (fun i _ => INR 2 / INR 2 * w91.[nth i ind 0%nat, 0%nat]).
Definition run91 (ind : list nat) : nd R * nd R :=
  match active_subspace eigh_ref argsort_ref (df91b ind) (w91b ind) with Ok r => r | Err _ => (df91, df91) end.
Example C91_case : exists e V,
  resampling_study eigh_ref eigh_ref argsort_ref argsort_ref 2 2 2 df91 w91 e V (fun ind => fst (run91 ind)) (fun ind => snd (run91 ind)) /\
  e.[0%nat, 0%nat] = 2 /\ e.[1%nat, 0%nat] = / 2 /\ spread 2 2 2 df91 w91 e = 17 / 8 /\
  2 <= draw_mean 2 2 (fun ind => (fst (run91 ind)).[0%nat, 0%nat]).
Proof.
  destruct (C11_returns eigh_ref argsort_ref 2 2 df91 w91 eigh_ref_contract eigh_ref_total ltac:(lia) eq_refl eq_refl) as (e & V & H).
  assert (Hp : forall s, (s < 2)%nat -> 0 <= w91.[s, 0%nat]) by (intros [|[|s]] Hs; try lia; cbn; lra).
  assert (ST : resampling_study eigh_ref eigh_ref argsort_ref argsort_ref 2 2 2 df91 w91 e V (fun ind => fst (run91 ind)) (fun ind => snd (run91 ind))).
  { split; [exact eigh_ref_contract|]. split; [exact argsort_ref_contract|]. split; [exact eigh_ref_contract|]. split; [exact argsort_ref_contract|].
    split; [lia|]. split; [lia|]. split; [reflexivity|]. split; [reflexivity|]. split; [exact Hp|]. split; [exact H|].
    intros ind L1 L2. exists (df91b ind), (w91b ind). split.
    - split; [reflexivity|]. split; [reflexivity|]. split; intros; reflexivity.
    - destruct (C11_returns eigh_ref argsort_ref 2 2 (df91b ind) (w91b ind) eigh_ref_contract eigh_ref_total ltac:(lia) eq_refl eq_refl) as (e0 & V0 & H0).
      unfold run91. rewrite H0. reflexivity. }
  exists e, V. split; [exact ST|].
  destruct (study_pop _ _ _ _ _ _ _ _ _ _ _ _ _ ST) as (_ & HO & HE & HD). cbv zeta in HE.
  assert (EQ : forall j, (j < 2)%nat -> e.[j, 0%nat] = match j with O => 2 | _ => / 2 end).
  { apply (sorted_eigenvalues_unique 2 _ (fun j => e.[j, 0%nat]) (ent V) (fun j => match j with O => 2 | _ => / 2 end) (fun i j => if Nat.eqb i j then 0 else 1) HO HE HD).
    - intros [|[|a]] [|[|b]] Ha Hb; try lia; cbn; unfold kron_delta; cbn; lra.
    - intros [|[|i]] [|[|j]] Hi Hj; try lia; cbn; unfold gradC, ent; cbn; lra.
    - intros [|[|i]] [|[|j]] Hij Hj; try lia; lra. }
  assert (E0 := EQ 0%nat ltac:(lia)). assert (E1 := EQ 1%nat ltac:(lia)). cbn in E0, E1.
  split; auto. split; auto. split.
  - unfold spread, glen2. cbn [sumf]. rewrite E0, E1. cbn. lra.
  - destruct (C91_bias _ _ _ _ _ _ _ _ _ _ _ _ _ ST) as (_ & B & _). specialize (B 1%nat ltac:(lia)).
    rewrite <- E0. eapply Rle_trans; [|eapply Rle_trans; [exact B|]].
    + cbn [sumf]. lra.
    + right. apply draw_mean_ext. intros. cbn [sumf]. ring.
Qed.
