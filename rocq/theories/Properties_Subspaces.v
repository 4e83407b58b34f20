(** Final statements for subspaces.py: C10-C17. *)
From Coq Require Import String Reals Lra Lia List Arith ZArith Bool.
From Verif Require Import Prelude Py NumArr LinAlg Lsq Sorting Spectral M_Misc M_RespSurf M_Gradients M_Subspaces
  P_Misc P_Poly P_PolyFacts P_Subspaces P_Estimators P_Qphd P_Partition EighRef Toy.
Import ListNotations.
Open Scope R_scope.

(** ** C10 *)
Theorem C10_sorted_eigenbasis : forall eigh argsort m C e V,
  eigh_contract eigh -> argsort_contract argsort ->
  shape C = [m; m] -> (forall i k, (i < m)%nat -> (k < m)%nat -> C.[i, k] = C.[k, i]) ->
  sorted_eigh eigh argsort C = Ok (e, V) ->
  shape e = [m; 1%nat] /\ shape V = [m; m] /\
  (* eigenvalues >= 0, non-increasing *)
  (forall j, (j < m)%nat -> 0 <= e.[j, 0%nat]) /\
  (forall i j, (i <= j)%nat -> (j < m)%nat -> e.[j, 0%nat] <= e.[i, 0%nat]) /\
  (* orthogonal matrix, first row >= 0 *)
  (forall a b, (a < m)%nat -> (b < m)%nat -> sumf m (fun i => V.[i, a] * V.[i, b]) = if Nat.eqb a b then 1 else 0) /\
  (forall a b, (a < m)%nat -> (b < m)%nat -> sumf m (fun j => V.[a, j] * V.[b, j]) = if Nat.eqb a b then 1 else 0) /\
  (forall j, (j < m)%nat -> 0 <= V.[0%nat, j]) /\
  exists lam : nat -> R,
    (forall j, (j < m)%nat -> lam j = e.[j, 0%nat] \/ lam j = - e.[j, 0%nat]) /\
    (forall i j, (i < m)%nat -> (j < m)%nat -> sumf m (fun k => C.[i, k] * V.[k, j]) = lam j * V.[i, j]) /\
    (forall i k, (i < m)%nat -> (k < m)%nat -> C.[i, k] = sumf m (fun j => lam j * V.[i, j] * V.[k, j])) /\
    ((forall x, 0 <= sumf m (fun i => sumf m (fun k => x i * C.[i, k] * x k))) ->
       forall j, (j < m)%nat -> lam j = e.[j, 0%nat]).
Proof.
  intros eigh argsort m C e V HE HA HC HS H.
  destruct (sorted_eigh_spec eigh argsort HE HA m C e V HC HS H) as (lam & L). destruct L as [L1 L2 L3 L4 L5 L6 L7 L8] eqn:EL.
  repeat split; auto.
  - intros j Hj. rewrite L4 by auto. apply Rabs_pos.
  - apply (ortho_rows m (ent V) L6).
  - exists lam. repeat split.
    + intros j Hj. rewrite L4 by auto. unfold Rabs. destruct (Rcase_abs (lam j)); lra.
    + exact L7.
    + exact (reassemble m (ent C) lam (ent V) L6 L7).
    + intros HP. apply (eigsorted_psd m (ent C) e V lam L HP).
Qed.
Print Assumptions C10_sorted_eigenbasis.

Theorem C10_returns : forall eigh argsort m C, eigh_contract eigh -> eigh_total eigh ->
  (0 < m)%nat -> shape C = [m; m] -> exists e V, sorted_eigh eigh argsort C = Ok (e, V).
Proof.
  intros eigh argsort m C HE HT Hm HC. destruct (sorted_eigh_returns eigh argsort HE m C HT Hm HC) as ((e & V) & H). eauto.
Qed.
Print Assumptions C10_returns.

(** the answer does not depend on the eigensolver or on how the sort breaks ties *)
Theorem C10_solver_independent : forall eigh argsort eigh' argsort' m C e V e' V',
  eigh_contract eigh -> argsort_contract argsort -> eigh_contract eigh' -> argsort_contract argsort' ->
  shape C = [m; m] -> (forall i k, (i < m)%nat -> (k < m)%nat -> C.[i, k] = C.[k, i]) ->
  sorted_eigh eigh argsort C = Ok (e, V) -> sorted_eigh eigh' argsort' C = Ok (e', V') ->
  (forall j, (j < m)%nat -> e.[j, 0%nat] = e'.[j, 0%nat]) /\
  (forall j, (j < m)%nat -> (forall k, (k < m)%nat -> k <> j -> e.[k, 0%nat] <> e.[j, 0%nat]) -> V.[0%nat, j] <> 0 ->
     forall i, (i < m)%nat -> V.[i, j] = V'.[i, j]).
Proof.
  intros eigh argsort eigh' argsort' m C e V e' V' HE HA HE' HA' HC HS H H'.
  destruct (sorted_eigh_spec eigh argsort HE HA m C e V HC HS H) as (lam & L).
  destruct (sorted_eigh_spec eigh' argsort' HE' HA' m C e' V' HC HS H') as (lam' & L').
  assert (EQ := eigsorted_unique m _ e V lam e' V' lam' L L').
  split; auto. intros j Hj Hd H0 i Hi.
  assert (SQ : forall e V lam, eigsorted m (ent C) e V lam ->
     eigcols m (fun i k => sumf m (fun l => ent C i l * ent C l k)) (fun j => e.[j, 0%nat] * e.[j, 0%nat]) (ent V)).
  { intros e0 V0 lam0 L0 a b Ha Hb. rewrite (eigcols_sq m _ lam0 _ (es_eig _ _ _ _ _ L0) a b Ha Hb).
    rewrite (es_abs _ _ _ _ _ L0 b Hb). rewrite <- Rabs_mult, Rabs_pos_eq by apply Rle_0_sqr. reflexivity. }
  assert (SYM : forall a b, (a < m)%nat -> (b < m)%nat -> sumf m (fun l => ent C a l * ent C l b) = sumf m (fun l => ent C b l * ent C l a)).
  { intros a b Ha Hb. apply sumf_ext; intros l Hl. unfold ent. rewrite (HS a l), (HS l b) by auto. ring. }
  assert (NN := eigsorted_nonneg _ _ _ _ _ L).
  assert (X : forall i, (i < m)%nat -> V'.[i, j] = dot m (fun i => ent V i j) (fun i => ent V' i j) * V.[i, j]).
  { apply (simple_eigenvector m (fun i k => sumf m (fun l => ent C i l * ent C l k)) (fun j => e.[j, 0%nat] * e.[j, 0%nat]) (ent V) j (fun i => ent V' i j)); auto.
    - apply (es_orth _ _ _ _ _ L).
    - exact (SQ e V lam L).
    - intros k Hk Hkj E. apply (Hd k Hk Hkj). pose proof (NN k Hk). pose proof (NN j Hj). nra.
    - intros a Ha. rewrite (EQ j Hj). apply (SQ e' V' lam' L'); auto. }
  set (c := dot m (fun i => ent V i j) (fun i => ent V' i j)) in X.
  assert (C2 : c * c = 1).
  { pose proof (es_orth _ _ _ _ _ L j j Hj Hj) as O1. pose proof (es_orth _ _ _ _ _ L' j j Hj Hj) as O2. rewrite kd_same in O1, O2.
    rewrite (sumf_ext m _ (fun i => (c * c) * (ent V i j * ent V i j))) in O2.
    - rewrite sumf_scal_l, O1 in O2. lra.
    - intros a Ha. unfold ent. rewrite X by auto. ring. }
  pose proof (es_row0 _ _ _ _ _ L j Hj) as R1. pose proof (es_row0 _ _ _ _ _ L' j Hj) as R2.
  rewrite (X 0%nat) in R2 by (pose proof (es_m _ _ _ _ _ L); lia).
  assert (c = 1) by nra. rewrite X by auto. rewrite H1. ring.
Qed.
Print Assumptions C10_solver_independent.

(** C = [[0,2],[2,0]] has eigenvalues 2 and -2; both are reported as 2 *)
Definition C10m : nd R := mat_of [[0; 2]; [2; 0]].
Example C10_case : exists e V, sorted_eigh eigh_ref argsort_ref C10m = Ok (e, V) /\
  e.[0%nat, 0%nat] = 2 /\ e.[1%nat, 0%nat] = 2.
Proof.
  destruct (C10_returns eigh_ref argsort_ref 2 C10m eigh_ref_contract eigh_ref_total ltac:(lia) eq_refl) as (e & V & H).
  exists e, V. split; auto.
  assert (HS : forall i k, (i < 2)%nat -> (k < 2)%nat -> C10m.[i, k] = C10m.[k, i])
    by (intros i k Hi Hk; destruct i as [|[|i]]; destruct k as [|[|k]]; try lia; reflexivity).
  destruct (C10_sorted_eigenbasis eigh_ref argsort_ref 2 C10m e V eigh_ref_contract argsort_ref_contract eq_refl HS H)
    as (_ & _ & HN & _ & HO & _ & _ & lam & Hl & HE & _).
  assert (G : forall j, (j < 2)%nat -> e.[j, 0%nat] = 2).
  { intros j Hj. pose proof (HE 0%nat j ltac:(lia) Hj) as E0. pose proof (HE 1%nat j ltac:(lia) Hj) as E1.
    pose proof (HO j j Hj Hj) as O. rewrite Nat.eqb_refl in O. cbn [sumf] in *.
    change (C10m.[0%nat, 0%nat]) with 0 in *. change (C10m.[0%nat, 1%nat]) with 2 in *.
    change (C10m.[1%nat, 0%nat]) with 2 in *. change (C10m.[1%nat, 1%nat]) with 0 in *.
    assert (L4 : lam j * lam j = 4).
    { assert (lam j * lam j * (V.[0%nat, j] * V.[0%nat, j] + V.[1%nat, j] * V.[1%nat, j]) = 4 * (V.[0%nat, j] * V.[0%nat, j] + V.[1%nat, j] * V.[1%nat, j])) by nra.
      nra. }
    specialize (HN j Hj). destruct (Hl j Hj) as [E|E]; nra. }
  split; apply G; lia.
Qed.

(** ** C11 *)
Section ActiveSubspace.
  Variable eigh : nd R -> res (nd R * nd R).
  Variable argsort : list R -> list nat.
  Variables (M m : nat) (df weights e V : nd R).
  (** directional derivative of sample s along direction x *)
  Definition slope (df : nd R) (m s : nat) (x : nat -> R) : R := sumf m (fun i => df.[s, i] * x i).
  (** weighted mean of the squared slopes along x *)
  Definition variation (df weights : nd R) (M m : nat) (x : nat -> R) : R :=
    sumf M (fun s => weights.[s, 0%nat] * (slope df m s x * slope df m s x)).
End ActiveSubspace.

Lemma variation_quad : forall df weights M m x, variation df weights M m x = quad m (gradC M (ent df) (fun s => weights.[s, 0%nat])) x.
Proof. intros. rewrite gradC_quad. reflexivity. Qed.

Theorem C11_eigenvalues_are_mean_squared_slopes : forall eigh argsort M m df weights e V,
  eigh_contract eigh -> argsort_contract argsort ->
  shape df = [M; m] -> shape weights = [M; 1%nat] -> (forall s, (s < M)%nat -> 0 <= weights.[s, 0%nat]) ->
  active_subspace eigh argsort df weights = Ok (e, V) ->
  shape e = [m; 1%nat] /\ shape V = [m; m] /\
  (forall j, (j < m)%nat -> e.[j, 0%nat] =
     sumf M (fun s => weights.[s, 0%nat] * (slope df m s (fun i => V.[i, j]) * slope df m s (fun i => V.[i, j])))) /\
  (forall j, (j < m)%nat -> 0 <= e.[j, 0%nat]) /\
  sumf m (fun j => e.[j, 0%nat]) = sumf M (fun s => weights.[s, 0%nat] * sumf m (fun i => df.[s, i] * df.[s, i])) /\
  (forall j, (j < m)%nat ->
     (e.[j, 0%nat] = 0 <-> forall s, (s < M)%nat -> 0 < weights.[s, 0%nat] -> slope df m s (fun i => V.[i, j]) = 0)).
Proof.
  intros eigh argsort M m df weights e V HE HA Hd Hw Hp H.
  destruct (active_subspace_spec eigh argsort HE HA M m df weights e V Hd Hw H) as (lam & L).
  assert (P := gradC_psd M m (ent df) (fun s => weights.[s, 0%nat]) Hp).
  assert (EV := eigsorted_psd_eig _ _ _ _ _ L P).
  assert (F : forall j, (j < m)%nat -> e.[j, 0%nat] =
     sumf M (fun s => weights.[s, 0%nat] * (slope df m s (fun i => V.[i, j]) * slope df m s (fun i => V.[i, j])))).
  { intros j Hj. rewrite <- (quad_eigvec m _ (fun j => e.[j, 0%nat]) (ent V) (es_orth _ _ _ _ _ L) EV j Hj). rewrite gradC_quad. reflexivity. }
  split; [apply (es_e _ _ _ _ _ L)|]. split; [apply (es_V _ _ _ _ _ L)|]. split; [exact F|].
  split; [apply (eigsorted_nonneg _ _ _ _ _ L)|]. split.
  - rewrite <- (trace_spectral m _ (fun j => e.[j, 0%nat]) (ent V) (es_orth _ _ _ _ _ L) EV). unfold gradC, ent.
    rewrite sumf_swap. apply sumf_ext; intros s Hs. now rewrite sumf_scal_l.
  - intros j Hj. rewrite F by auto. split.
    + intros Z s Hs Hs0. assert (Q := sumf_nonneg_eq0 M _ (fun s Hs => Rmult_le_pos _ _ (Hp s Hs) (Rle_0_sqr _)) Z s Hs). cbv beta in Q.
      unfold Rsqr in Q. destruct (Rmult_integral _ _ Q) as [Q1|Q1]; [lra|]. destruct (Rmult_integral _ _ Q1); auto.
    + intros Z. apply sumf_zero; intros s Hs. destruct (Rle_lt_or_eq_dec _ _ (Hp s Hs)) as [L0|E0].
      * rewrite Z by auto. ring.
      * rewrite <- E0. ring.
Qed.
Print Assumptions C11_eigenvalues_are_mean_squared_slopes.

Theorem C11_returns : forall eigh argsort M m df weights, eigh_contract eigh -> eigh_total eigh -> (0 < m)%nat ->
  shape df = [M; m] -> shape weights = [M; 1%nat] -> exists e V, active_subspace eigh argsort df weights = Ok (e, V).
Proof.
  intros eigh argsort M m df weights HE HT Hm Hd Hw.
  destruct (active_subspace_returns eigh argsort HE M m df weights HT Hm Hd Hw) as ((e & V) & H). eauto.
Qed.
Print Assumptions C11_returns.

(** gradients (3,4) and (6,8) with weights 1/2: one nonzero eigenvalue, 62.5 *)
Definition df11 : nd R := mat_of [[3; 4]; [6; 8]].
Definition w11 : nd R := mat_of [[/ 2]; [/ 2]].
Lemma w11_nonneg : forall s, (s < 2)%nat -> 0 <= w11.[s, 0%nat].
Proof. intros [|[|s]] Hs; try lia; cbn; lra. Qed.
Example C11_case : exists e V, active_subspace eigh_ref argsort_ref df11 w11 = Ok (e, V) /\
  e.[0%nat, 0%nat] + e.[1%nat, 0%nat] = 125 / 2.
Proof.
  destruct (C11_returns eigh_ref argsort_ref 2 2 df11 w11 eigh_ref_contract eigh_ref_total ltac:(lia) eq_refl eq_refl) as (e & V & H).
  exists e, V. split; auto.
  destruct (C11_eigenvalues_are_mean_squared_slopes eigh_ref argsort_ref 2 2 df11 w11 e V eigh_ref_contract argsort_ref_contract eq_refl eq_refl w11_nonneg H)
    as (_ & _ & _ & _ & T & _).
  cbn [sumf] in T. cbn in T. lra.
Qed.

(** ** C12 *)
Theorem C12_first_k_eigenvectors_capture_most : forall eigh argsort M m df weights e V,
  eigh_contract eigh -> argsort_contract argsort ->
  shape df = [M; m] -> shape weights = [M; 1%nat] -> (forall s, (s < M)%nat -> 0 <= weights.[s, 0%nat]) ->
  active_subspace eigh argsort df weights = Ok (e, V) ->
  forall k, (k <= m)%nat ->
  (* the first k eigenvectors are k orthonormal directions capturing e_1 + .. + e_k *)
  (forall a b, (a < k)%nat -> (b < k)%nat -> sumf m (fun i => V.[i, a] * V.[i, b]) = if Nat.eqb a b then 1 else 0) /\
  sumf k (fun a => variation df weights M m (fun i => V.[i, a])) = sumf k (fun a => e.[a, 0%nat]) /\
  (* no k orthonormal directions capture more *)
  (forall Q, (forall a b, (a < k)%nat -> (b < k)%nat -> sumf m (fun i => Q i a * Q i b) = if Nat.eqb a b then 1 else 0) ->
     sumf k (fun a => variation df weights M m (fun i => Q i a)) <= sumf k (fun a => variation df weights M m (fun i => V.[i, a]))) /\
  (* and what is missed is the sum of the remaining eigenvalues *)
  sumf M (fun s => weights.[s, 0%nat] * sumf m (fun i => df.[s, i] * df.[s, i]))
    - sumf k (fun a => variation df weights M m (fun i => V.[i, a])) = sumf (m - k) (fun j => e.[(k + j)%nat, 0%nat]).
Proof.
  intros eigh argsort M m df weights e V HE HA Hd Hw Hp H k Hk.
  destruct (C11_eigenvalues_are_mean_squared_slopes eigh argsort M m df weights e V HE HA Hd Hw Hp H) as (_ & _ & F & _ & T & _).
  destruct (active_subspace_spec eigh argsort HE HA M m df weights e V Hd Hw H) as (lam & L).
  assert (P := gradC_psd M m (ent df) (fun s => weights.[s, 0%nat]) Hp).
  assert (EV := eigsorted_psd_eig _ _ _ _ _ L P).
  assert (SV : sumf k (fun a => variation df weights M m (fun i => V.[i, a])) = sumf k (fun a => e.[a, 0%nat])).
  { apply sumf_ext; intros a Ha. rewrite F by lia. reflexivity. }
  split; [intros a b Ha Hb; apply (es_orth _ _ _ _ _ L); lia|]. split; [exact SV|]. split.
  - intros Q HQ. rewrite SV.
    rewrite (sumf_ext k _ (fun a => quad m (gradC M (ent df) (fun s => weights.[s, 0%nat])) (fun i => Q i a))) by (intros; apply variation_quad).
    apply (ky_fan m _ (fun j => e.[j, 0%nat]) (ent V) k Q (es_orth _ _ _ _ _ L) EV (es_dec _ _ _ _ _ L)). exact HQ.
  - rewrite SV, <- T. rewrite (sumf_le_split m k (fun j => e.[j, 0%nat]) Hk). ring.
Qed.
Print Assumptions C12_first_k_eigenvectors_capture_most.

(** the data of C11_case: the first eigenvector captures at least the variation
    along (3/5, 4/5), which is all of it, so nothing is left over *)
Example C12_case : exists e V, active_subspace eigh_ref argsort_ref df11 w11 = Ok (e, V) /\ e.[0%nat, 0%nat] = 125 / 2 /\ e.[1%nat, 0%nat] = 0.
Proof.
  destruct C11_case as (e & V & H & T). exists e, V. split; auto.
  destruct (C12_first_k_eigenvectors_capture_most eigh_ref argsort_ref 2 2 df11 w11 e V eigh_ref_contract argsort_ref_contract eq_refl eq_refl w11_nonneg H 1 ltac:(lia))
    as (_ & S1 & B & _).
  specialize (B (fun i _ => match i with O => 3 / 5 | _ => 4 / 5 end)). rewrite S1 in B. cbn [sumf] in B.
  destruct (C11_eigenvalues_are_mean_squared_slopes eigh_ref argsort_ref 2 2 df11 w11 e V eigh_ref_contract argsort_ref_contract eq_refl eq_refl w11_nonneg H)
    as (_ & _ & _ & NN & _).
  pose proof (NN 1%nat ltac:(lia)).
  assert (B' : 125 / 2 <= e.[0%nat, 0%nat]).
  { assert (X : variation df11 w11 2 2 (fun i => match i with O => 3 / 5 | _ => 4 / 5 end) = 125 / 2).
    { unfold variation, slope. cbn [sumf]. cbn. field. }
    rewrite X in B. rewrite Rplus_0_l in B. eapply Rle_trans; [|rewrite <- (Rplus_0_l (e.[0%nat, 0%nat])); apply B].
    - lra.
    - intros a b Ha Hb. replace a with 0%nat by lia. replace b with 0%nat by lia. cbn. field. }
  split; lra.
Qed.

(** ** C13 *)
Theorem C13_ridge_functions_recovered : forall eigh argsort M m df weights e V k B c,
  eigh_contract eigh -> argsort_contract argsort ->
  shape df = [M; m] -> shape weights = [M; 1%nat] -> (forall s, (s < M)%nat -> 0 <= weights.[s, 0%nat]) ->
  (* every positively weighted gradient is a combination of the k directions B 0 .. B (k-1) *)
  (forall s i, (s < M)%nat -> 0 < weights.[s, 0%nat] -> (i < m)%nat -> df.[s, i] = sumf k (fun a => c s a * B a i)) ->
  active_subspace eigh argsort df weights = Ok (e, V) ->
  (forall j, (k <= j)%nat -> (j < m)%nat -> e.[j, 0%nat] = 0) /\
  (forall j, (j < m)%nat -> e.[j, 0%nat] <> 0 -> exists u, forall i, (i < m)%nat -> V.[i, j] = sumf k (fun a => u a * B a i)).
Proof.
  intros eigh argsort M m df weights e V k B c HE HA Hd Hw Hp HB H.
  destruct (active_subspace_spec eigh argsort HE HA M m df weights e V Hd Hw H) as (lam & L).
  assert (P := gradC_psd M m (ent df) (fun s => weights.[s, 0%nat]) Hp).
  assert (EV := eigsorted_psd_eig _ _ _ _ _ L P).
  assert (HB' : forall s i, (s < M)%nat -> weights.[s, 0%nat] <> 0 -> (i < m)%nat -> ent df s i = sumf k (fun a => c s a * B a i)).
  { intros s i Hs Hn Hi. apply HB; auto. specialize (Hp s Hs). lra. }
  split.
  - apply (gradC_rank M m (ent df) (fun s => weights.[s, 0%nat]) e V lam k B c L HB').
  - intros j Hj Hn. exact (gradC_range M m (ent df) (fun s => weights.[s, 0%nat]) (fun j => e.[j, 0%nat]) (ent V) k B c j EV Hj Hn HB').
Qed.
Print Assumptions C13_ridge_functions_recovered.

Theorem C13_inactive_directions_do_not_matter : forall eigh argsort M m df weights e V,
  eigh_contract eigh -> argsort_contract argsort ->
  shape df = [M; m] -> shape weights = [M; 1%nat] -> (forall s, (s < M)%nat -> 0 <= weights.[s, 0%nat]) ->
  active_subspace eigh argsort df weights = Ok (e, V) ->
  forall j s, (j < m)%nat -> (s < M)%nat -> e.[j, 0%nat] = 0 -> 0 < weights.[s, 0%nat] ->
    sumf m (fun i => df.[s, i] * V.[i, j]) = 0.
Proof.
  intros eigh argsort M m df weights e V HE HA Hd Hw Hp H j s Hj Hs Hz Hws.
  destruct (C11_eigenvalues_are_mean_squared_slopes eigh argsort M m df weights e V HE HA Hd Hw Hp H) as (_ & _ & _ & _ & _ & Z).
  destruct (Z j Hj) as (Z1 & _). apply Z1; auto.
Qed.
Print Assumptions C13_inactive_directions_do_not_matter.

(** the data of C11_case: both gradients are multiples of (3,4) *)
Example C13_case : exists e V, active_subspace eigh_ref argsort_ref df11 w11 = Ok (e, V) /\
  e.[1%nat, 0%nat] = 0 /\ exists u, V.[0%nat, 0%nat] = u * 3 /\ V.[1%nat, 0%nat] = u * 4.
Proof.
  destruct C12_case as (e & V & H & E0 & E1). exists e, V. split; auto. split; auto.
  destruct (C13_ridge_functions_recovered eigh_ref argsort_ref 2 2 df11 w11 e V 1 (fun _ i => match i with O => 3 | _ => 4 end)
    (fun s _ => match s with O => 1 | _ => 2 end) eigh_ref_contract argsort_ref_contract eq_refl eq_refl w11_nonneg) as (_ & X); auto.
  - intros [|[|s]] [|[|i]] Hs _ Hi; try lia; cbn; lra.
  - destruct (X 0%nat ltac:(lia) ltac:(lra)) as (u & Hu). exists (u 0%nat).
    pose proof (Hu 0%nat ltac:(lia)) as U0. pose proof (Hu 1%nat ltac:(lia)) as U1. cbn [sumf] in *. split; lra.
Qed.

(** ** C14 *)
Theorem C14_ols_direction : forall eigh argsort lstsq M m X f w e V,
  eigh_contract eigh -> argsort_contract argsort -> lstsq_contract lstsq ->
  shape X = [M; m] -> shape f = [M; 1%nat] -> shape w = [M; 1%nat] -> (forall i, (i < M)%nat -> 0 <= w.[i, 0%nat]) ->
  ols_subspace eigh argsort lstsq X f w = Ok (e, V) ->
  let cost a b := sumf M (fun i => w.[i, 0%nat] * (f.[i, 0%nat] - a - sumf m (fun j => b j * X.[i, j])) ^ 2) in
  exists a b,
    (forall a' b', cost a b <= cost a' b') /\
    e.[0%nat, 0%nat] = sumf m (fun i => b i * b i) /\
    (forall j, (1 <= j)%nat -> (j < m)%nat -> e.[j, 0%nat] = 0) /\
    (sumf m (fun i => b i * b i) <> 0 ->
       exists s, (s = 1 \/ s = -1) /\ forall i, (i < m)%nat -> V.[i, 0%nat] = s * (b i / sqrt (sumf m (fun i => b i * b i)))) /\
    (forall j, (j < m)%nat -> 0 <= V.[0%nat, j]) /\
    (* exactness *)
    (forall a0 b0, (forall i, (i < M)%nat -> 0 < w.[i, 0%nat]) ->
       (forall x, (forall i, (i < M)%nat -> x 0%nat + sumf m (fun j => X.[i, j] * x (S j)) = 0) -> forall j, (j < S m)%nat -> x j = 0) ->
       (forall i, (i < M)%nat -> f.[i, 0%nat] = a0 + sumf m (fun j => b0 j * X.[i, j])) ->
       a = a0 /\ forall j, (j < m)%nat -> b j = b0 j).
Proof.
  intros eigh argsort lstsq M m X f w e V HE HA HL HX Hf Hw Hp H cost.
  destruct (ols_subspace_spec eigh argsort lstsq HE HA HL M m X f w e V HX Hf Hw Hp H) as (a & b & lam & Hmin & L).
  destruct (rank_one m b e V lam L) as (R1 & R2 & R3).
  assert (EC : forall a b, cost a b = wls M m X f w a b) by (intros; apply sumf_ext; intros; ring).
  exists a, b. split; [intros; rewrite !EC; auto|]. split; [exact R1|]. split; [exact R2|]. split; [exact R3|]. split; [apply (es_row0 _ _ _ _ _ L)|].
  intros a0 b0 Hpos HR Hfit. apply (wls_exact M m X f w a b a0 b0 Hpos); auto.
  intros x Hx. apply HR. intros i Hi. specialize (Hx i Hi). rewrite sumf_shift in Hx. cbn [aug] in Hx. rewrite <- Hx. ring.
Qed.
Print Assumptions C14_ols_direction.

Theorem C14_returns : forall eigh argsort lstsq M m X f w,
  eigh_contract eigh -> lstsq_contract lstsq -> lstsq_total lstsq -> eigh_total eigh -> (0 < m)%nat ->
  shape X = [M; m] -> shape f = [M; 1%nat] -> shape w = [M; 1%nat] ->
  exists e V, ols_subspace eigh argsort lstsq X f w = Ok (e, V).
Proof.
  intros. destruct (ols_subspace_returns eigh argsort lstsq H H0 M m X f w) as ((e & V) & E); eauto.
Qed.
Print Assumptions C14_returns.

(** f = 1 + 3 x1 - 4 x2 on the corners of the square, weights 1/4 *)
Definition X14 : nd R := mat_of [[-1; -1]; [1; -1]; [-1; 1]; [1; 1]].
Definition f14 : nd R := mat_of [[2]; [8]; [-6]; [0]].
Definition w14 : nd R := mk2 4 1 (fun _ _ => / 4).
Example C14_case : exists e V, ols_subspace eigh_ref argsort_ref lstsq_ref X14 f14 w14 = Ok (e, V) /\
  e.[0%nat, 0%nat] = 25 /\ e.[1%nat, 0%nat] = 0 /\ V.[0%nat, 0%nat] = 3 / 5 /\ V.[1%nat, 0%nat] = - (4 / 5).
Proof.
  destruct (C14_returns eigh_ref argsort_ref lstsq_ref 4 2 X14 f14 w14 eigh_ref_contract lstsq_ref_contract lstsq_ref_total eigh_ref_total ltac:(lia) eq_refl eq_refl eq_refl) as (e & V & H).
  exists e, V. split; auto.
  assert (HP : forall i, (i < 4)%nat -> 0 < w14.[i, 0%nat]) by (intros; cbn; lra).
  destruct (C14_ols_direction eigh_ref argsort_ref lstsq_ref 4 2 X14 f14 w14 e V eigh_ref_contract argsort_ref_contract lstsq_ref_contract eq_refl eq_refl eq_refl
    ltac:(intros; left; auto) H) as (a & b & _ & E0 & E1 & EV & R0 & EX).
  destruct (EX 1 (fun j => match j with O => 3 | _ => -4 end) HP) as (_ & Hb).
  - intros x Hx. pose proof (Hx 0%nat ltac:(lia)) as A0. pose proof (Hx 1%nat ltac:(lia)) as A1. pose proof (Hx 2%nat ltac:(lia)) as A2.
    cbn in A0, A1, A2. intros [|[|[|j]]] Hj; try lia; lra.
  - intros [|[|[|[|i]]]] Hi; try lia; cbn; lra.
  - pose proof (Hb 0%nat ltac:(lia)) as B0. pose proof (Hb 1%nat ltac:(lia)) as B1. cbv beta iota in B0, B1.
    assert (N : sumf 2 (fun i => b i * b i) = 25) by (cbn [sumf]; rewrite B0, B1; ring).
    rewrite N in E0, EV. split; auto. split; [apply E1; lia|].
    destruct (EV ltac:(lra)) as (s & Hs & Vs).
    assert (S5 : sqrt 25 = 5) by (replace 25 with (5 * 5) by ring; apply sqrt_square; lra). rewrite S5 in Vs.
    pose proof (R0 0%nat ltac:(lia)) as P0.
    rewrite (Vs 0%nat), (Vs 1%nat) by lia. rewrite (Vs 0%nat), B0 in P0 by lia. rewrite B0, B1.
    destruct Hs as [-> | ->]; [split; field | exfalso; lra].
Qed.

(** ** C15 *)
(** the quadratic c + b.x + x^T H x / 2 and its gradient *)
Definition quadratic (m : nat) (c : R) (b : nat -> R) (H : nat -> nat -> R) (x : nat -> R) : R :=
  c + sumf m (fun i => b i * x i) + / 2 * sumf m (fun i => sumf m (fun k => H i k * x i * x k)).
Definition quadratic_gradient (m : nat) (b : nat -> R) (H : nat -> nat -> R) (x : nat -> R) (i : nat) : R :=
  b i + sumf m (fun k => H i k * x k).
(** the sum of squared weighted residuals *)
Definition quadratic_cost (M m : nat) (X f w : nd R) c b H : R :=
  sumf M (fun s => (w.[s, 0%nat] * (f.[s, 0%nat] - quadratic m c b H (fun i => X.[s, i]))) ^ 2).

Lemma quadratic_cost_wq : forall M m X f w c b H, quadratic_cost M m X f w c b H = wq M m X f w c b H.
Proof. intros. apply sumf_ext; intros s Hs. unfold quadratic, qmodel. ring. Qed.

Theorem C15_quadratic_gradients_partial : forall eigh argsort lstsq M m X f w e V,
  eigh_contract eigh -> argsort_contract argsort -> lstsq_contract lstsq ->
  shape X = [M; m] -> shape f = [M; 1%nat] -> shape w = [M; 1%nat] ->
  qphd_subspace eigh argsort lstsq X f w = Ok (e, V) ->
  exists c b H gamma lam,
    (forall i k, (i < m)%nat -> (k < m)%nat -> H i k = H k i) /\
    (forall c' b' H', quadratic_cost M m X f w c b H <= quadratic_cost M m X f w c' b' H') /\
    (* gamma: 1 when some input exceeds 1, 1/3 otherwise; inputs below -1 are not noticed *)
    ((exists s i, (s < M)%nat /\ (i < m)%nat /\ 1 < X.[s, i]) -> gamma = 1) /\
    ((forall s i, (s < M)%nat -> (i < m)%nat -> X.[s, i] <= 1) -> gamma = / 3) /\
    eigsorted m (fun i k => b i * b k + gamma * sumf m (fun l => H i l * H k l)) e V lam /\
    (* that matrix is the average of the outer product of the surface's gradient over any
       rule with mass 1, mean 0 and covariance gamma I *)
    (forall (Z : nat) (p : nat -> R) (z : nat -> nat -> R),
       sumf Z p = 1 -> (forall i, (i < m)%nat -> sumf Z (fun t => p t * z t i) = 0) ->
       (forall i k, (i < m)%nat -> (k < m)%nat -> sumf Z (fun t => p t * (z t i * z t k)) = if Nat.eqb i k then gamma else 0) ->
       forall i k, (i < m)%nat -> (k < m)%nat ->
       b i * b k + gamma * sumf m (fun l => H i l * H k l) =
       sumf Z (fun t => p t * (quadratic_gradient m b H (z t) i * quadratic_gradient m b H (z t) k))).
Proof.
  intros eigh argsort lstsq M m X f w e V HE HA HL HX Hf Hw HO.
  destruct (qphd_subspace_spec eigh argsort lstsq HE HA HL M m X f w e V HX Hf Hw HO) as (c & b & H & g & lam & S1 & S2 & (S3 & S3') & S4).
  exists c, b, H, g, lam. split; [exact S1|]. split; [intros; rewrite !quadratic_cost_wq; apply S2|].
  split; [exact S3|]. split; [intros Q; rewrite (S3' Q); lra|]. split; [exact S4|].
  intros Z p z Z1 Z2 Z3 i k Hi Hk. apply (quadC_average m g b H Z p z); auto.
  intros i' k' Hi' Hk'. rewrite Z3 by auto. unfold kron_delta. destruct (Nat.eqb i' k'); ring.
Qed.
Print Assumptions C15_quadratic_gradients_partial.

Theorem C15_returns : forall eigh argsort lstsq M m X f w,
  eigh_contract eigh -> lstsq_contract lstsq -> lstsq_total lstsq -> eigh_total eigh -> (1 <= m)%nat ->
  shape X = [M; m] -> shape f = [M; 1%nat] -> shape w = [M; 1%nat] -> (binom (2 + m) m <= M)%nat ->
  exists e V, qphd_subspace eigh argsort lstsq X f w = Ok (e, V).
Proof.
  intros. destruct (qphd_subspace_returns eigh argsort lstsq H H0 M m X f w) as ((e & V) & E); eauto.
Qed.
Print Assumptions C15_returns.

(** f = x^2 sampled at -2, 0, 1: an input lies outside [-1,1] *)
Definition X15 : nd R := mat_of [[-2]; [0]; [1]].
Definition f15 : nd R := mat_of [[4]; [0]; [1]].
Definition w15 : nd R := mk2 3 1 (fun _ _ => / 3).
Lemma C15_fit : forall c b H, (forall c' b' H', quadratic_cost 3 1 X15 f15 w15 c b H <= quadratic_cost 3 1 X15 f15 w15 c' b' H') ->
  c = 0 /\ b 0%nat = 0 /\ H 0%nat 0%nat = 2.
Proof.
  intros c b H Hmin. specialize (Hmin 0 (fun _ => 0) (fun _ _ => 2)).
  assert (Z : quadratic_cost 3 1 X15 f15 w15 0 (fun _ => 0) (fun _ _ => 2) = 0) by (unfold quadratic_cost, quadratic; cbn; field).
  rewrite Z in Hmin.
  assert (Q := sumf_nonneg_eq0 3 (fun s => (w15.[s, 0%nat] * (f15.[s, 0%nat] - quadratic 1 c b H (fun i => X15.[s, i]))) ^ 2)
     (fun s _ => pow2_ge_0 _) ltac:(apply Rle_antisym; [exact Hmin | apply sumf_nonneg; intros; apply pow2_ge_0])).
  pose proof (Q 0%nat ltac:(lia)) as Q0. pose proof (Q 1%nat ltac:(lia)) as Q1. pose proof (Q 2%nat ltac:(lia)) as Q2.
  cbv beta in Q0, Q1, Q2.
  assert (SQ : forall x, x ^ 2 = 0 -> x = 0) by (intros x Hx; destruct (Rmult_integral x x); [lra | auto | auto]).
  apply SQ in Q0, Q1, Q2. unfold quadratic in *. cbn in Q0, Q1, Q2. repeat split; lra.
Qed.
(** the code's answer is 4/3 whatever solvers are used *)
Lemma C15_answer : forall eigh argsort lstsq e V, eigh_contract eigh -> argsort_contract argsort -> lstsq_contract lstsq ->
  qphd_subspace eigh argsort lstsq X15 f15 w15 = Ok (e, V) -> e.[0%nat, 0%nat] = 4 / 3.
Proof.
  intros eigh argsort lstsq e V HE HA HL HO.
  destruct (C15_quadratic_gradients_partial eigh argsort lstsq 3 1 X15 f15 w15 e V HE HA HL eq_refl eq_refl eq_refl HO)
    as (c & b & H & g & lam & S1 & S2 & _ & S3 & S4 & _).
  destruct (C15_fit c b H S2) as (_ & B & HH).
  assert (G : g = / 3) by (apply S3; intros [|[|[|s]]] [|i] Hs Hi; try lia; cbn; lra).
  pose proof (es_eig _ _ _ _ _ S4 0%nat 0%nat ltac:(lia) ltac:(lia)) as E.
  pose proof (es_orth _ _ _ _ _ S4 0%nat 0%nat ltac:(lia) ltac:(lia)) as O. rewrite kd_same in O.
  cbn [sumf] in E, O. rewrite B, HH, G in E.
  assert (lam 0%nat = 4 / 3). { assert (V.[0%nat, 0%nat] <> 0) by (unfold ent in O; nra). unfold ent in E. apply Rmult_eq_reg_r with (V.[0%nat, 0%nat]); auto. lra. }
  rewrite (es_abs _ _ _ _ _ S4 0%nat ltac:(lia)), H0. apply Rabs_pos_eq. lra.
Qed.
(** C15 as stated asks for gamma = 1 as soon as some |X_ij| > 1 *)
Theorem C15_gamma_refuted :
  exists X f w, shape X = [3%nat; 1%nat] /\ shape f = [3%nat; 1%nat] /\ shape w = [3%nat; 1%nat] /\
    (exists s i, (s < 3)%nat /\ (i < 1)%nat /\ 1 < Rabs (X.[s, i])) /\
    exists e V, qphd_subspace eigh_ref argsort_ref lstsq_ref X f w = Ok (e, V) /\
    forall c b H lam, (forall c' b' H', quadratic_cost 3 1 X f w c b H <= quadratic_cost 3 1 X f w c' b' H') ->
      ~ eigsorted 1 (fun i k => b i * b k + 1 * sumf 1 (fun l => H i l * H k l)) e V lam.
Proof.
  exists X15, f15, w15. split; [reflexivity|]. split; [reflexivity|]. split; [reflexivity|].
  split; [exists 0%nat, 0%nat; repeat split; try lia; cbn; rewrite Rabs_left; lra|].
  destruct (C15_returns eigh_ref argsort_ref lstsq_ref 3 1 X15 f15 w15 eigh_ref_contract lstsq_ref_contract lstsq_ref_total eigh_ref_total
    ltac:(lia) eq_refl eq_refl eq_refl ltac:(cbn; lia)) as (e & V & HO).
  exists e, V. split; auto. intros c b H lam Hmin S4.
  destruct (C15_fit c b H Hmin) as (_ & B & HH).
  pose proof (C15_answer _ _ _ e V eigh_ref_contract argsort_ref_contract lstsq_ref_contract HO) as A.
  pose proof (es_eig _ _ _ _ _ S4 0%nat 0%nat ltac:(lia) ltac:(lia)) as E.
  pose proof (es_orth _ _ _ _ _ S4 0%nat 0%nat ltac:(lia) ltac:(lia)) as O. rewrite kd_same in O.
  cbn [sumf] in E, O. rewrite B, HH in E.
  assert (L : lam 0%nat = 4). { assert (V.[0%nat, 0%nat] <> 0) by (unfold ent in O; nra). unfold ent in E. apply Rmult_eq_reg_r with (V.[0%nat, 0%nat]); auto. lra. }
  rewrite (es_abs _ _ _ _ _ S4 0%nat ltac:(lia)), L in A. rewrite Rabs_pos_eq in A; lra.
Qed.
Print Assumptions C15_gamma_refuted.

(** f = x^2 at -1, 0, 1: inside the box, eigenvalue 4/3 = mean of (2x)^2 over [-1,1];
    at 0, 1, 2 it is 4 *)
Example C15_case :
  (exists e V, qphd_subspace eigh_ref argsort_ref lstsq_ref X15 f15 w15 = Ok (e, V) /\ e.[0%nat, 0%nat] = 4 / 3) /\
  exists e V, qphd_subspace eigh_ref argsort_ref lstsq_ref (mat_of [[0]; [1]; [2]]) (mat_of [[0]; [1]; [4]]) w15 = Ok (e, V).
Proof.
  split.
  - destruct (C15_returns eigh_ref argsort_ref lstsq_ref 3 1 X15 f15 w15 eigh_ref_contract lstsq_ref_contract lstsq_ref_total eigh_ref_total
      ltac:(lia) eq_refl eq_refl eq_refl ltac:(cbn; lia)) as (e & V & HO).
    exists e, V. split; auto. apply (C15_answer _ _ _ e V eigh_ref_contract argsort_ref_contract lstsq_ref_contract HO).
  - apply (C15_returns eigh_ref argsort_ref lstsq_ref 3 1 (mat_of [[0]; [1]; [2]]) (mat_of [[0]; [1]; [4]]) w15 eigh_ref_contract lstsq_ref_contract lstsq_ref_total eigh_ref_total
      ltac:(lia) eq_refl eq_refl eq_refl ltac:(cbn; lia)).
Qed.

(** ** C16 *)
Theorem C16_first_largest_gap : forall m e, shape e = [m; 1%nat] -> (2 <= m)%nat ->
  exists n ed, eig_partition e = Ok (Z.of_nat n, ed) /\ (1 <= n)%nat /\ (n <= m - 1)%nat /\
    let gap q := Rabs (e.[(q - 1)%nat, 0%nat] - e.[q, 0%nat]) in
    (forall q, (1 <= q)%nat -> (q <= m - 1)%nat -> gap q <= gap n) /\
    (forall q, (1 <= q)%nat -> (q < n)%nat -> gap q < gap n) /\
    shape ed = [(m - 1)%nat] /\ (forall q, (1 <= q)%nat -> (q <= m - 1)%nat -> ed.[(q - 1)%nat] = gap q).
Proof.
  intros m e He Hm. destruct (eig_partition_eq m e He Hm) as (k & ed & E & Sd & Ed & K1 & K2 & K3).
  assert (A : forall q, (1 <= q)%nat -> Rabs (e.[(q - 1)%nat, 0%nat] - e.[q, 0%nat]) = Rabs (e.[S (q - 1), 0%nat] - e.[(q - 1)%nat, 0%nat])).
  { intros q Hq. rewrite Rabs_minus_sym. replace (S (q - 1)) with q by lia. reflexivity. }
  exists (k + 1)%nat, ed. split; [rewrite E; do 2 f_equal; lia|]. split; [lia|]. split; [lia|]. cbv zeta beta.
  rewrite (A (k + 1)%nat ltac:(lia)). replace (k + 1 - 1)%nat with k by lia. split; [|split; [|split; auto]].
  - intros q Hq Hq'. rewrite A by auto. apply K2. lia.
  - intros q Hq Hq'. rewrite A by auto. apply K3. lia.
  - intros q Hq Hq'. rewrite A by auto. apply Ed. lia.
Qed.
Print Assumptions C16_first_largest_gap.

Theorem C16_one_eigenvalue_raises : forall m e, shape e = [m; 1%nat] -> (m <= 1)%nat -> eig_partition e = Err ValueError.
Proof. exact eig_partition_small. Qed.
Print Assumptions C16_one_eigenvalue_raises.

(** gaps 1, 3, 3: the answer is 2, not 3 *)
Example C16_case : exists ed, eig_partition (mat_of [[8]; [7]; [4]; [1]]) = Ok (2%Z, ed).
Proof.
  destruct (C16_first_largest_gap 4 (mat_of [[8]; [7]; [4]; [1]]) eq_refl ltac:(lia)) as (n & ed & E & L1 & L2 & H1 & H2 & _).
  exists ed. rewrite E. pose proof (H1 2%nat ltac:(lia) ltac:(lia)) as G.
  destruct n as [|[|[|[|n]]]]; try lia.
  - exfalso. cbn in G. unfold Rabs in G. destruct (Rcase_abs (7 - 4)), (Rcase_abs (8 - 7)); lra.
  - reflexivity.
  - exfalso. pose proof (H2 2%nat ltac:(lia) ltac:(lia)) as G2. cbn in G2. unfold Rabs in G2. destruct (Rcase_abs (7 - 4)), (Rcase_abs (4 - 1)); lra.
Qed.

(** ** C17 *)
Theorem C17_errbnd_first_minimiser : forall m e err, shape e = [m; 1%nat] -> shape err = [(m - 1)%nat; 1%nat] -> (2 <= m)%nat ->
  (forall i, (i < m)%nat -> 0 <= e.[i, 0%nat]) ->
  let bound n := sqrt (sumf n (fun i => e.[i, 0%nat])) * err.[(n - 1)%nat, 0%nat] + sqrt (sumf (m - n) (fun i => e.[(n + i)%nat, 0%nat])) in
  exists n eb, errbnd_partition e err = Ok (Z.of_nat n, eb) /\ (1 <= n)%nat /\ (n <= m - 1)%nat /\
    (forall q, (1 <= q)%nat -> (q <= m - 1)%nat -> bound n <= bound q) /\
    (forall q, (1 <= q)%nat -> (q < n)%nat -> bound n < bound q) /\
    shape eb = [(m - 1)%nat; 1%nat] /\ (forall q, (1 <= q)%nat -> (q <= m - 1)%nat -> eb.[(q - 1)%nat, 0%nat] = Fin (bound q)).
Proof.
  intros m e err He Hr Hm Hp bound. destruct (errbnd_partition_eq m e err He Hr Hm Hp) as (k & eb & E & S1 & EB & K1 & K2 & K3).
  assert (A : forall q, (1 <= q)%nat -> bound q = rs_bound m (fun k => e.[k, 0%nat]) (fun k => err.[k, 0%nat]) (q - 1 + 1)).
  { intros q Hq. unfold bound, rs_bound. replace (q - 1 + 1)%nat with q by lia. reflexivity. }
  exists (k + 1)%nat, eb. split; [rewrite E; do 2 f_equal; lia|]. split; [lia|]. split; [lia|].
  rewrite (A (k + 1)%nat ltac:(lia)). replace (k + 1 - 1)%nat with k by lia. split; [|split; [|split; auto]].
  - intros q Hq Hq'. rewrite (A q Hq). apply K2. lia.
  - intros q Hq Hq'. rewrite (A q Hq). apply K3. lia.
  - intros q Hq Hq'. rewrite (A q Hq). apply EB. lia.
Qed.
Print Assumptions C17_errbnd_first_minimiser.

Theorem C17_ladle_first_minimiser : forall m e F Fr, shape e = [m; 1%nat] -> shape F = [m; 1%nat] -> (1 <= m)%nat ->
  (forall i, (i < m)%nat -> F.[i, 0%nat] = Fin (Fr i)) -> sumf m (fun i => e.[i, 0%nat]) <> 0 ->
  let crit n := Fr (n - 1)%nat + e.[(n - 1)%nat, 0%nat] / sumf m (fun i => e.[i, 0%nat]) in
  exists n G, ladle_partition e F = Ok (Z.of_nat n, G) /\ (1 <= n)%nat /\ (n <= m)%nat /\
    (forall q, (1 <= q)%nat -> (q <= m)%nat -> crit n <= crit q) /\
    (forall q, (1 <= q)%nat -> (q < n)%nat -> crit n < crit q) /\
    shape G = [m; 1%nat] /\ (forall q, (1 <= q)%nat -> (q <= m)%nat -> G.[(q - 1)%nat, 0%nat] = Fin (crit q)).
Proof.
  intros m e F Fr He HF Hm HFr Hs crit. destruct (ladle_partition_eq m e F Fr He HF Hm HFr Hs) as (k & G & E & S1 & EB & K1 & K2 & K3).
  exists (k + 1)%nat, G. split; [rewrite E; do 2 f_equal; lia|]. split; [lia|]. split; [lia|].
  unfold crit. replace (k + 1 - 1)%nat with k by lia. split; [|split; [|split; auto]].
  - intros q Hq Hq'. apply K2. lia.
  - intros q Hq Hq'. apply K3. lia.
  - intros q Hq Hq'. apply EB. lia.
Qed.
Print Assumptions C17_ladle_first_minimiser.

(** corner cases: one eigenvalue makes the error-bound rule raise; an undefined metric or all-zero
    eigenvalues make the ladle rule answer 1 without complaint *)
Theorem C17_corner_cases :
  (forall e err, shape e = [1%nat; 1%nat] -> errbnd_partition e err = Err ValueError) /\
  (forall m e F, shape e = [m; 1%nat] -> shape F = [m; 1%nat] -> (1 <= m)%nat ->
     F.[0%nat, 0%nat] = NaN \/ (forall i, (i < m)%nat -> e.[i, 0%nat] = 0) ->
     exists G, ladle_partition e F = Ok (1%Z, G) /\ G.[0%nat, 0%nat] = NaN).
Proof.
  split; [exact errbnd_partition_one|]. intros m e F He HF Hm HN.
  destruct (ladle_partition_nan m e F He HF Hm HN) as (G & E & _ & E0). eauto.
Qed.
Print Assumptions C17_corner_cases.

Definition li17 : nd xr := mk2 3 1 (fun i _ => Fin (match i with 0%nat => 1/5 | 1%nat => 1/5 | _ => 3/5 end)).
(** e = (9, 1, 0), errors (1/2, 1/10): bounds 3/2 + 1 and sqrt 10 / 10 + 0, so n = 2;
    with li_F = (1/5, 1/5, 3/5): criteria 1.1, 0.3, 0.6, so n = 2 *)
Example C17_case :
  (exists eb, errbnd_partition (mat_of [[9]; [1]; [0]]) (mat_of [[/ 2]; [/ 10]]) = Ok (2%Z, eb)) /\
  (exists G, ladle_partition (mat_of [[9]; [1]; [0]]) li17 = Ok (2%Z, G)).
Proof.
  split.
  - destruct (C17_errbnd_first_minimiser 3 (mat_of [[9]; [1]; [0]]) (mat_of [[/ 2]; [/ 10]]) eq_refl eq_refl ltac:(lia)) as (n & eb & E & L1 & L2 & H1 & _).
    { intros [|[|[|i]]] Hi; try lia; cbn; lra. }
    exists eb. rewrite E. destruct n as [|[|[|n]]]; try lia; [|reflexivity].
    exfalso. specialize (H1 2%nat ltac:(lia) ltac:(lia)). cbn in H1.
    replace (0 + 1 + 0) with 1 in H1 by ring. replace (0 + 9 + 1) with 10 in H1 by ring. replace (0 + 9) with (3 * 3) in H1 by ring.
    replace (0 + 0) with 0 in H1 by ring. rewrite sqrt_1, sqrt_0, sqrt_square in H1 by lra.
    assert (sqrt 10 <= 4) by (rewrite <- (sqrt_square 4) by lra; apply sqrt_le_1_alt; lra). lra.
  - destruct (C17_ladle_first_minimiser 3 (mat_of [[9]; [1]; [0]]) li17
      (fun i => match i with 0%nat => 1/5 | 1%nat => 1/5 | _ => 3/5 end) eq_refl eq_refl ltac:(lia)) as (n & G & E & L1 & L2 & H1 & _).
    { intros [|[|[|i]]] Hi; try lia; reflexivity. }
    { cbn. lra. }
    exists G. rewrite E. specialize (H1 2%nat ltac:(lia) ltac:(lia)). destruct n as [|[|[|[|n]]]]; try lia; [|reflexivity|]; exfalso; cbn in H1; lra.
Qed.
