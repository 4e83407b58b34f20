(** Final statements about symmetries and stability of the estimated subspace: C71-C73. *)
From Coq Require Import String Reals Lra Lia List Arith ZArith Bool.
From Verif Require Import Prelude Py NumArr LinAlg Lsq Sorting M_Misc M_SimRunners M_Gradients P_Gradients Spectral Perturb M_Subspaces P_Subspaces
  EighRef P_Partition Toy Properties_Gradients Properties_Subspaces P_Stability.
Import ListNotations.
Open Scope R_scope.

(** ** C71 *)
Lemma kd_if : forall a b, (if Nat.eqb a b then 1 else 0) = kron_delta a b.
Proof. intros. destruct (Nat.eqb_spec a b) as [->|H]; [now rewrite kd_same|now rewrite kd_diff]. Qed.

(** Rotate the inputs by Q, scale the outputs by c, scale the weights by t and list the
    samples in another order p: the eigenvalues are multiplied by t c^2 and the space spanned by
    the first k eigenvectors is rotated by Q, whatever eigensolver is used on either side. *)
Theorem C71_symmetries : forall eigh argsort eigh' argsort' M m df weights df' weights' e V e' V' (p p' : nat -> nat) (Q : nat -> nat -> R) c t,
  eigh_contract eigh -> argsort_contract argsort -> eigh_contract eigh' -> argsort_contract argsort' ->
  shape df = [M; m] -> shape weights = [M; 1%nat] -> shape df' = [M; m] -> shape weights' = [M; 1%nat] ->
  (forall s, (s < M)%nat -> 0 <= weights.[s, 0%nat]) -> 0 <= t ->
  (forall s, (s < M)%nat -> (p s < M)%nat /\ p' (p s) = s) -> (forall s, (s < M)%nat -> (p' s < M)%nat /\ p (p' s) = s) ->
  (forall a b, (a < m)%nat -> (b < m)%nat -> sumf m (fun i => Q i a * Q i b) = if Nat.eqb a b then 1 else 0) ->
  (forall s i, (s < M)%nat -> (i < m)%nat -> df'.[s, i] = c * sumf m (fun l => Q i l * df.[p s, l])) ->
  (forall s, (s < M)%nat -> weights'.[s, 0%nat] = t * weights.[p s, 0%nat]) ->
  active_subspace eigh argsort df weights = Ok (e, V) -> active_subspace eigh' argsort' df' weights' = Ok (e', V') ->
  (forall j, (j < m)%nat -> e'.[j, 0%nat] = t * (c * c) * e.[j, 0%nat]) /\
  (* projector onto the leading k eigenvectors, whenever there is a gap after the k-th eigenvalue *)
  (forall k, (1 <= k)%nat -> (k < m)%nat -> e.[k, 0%nat] < e.[(k - 1)%nat, 0%nat] -> 0 < t * (c * c) ->
     forall i l, (i < m)%nat -> (l < m)%nat ->
     sumf k (fun a => V'.[i, a] * V'.[l, a]) =
     sumf k (fun a => sumf m (fun b => Q i b * V.[b, a]) * sumf m (fun d => Q l d * V.[d, a]))).
Proof.
  intros eigh argsort eigh' argsort' M m df weights df' weights' e V e' V' p p' Q c t HE HA HE' HA' Sd Sw Sd' Sw' Hp Ht Pp Pp' HQ Hd Hw H H'.
  destruct (active_subspace_spec eigh argsort HE HA M m df weights e V Sd Sw H) as (lam & L).
  destruct (active_subspace_spec eigh' argsort' HE' HA' M m df' weights' e' V' Sd' Sw' H') as (lam' & L').
  assert (P := gradC_psd M m (ent df) (fun s => weights.[s, 0%nat]) Hp).
  assert (Hp' : forall s, (s < M)%nat -> 0 <= weights'.[s, 0%nat]).
  { intros s Hs. rewrite Hw by auto. apply Rmult_le_pos; auto. apply Hp. apply Pp; auto. }
  assert (P' := gradC_psd M m (ent df') (fun s => weights'.[s, 0%nat]) Hp').
  assert (EV := eigsorted_psd_eig _ _ _ _ _ L P). assert (EV' := eigsorted_psd_eig _ _ _ _ _ L' P').
  assert (OQ : orthonormal m m Q) by (intros a b Ha Hb; rewrite HQ by auto; apply kd_if).
  destruct (rotated_basis m _ _ _ Q (t * (c * c)) (es_orth _ _ _ _ _ L) EV OQ) as (O2 & E2).
  set (C' := gradC M (ent df') (fun s => weights'.[s, 0%nat])) in *.
  assert (E3 : eigcols m C' (fun j => t * (c * c) * e.[j, 0%nat]) (fun i j => sumf m (fun b => Q i b * ent V b j))).
  { intros i j Hi Hj. rewrite <- (E2 i j Hi Hj). apply sumf_ext; intros k Hk. f_equal. unfold C'.
    apply (gradC_transform M m (ent df) (fun s => weights.[s, 0%nat]) (ent df') (fun s => weights'.[s, 0%nat]) p p' Q c t); auto. }
  assert (R0 : 0 <= t * (c * c)) by (apply Rmult_le_pos; auto; apply Rle_0_sqr).
  assert (D3 : decreasing m (fun j => t * (c * c) * e.[j, 0%nat])).
  { intros a b Hab Hb. apply Rmult_le_compat_l; auto. apply (es_dec _ _ _ _ _ L); auto. }
  assert (EQ : forall j, (j < m)%nat -> e'.[j, 0%nat] = t * (c * c) * e.[j, 0%nat]).
  { apply (sorted_eigenvalues_unique m C' (fun j => e'.[j, 0%nat]) (ent V') (fun j => t * (c * c) * e.[j, 0%nat]) (fun i j => sumf m (fun b => Q i b * ent V b j))); auto.
    - apply (es_orth _ _ _ _ _ L').
    - apply (es_dec _ _ _ _ _ L'). }
  split; [exact EQ|]. intros k Hk Hkm Gap Hr i l Hi Hl.
  apply (projector_unique m C' (fun j => e'.[j, 0%nat]) (ent V') (fun j => t * (c * c) * e.[j, 0%nat]) (fun i j => sumf m (fun b => Q i b * ent V b j)) k); auto; try lia.
  - intros a b Ha Hb. apply (gradC_sym M _ _ m); auto.
  - apply (es_orth _ _ _ _ _ L').
  - intros a b Ha Hb Hb'. rewrite EQ by lia.
    pose proof (es_dec _ _ _ _ _ L a (k - 1)%nat ltac:(lia) ltac:(lia)) as Q1. pose proof (es_dec _ _ _ _ _ L k b ltac:(lia) ltac:(lia)) as Q2.
    cbv beta in Q1, Q2. apply Rlt_not_eq. apply Rmult_lt_compat_l; lra.
Qed.
Print Assumptions C71_symmetries.

(** the dimension chosen from the eigenvalue gaps is the same on both sides *)
Theorem C71_dimension : forall m e e' r n ed n' ed', shape e = [m; 1%nat] -> shape e' = [m; 1%nat] -> (2 <= m)%nat -> 0 < r ->
  (forall j, (j < m)%nat -> e'.[j, 0%nat] = r * e.[j, 0%nat]) ->
  eig_partition e = Ok (n, ed) -> eig_partition e' = Ok (n', ed') -> n = n'.
Proof.
  intros m e e' r n ed n' ed' He He' Hm Hr H E E'.
  destruct (C16_first_largest_gap m e He Hm) as (k & ed1 & E1 & K1 & K2 & K3 & K4 & _).
  destruct (C16_first_largest_gap m e' He' Hm) as (k' & ed1' & E1' & K1' & K2' & K3' & K4' & _).
  rewrite E1 in E. rewrite E1' in E'. inversion E. inversion E'. cbv zeta beta in *.
  assert (G : forall q, (1 <= q)%nat -> (q <= m - 1)%nat -> Rabs (e'.[(q - 1)%nat, 0%nat] - e'.[q, 0%nat]) = r * Rabs (e.[(q - 1)%nat, 0%nat] - e.[q, 0%nat])).
  { intros q Hq Hq'. rewrite !H by lia. rewrite <- Rmult_minus_distr_l, Rabs_mult, (Rabs_pos_eq r); lra. }
  f_equal. destruct (Nat.lt_trichotomy k k') as [L|[L|L]]; auto; exfalso.
  - pose proof (K4' k ltac:(lia) L) as A. rewrite !G in A by lia. apply Rmult_lt_reg_l in A; auto.
    pose proof (K3 k' ltac:(lia) ltac:(lia)). lra.
  - pose proof (K4 k' ltac:(lia) L) as A. pose proof (K3' k ltac:(lia) ltac:(lia)) as B. rewrite !G in B by lia.
    apply Rmult_le_reg_l in B; auto. lra.
Qed.
Print Assumptions C71_dimension.

(** the data of C12_case turned by a right angle, the samples exchanged, outputs doubled, weights tripled:
    eigenvalues 12 * 125/2 = 750 and 0 *)
Definition df71 : nd R := mat_of [[-16; 12]; [-8; 6]].
Definition w71 : nd R := mat_of [[3 / 2]; [3 / 2]].
Example C71_case : exists e V, active_subspace eigh_ref argsort_ref df71 w71 = Ok (e, V) /\ e.[0%nat, 0%nat] = 750 /\ e.[1%nat, 0%nat] = 0.
Proof.
  destruct C12_case as (e & V & H & E0 & E1).
  destruct (C11_returns eigh_ref argsort_ref 2 2 df71 w71 eigh_ref_contract eigh_ref_total ltac:(lia) eq_refl eq_refl) as (e' & V' & H').
  exists e', V'. split; auto.
  destruct (C71_symmetries eigh_ref argsort_ref eigh_ref argsort_ref 2 2 df11 w11 df71 w71 e V e' V'
     (fun s => match s with O => 1 | _ => 0 end)%nat (fun s => match s with O => 1 | _ => 0 end)%nat
     (fun i j => match i, j with O, S O => -1 | S O, O => 1 | _, _ => 0 end) 2 3
     eigh_ref_contract argsort_ref_contract eigh_ref_contract argsort_ref_contract eq_refl eq_refl eq_refl eq_refl w11_nonneg ltac:(lra)) as (EQ & _); auto.
  - intros [|[|s]] Hs; try lia; repeat split; lia.
  - intros [|[|s]] Hs; try lia; repeat split; lia.
  - intros [|[|a]] [|[|b]] Ha Hb; try lia; cbn; ring.
  - intros [|[|s]] [|[|i]] Hs Hi; try lia; cbn; ring.
  - intros [|[|s]] Hs; try lia; cbn; lra.
  - rewrite !EQ, E0, E1 by lia. split; lra.
Qed.

(** ** C72 *)
(** Gradients of length at most L, each known up to an error vector of length at most h: *)
Theorem C72_eigenvalues_stable : forall eigh argsort eigh' argsort' M m df df' weights e V e' V' h L,
  eigh_contract eigh -> argsort_contract argsort -> eigh_contract eigh' -> argsort_contract argsort' ->
  shape df = [M; m] -> shape df' = [M; m] -> shape weights = [M; 1%nat] -> (forall s, (s < M)%nat -> 0 <= weights.[s, 0%nat]) ->
  0 <= h -> 0 <= L ->
  (forall s, (s < M)%nat -> sumf m (fun i => df.[s, i] * df.[s, i]) <= L * L) ->
  (forall s, (s < M)%nat -> sumf m (fun i => (df'.[s, i] - df.[s, i]) * (df'.[s, i] - df.[s, i])) <= h * h) ->
  active_subspace eigh argsort df weights = Ok (e, V) -> active_subspace eigh' argsort' df' weights = Ok (e', V') ->
  let eps := h * (2 * L + h) * sumf M (fun s => weights.[s, 0%nat]) in
  forall j, (j < m)%nat -> Rabs (e'.[j, 0%nat] - e.[j, 0%nat]) <= eps.
Proof.
  intros eigh argsort eigh' argsort' M m df df' weights e V e' V' h L HE HA HE' HA' Sd Sd' Sw Hp Hh HL BL Bh H H' eps j Hj.
  destruct (active_subspace_spec eigh argsort HE HA M m df weights e V Sd Sw H) as (lam & Lm).
  destruct (active_subspace_spec eigh' argsort' HE' HA' M m df' weights e' V' Sd' Sw H') as (lam' & Lm').
  assert (P := gradC_psd M m (ent df) (fun s => weights.[s, 0%nat]) Hp).
  assert (P' := gradC_psd M m (ent df') (fun s => weights.[s, 0%nat]) Hp).
  assert (EV := eigsorted_psd_eig _ _ _ _ _ Lm P). assert (EV' := eigsorted_psd_eig _ _ _ _ _ Lm' P').
  assert (PB := gradC_perturb M m (ent df) (ent df') (fun s => weights.[s, 0%nat]) h L Hh HL Hp
     (fun s Hs => len_le m _ L HL (BL s Hs)) (fun s Hs => len_le m _ h Hh (Bh s Hs))).
  assert (QB : forall x, Rabs (quad m (gradC M (ent df') (fun s => weights.[s, 0%nat])) x - quad m (gradC M (ent df) (fun s => weights.[s, 0%nat])) x) <= eps * dot m x x).
  { intros x. rewrite !quad_bil, <- len_sq. apply PB. }
  apply Rabs_le. split.
  - cut (e.[j, 0%nat] <= e'.[j, 0%nat] + eps); [lra|].
    apply (weyl m _ (fun j => e'.[j, 0%nat]) (ent V') _ (fun j => e.[j, 0%nat]) (ent V) eps (es_orth _ _ _ _ _ Lm') EV' (es_dec _ _ _ _ _ Lm')
       (es_orth _ _ _ _ _ Lm) EV (es_dec _ _ _ _ _ Lm)); auto.
    intros x. specialize (QB x). rewrite Rabs_minus_sym in QB. pose proof (Rle_abs (quad m (gradC M (ent df) (fun s => weights.[s, 0%nat])) x - quad m (gradC M (ent df') (fun s => weights.[s, 0%nat])) x)). lra.
  - cut (e'.[j, 0%nat] <= e.[j, 0%nat] + eps); [lra|].
    apply (weyl m _ (fun j => e.[j, 0%nat]) (ent V) _ (fun j => e'.[j, 0%nat]) (ent V') eps (es_orth _ _ _ _ _ Lm) EV (es_dec _ _ _ _ _ Lm)
       (es_orth _ _ _ _ _ Lm') EV' (es_dec _ _ _ _ _ Lm')); auto.
    intros x. specialize (QB x). pose proof (Rle_abs (quad m (gradC M (ent df') (fun s => weights.[s, 0%nat])) x - quad m (gradC M (ent df) (fun s => weights.[s, 0%nat])) x)). lra.
Qed.
Print Assumptions C72_eigenvalues_stable.

(** the distance between the two k-dimensional subspaces, measured as the code measures it
    (spectral norm of the leading eigenvectors of one against the trailing eigenvectors of the other) *)
Theorem C72_subspace_stable : forall eigh argsort eigh' argsort' norm2 M m df df' weights e V e' V' h L k P,
  eigh_contract eigh -> argsort_contract argsort -> eigh_contract eigh' -> argsort_contract argsort' -> norm2_contract norm2 ->
  shape df = [M; m] -> shape df' = [M; m] -> shape weights = [M; 1%nat] -> (forall s, (s < M)%nat -> 0 <= weights.[s, 0%nat]) ->
  0 <= h -> 0 <= L ->
  (forall s, (s < M)%nat -> sumf m (fun i => df.[s, i] * df.[s, i]) <= L * L) ->
  (forall s, (s < M)%nat -> sumf m (fun i => (df'.[s, i] - df.[s, i]) * (df'.[s, i] - df.[s, i])) <= h * h) ->
  active_subspace eigh argsort df weights = Ok (e, V) -> active_subspace eigh' argsort' df' weights = Ok (e', V') ->
  let eps := h * (2 * L + h) * sumf M (fun s => weights.[s, 0%nat]) in
  let gap := e.[(k - 1)%nat, 0%nat] - e.[k, 0%nat] in
  (1 <= k)%nat -> (k < m)%nat -> eps < gap ->
  shape P = [k; (m - k)%nat] ->
  (forall a b, (a < k)%nat -> (b < m - k)%nat -> P.[a, b] = sumf m (fun i => V.[i, a] * V'.[i, (k + b)%nat])) ->
  norm2 P <= eps / (gap - eps).
Proof.
  intros eigh argsort eigh' argsort' norm2 M m df df' weights e V e' V' h L k P HE HA HE' HA' HN Sd Sd' Sw Hp Hh HL BL Bh H H' eps gap Hk Hkm HG SP EP.
  assert (W := C72_eigenvalues_stable eigh argsort eigh' argsort' M m df df' weights e V e' V' h L HE HA HE' HA' Sd Sd' Sw Hp Hh HL BL Bh H H' k Hkm).
  fold eps in W.
  destruct (active_subspace_spec eigh argsort HE HA M m df weights e V Sd Sw H) as (lam & Lm).
  destruct (active_subspace_spec eigh' argsort' HE' HA' M m df' weights e' V' Sd' Sw H') as (lam' & Lm').
  assert (PS := gradC_psd M m (ent df) (fun s => weights.[s, 0%nat]) Hp).
  assert (PS' := gradC_psd M m (ent df') (fun s => weights.[s, 0%nat]) Hp).
  assert (EV := eigsorted_psd_eig _ _ _ _ _ Lm PS). assert (EV' := eigsorted_psd_eig _ _ _ _ _ Lm' PS').
  assert (PB := gradC_perturb M m (ent df) (ent df') (fun s => weights.[s, 0%nat]) h L Hh HL Hp
     (fun s Hs => len_le m _ L HL (BL s Hs)) (fun s Hs => len_le m _ h Hh (Bh s Hs))).
  fold eps in PB.
  assert (He : 0 <= eps).
  { unfold eps. apply Rmult_le_pos; [|apply sumf_nonneg; auto]. apply Rmult_le_pos; auto. lra. }
  assert (N2 := HN k (m - k)%nat P SP ltac:(lia) ltac:(lia)).
  destruct (is_norm2_bil k (m - k) (ent P) (norm2 P) ltac:(lia) N2) as (B1 & B2).
  assert (N0 : 0 <= norm2 P) by (apply N2).
  assert (W' : e'.[k, 0%nat] <= e.[k, 0%nat] + eps).
  { unfold Rabs in W. destruct (Rcase_abs _) in W; lra. }
  assert (DK : norm2 P * (e.[(k - 1)%nat, 0%nat] - e'.[k, 0%nat]) <= eps).
  { apply (davis_kahan m (gradC M (ent df) (fun s => weights.[s, 0%nat])) (fun j => e.[j, 0%nat]) (ent V)
      (gradC M (ent df') (fun s => weights.[s, 0%nat])) (fun j => e'.[j, 0%nat]) (ent V') eps k (norm2 P)); auto.
    - intros i l Hi Hl. apply (gradC_sym M _ _ m); auto.
    - apply (es_orth _ _ _ _ _ Lm).
    - apply (es_dec _ _ _ _ _ Lm).
    - apply (es_orth _ _ _ _ _ Lm').
    - apply (es_dec _ _ _ _ _ Lm').
    - apply (eigsorted_nonneg _ _ _ _ _ Lm').
    - intros y x. rewrite bil_minus, Rabs_minus_sym. apply PB.
    - unfold gap in HG. cbv beta. lra.
    - intros y z. specialize (B1 y z). eapply Rle_trans; [|exact B1]. right.
      apply sumf_ext; intros a Ha. apply sumf_ext; intros b Hb. f_equal. f_equal. symmetry. apply EP; auto.
    - destruct B2 as (y & z & B3 & B4 & B5). exists y, z. split; auto. split; auto. rewrite <- B5.
      apply sumf_ext; intros a Ha. apply sumf_ext; intros b Hb. f_equal. f_equal. symmetry. apply EP; auto. }
  apply (Rmult_le_reg_r (gap - eps)); [lra|]. unfold Rdiv. rewrite Rmult_assoc, Rinv_l, Rmult_1_r by lra.
  eapply Rle_trans; [|exact DK]. apply Rmult_le_compat_l; auto. unfold gap. lra.
Qed.
Print Assumptions C72_subspace_stable.

(** the dimension chosen from the eigenvalue gaps does not change when the largest gap wins by more than 4 eps *)
Theorem C72_dimension_stable : forall m e e' eps n ed n' ed', shape e = [m; 1%nat] -> shape e' = [m; 1%nat] -> (2 <= m)%nat ->
  (forall j, (j < m)%nat -> Rabs (e'.[j, 0%nat] - e.[j, 0%nat]) <= eps) ->
  eig_partition e = Ok (n, ed) -> eig_partition e' = Ok (n', ed') ->
  (forall q, (1 <= q)%nat -> (q <= m - 1)%nat -> Z.of_nat q <> n ->
     Rabs (e.[(q - 1)%nat, 0%nat] - e.[q, 0%nat]) + 4 * eps < Rabs (e.[(Z.to_nat n - 1)%nat, 0%nat] - e.[Z.to_nat n, 0%nat])) ->
  n = n'.
Proof.
  intros m e e' eps n ed n' ed' He He' Hm H E E' HG.
  destruct (C16_first_largest_gap m e He Hm) as (k & ed1 & E1 & K1 & K2 & _).
  destruct (C16_first_largest_gap m e' He' Hm) as (k' & ed1' & E1' & K1' & K2' & K3' & _).
  rewrite E1 in E. rewrite E1' in E'. inversion E. inversion E'. subst n n'. cbv zeta beta in *. rewrite Nat2Z.id in HG.
  destruct (Nat.eq_dec k k') as [->|Hn]; auto. exfalso.
  specialize (HG k' K1' K2' ltac:(lia)). specialize (K3' k K1 K2).
  pose proof (H k ltac:(lia)) as A1. pose proof (H (k - 1)%nat ltac:(lia)) as A2. pose proof (H k' ltac:(lia)) as A3. pose proof (H (k' - 1)%nat ltac:(lia)) as A4.
  unfold Rabs in *. repeat match goal with |- context[Rcase_abs ?x] => destruct (Rcase_abs x) | H : context[Rcase_abs ?x] |- _ => destruct (Rcase_abs x) end; lra.
Qed.
Print Assumptions C72_dimension_stable.

(** gradients (3,4) and (6,8), L = 10; perturbed to (3, 4 + 1/10) and (6, 8): h = 1/10, eps = 2.01;
    the perturbed subspace is within 2.01 / (62.5 - 2.01) < 1/30 of the original *)
Definition df72 : nd R := mat_of [[3; 4 + / 10]; [6; 8]].
Example C72_case : exists e V e' V', active_subspace eigh_ref argsort_ref df11 w11 = Ok (e, V) /\
  active_subspace eigh_ref argsort_ref df72 w11 = Ok (e', V') /\
  Rabs (e'.[0%nat, 0%nat] - 125 / 2) <= 201 / 100 /\
  norm2_ref (mk2 1 1 (fun _ _ => sumf 2 (fun i => V.[i, 0%nat] * V'.[i, 1%nat]))) < / 30.
Proof.
  destruct C12_case as (e & V & H & E0 & E1).
  destruct (C11_returns eigh_ref argsort_ref 2 2 df72 w11 eigh_ref_contract eigh_ref_total ltac:(lia) eq_refl eq_refl) as (e' & V' & H').
  exists e, V, e', V'. split; auto. split; auto.
  assert (BL : forall s, (s < 2)%nat -> sumf 2 (fun i => df11.[s, i] * df11.[s, i]) <= 10 * 10) by (intros [|[|s]] Hs; try lia; cbn; lra).
  assert (Bh : forall s, (s < 2)%nat -> sumf 2 (fun i => (df72.[s, i] - df11.[s, i]) * (df72.[s, i] - df11.[s, i])) <= / 10 * / 10) by (intros [|[|s]] Hs; try lia; cbn; lra).
  assert (EPS : / 10 * (2 * 10 + / 10) * sumf 2 (fun s => w11.[s, 0%nat]) = 201 / 100) by (cbn; lra).
  pose proof (C72_eigenvalues_stable eigh_ref argsort_ref eigh_ref argsort_ref 2 2 df11 df72 w11 e V e' V' (/ 10) 10 eigh_ref_contract argsort_ref_contract
     eigh_ref_contract argsort_ref_contract eq_refl eq_refl eq_refl w11_nonneg ltac:(lra) ltac:(lra) BL Bh H H') as ES.
  cbv zeta in ES. rewrite EPS in ES. split; [rewrite <- E0; apply ES; lia|].
  pose proof (C72_subspace_stable eigh_ref argsort_ref eigh_ref argsort_ref norm2_ref 2 2 df11 df72 w11 e V e' V' (/ 10) 10 1
     (mk2 1 1 (fun _ _ => sumf 2 (fun i => V.[i, 0%nat] * V'.[i, 1%nat]))) eigh_ref_contract argsort_ref_contract
     eigh_ref_contract argsort_ref_contract norm2_ref_contract eq_refl eq_refl eq_refl w11_nonneg ltac:(lra) ltac:(lra) BL Bh H H') as SS.
  cbv zeta in SS. rewrite EPS in SS. change (1 - 1)%nat with 0%nat in SS. rewrite E0, E1 in SS.
  eapply Rle_lt_trans; [apply SS; auto; try lra; try lia|].
  - intros a b Ha Hb. replace a with 0%nat by lia. replace b with 0%nat by lia. reflexivity.
  - apply (Rmult_lt_reg_r (125 / 2 - 0 - 201 / 100)); [lra|]. unfold Rdiv at 1. rewrite Rmult_assoc, Rinv_l by lra. lra.
Qed.

(** ** C73 *)
Theorem C73_finite_differences : forall (G : gen) (U : Type) (f : ufun (U:=U) (nd R) (nd R)) X M m h K L
    (g : (nat -> R) -> R) (w : world G U (nd R)) (dg : nat -> nat -> R -> R) df0 eigh argsort eigh' argsort' weights e0 V0,
  shape X = [M; m] -> 0 < h -> 0 <= K -> 0 <= L ->
  (forall x y, (forall j, (j < m)%nat -> x j = y j) -> g x = g y) ->
  (forall x u, f x u = (Ok (ND [] (fun _ => g (fun j => x.[0%nat, j]))), u)) ->
  (* along each coordinate through each sample, g has a slope that changes by at most K per unit *)
  (forall i k t, (i < M)%nat -> (k < m)%nat -> 0 <= t <= h ->
     derivable_pt_lim (fun t => g (fun j => X.[i, j] + (if Nat.eqb j k then t else 0))) t (dg i k t)) ->
  (forall i k t, (i < M)%nat -> (k < m)%nat -> 0 <= t <= h -> Rabs (dg i k t - dg i k 0) <= K * t) ->
  (* df0: the exact gradients, of length at most L *)
  shape df0 = [M; m] -> (forall i k, (i < M)%nat -> (k < m)%nat -> df0.[i, k] = dg i k 0) ->
  (forall s, (s < M)%nat -> sumf m (fun i => df0.[s, i] * df0.[s, i]) <= L * L) ->
  eigh_contract eigh -> argsort_contract argsort -> eigh_contract eigh' -> argsort_contract argsort' ->
  shape weights = [M; 1%nat] -> (forall s, (s < M)%nat -> 0 <= weights.[s, 0%nat]) ->
  active_subspace eigh argsort df0 weights = Ok (e0, V0) ->
  let gamma := sqrt (INR m) * (K * h / 2) in
  let eps := gamma * (2 * L + gamma) * sumf M (fun s => weights.[s, 0%nat]) in
  exists D w', finite_difference_gradients X (IsA f) h w = (Ok D, w') /\ shape D = [M; m] /\
    (forall i k, (i < M)%nat -> (k < m)%nat -> Rabs (D.[i, k] - df0.[i, k]) <= K * h / 2) /\
    (forall e V, active_subspace eigh' argsort' D weights = Ok (e, V) ->
       (forall j, (j < m)%nat -> Rabs (e.[j, 0%nat] - e0.[j, 0%nat]) <= eps) /\
       (forall norm2 k P, norm2_contract norm2 -> (1 <= k)%nat -> (k < m)%nat -> eps < e0.[(k - 1)%nat, 0%nat] - e0.[k, 0%nat] ->
          shape P = [k; (m - k)%nat] ->
          (forall a b, (a < k)%nat -> (b < m - k)%nat -> P.[a, b] = sumf m (fun i => V0.[i, a] * V.[i, (k + b)%nat])) ->
          norm2 P <= eps / (e0.[(k - 1)%nat, 0%nat] - e0.[k, 0%nat] - eps))).
Proof.
  intros G U f X M m h K L g w dg df0 eigh argsort eigh' argsort' weights e0 V0 HX Hh HK HL Hg Hf HD HLip Sd0 Ed0 BL HE HA HE' HA' Sw Hp H0 gamma eps.
  destruct (C07_pure_function G U f X M m h w g HX ltac:(lra) Hg Hf) as (D & w' & E1 & E2 & E3).
  exists D, w'. split; auto. split; auto.
  assert (EC : forall i k, (i < M)%nat -> (k < m)%nat -> Rabs (D.[i, k] - df0.[i, k]) <= K * h / 2).
  { intros i k Hi Hk. rewrite E3, Ed0 by auto.
    pose proof (forward_difference_error (fun t => g (fun j => X.[i, j] + (if Nat.eqb j k then t else 0))) (dg i k) h K Hh HK
       (fun t Ht => HD i k t Hi Hk Ht) (fun t Ht => HLip i k t Hi Hk Ht)) as F. cbv beta in F.
    replace (g (fun j => X.[i, j])) with (g (fun j => X.[i, j] + (if Nat.eqb j k then 0 else 0))); auto.
    apply Hg. intros j Hj. destruct (Nat.eqb j k); ring. }
  split; auto.
  assert (KH : 0 <= K * h / 2) by (apply Rmult_le_pos; [apply Rmult_le_pos; lra|lra]).
  assert (G0 : 0 <= gamma) by (unfold gamma; apply Rmult_le_pos; auto using sqrt_pos).
  assert (Bh : forall s, (s < M)%nat -> sumf m (fun i => (D.[s, i] - df0.[s, i]) * (D.[s, i] - df0.[s, i])) <= gamma * gamma).
  { intros s Hs. replace (gamma * gamma) with (INR m * (K * h / 2 * (K * h / 2))).
    - rewrite <- sumf_const. apply sumf_le; intros i Hi. specialize (EC s i Hs Hi).
      set (d := D.[s, i] - df0.[s, i]) in *. replace (d * d) with (Rabs d * Rabs d) by (rewrite <- Rabs_mult; apply Rabs_pos_eq, Rle_0_sqr). apply Rmult_le_compat; auto using Rabs_pos.
    - unfold gamma. pose proof (sqrt_sqrt (INR m) (pos_INR m)) as Q. rewrite <- Q at 1. ring. }
  intros e V HV. split.
  - exact (C72_eigenvalues_stable eigh argsort eigh' argsort' M m df0 D weights e0 V0 e V gamma L HE HA HE' HA' Sd0 E2 Sw Hp G0 HL BL Bh H0 HV).
  - intros norm2 k P HN Hk Hkm HG SP EP.
    exact (C72_subspace_stable eigh argsort eigh' argsort' norm2 M m df0 D weights e0 V0 e V gamma L k P HE HA HE' HA' HN Sd0 E2 Sw Hp G0 HL BL Bh H0 HV Hk Hkm HG SP EP).
Qed.
Print Assumptions C73_finite_differences.

(** g(x) = x_0^2 / 2 at the single sample (1, 0) with h = 1/10: K = 1 and L = 1, gradient (1, 0),
    the forward difference is 1 + 1/20, eps = (sqrt 2 / 20) (2 + sqrt 2 / 20) *)
Definition g73 (x : nat -> R) : R := x 0%nat * x 0%nat / 2.
Definition sim73 : ufun (U:=unit) (nd R) (nd R) := fun x u => (Ok (ND [] (fun _ => g73 (fun j => x.[0%nat, j]))), u).
Definition X73 : nd R := mat_of [[1; 0]].
Definition w73 : nd R := mat_of [[1]].
Example C73_case : exists D w' e V, finite_difference_gradients X73 (IsA sim73) (/ 10) (toy_world (L:=nd R) tt) = (Ok D, w') /\
  active_subspace eigh_ref argsort_ref D w73 = Ok (e, V) /\ Rabs (e.[0%nat, 0%nat] - 1) <= 1 / 5.
Proof.
  destruct (C11_returns eigh_ref argsort_ref 1 2 X73 w73 eigh_ref_contract eigh_ref_total ltac:(lia) eq_refl eq_refl) as (e0 & V0 & H0).
  assert (Wn : forall s, (s < 1)%nat -> 0 <= w73.[s, 0%nat]) by (intros [|s] Hs; try lia; cbn; lra).
  assert (E0 : e0.[0%nat, 0%nat] = 1).
  { destruct (C11_eigenvalues_are_mean_squared_slopes eigh_ref argsort_ref 1 2 X73 w73 e0 V0 eigh_ref_contract argsort_ref_contract eq_refl eq_refl Wn H0)
      as (_ & _ & _ & _ & T & _).
    destruct (C13_ridge_functions_recovered eigh_ref argsort_ref 1 2 X73 w73 e0 V0 1 (fun _ i => match i with O => 1 | _ => 0 end) (fun _ _ => 1)
      eigh_ref_contract argsort_ref_contract eq_refl eq_refl Wn) as (Z & _); auto.
    - intros [|s] [|[|i]] Hs _ Hi; try lia; cbn; ring.
    - specialize (Z 1%nat ltac:(lia) ltac:(lia)). cbn [sumf] in T. cbn in T. lra. }
  destruct (C73_finite_differences toy_gen unit sim73 X73 1 2 (/ 10) 1 1 g73 (toy_world tt)
     (fun _ k t => match k with O => 1 + t | _ => 0 end) X73 eigh_ref argsort_ref eigh_ref argsort_ref w73 e0 V0) as (D & w' & E1 & E2 & _ & E3); auto; try lra;
     try exact eigh_ref_contract; try exact argsort_ref_contract.
  - intros x y H. unfold g73. now rewrite (H 0%nat) by lia.
  - intros [|i] [|[|k]] t Hi Hk Ht; try lia.
    + unfold g73. cbn [Nat.eqb]. change (X73.[0%nat, 0%nat]) with 1.
      replace (1 + t) with ((1 * (1 + t) + (1 + t) * 1) * / 2 + ((1 + t) * (1 + t)) * 0) by lra.
      apply (derivable_pt_lim_mult (fun t => (1 + t) * (1 + t)) (fun _ => / 2)); [|apply derivable_pt_lim_const].
      assert (A : forall t, derivable_pt_lim (fun t => 1 + t) t 1).
      { intros u. pose proof (derivable_pt_lim_plus (fun _ => 1) id u 0 1 (derivable_pt_lim_const 1 u) (derivable_pt_lim_id u)) as Q.
        rewrite Rplus_0_l in Q. exact Q. }
      apply (derivable_pt_lim_mult (fun t => 1 + t) (fun t => 1 + t)); apply A.
    + unfold g73. cbn [Nat.eqb]. apply derivable_pt_lim_const.
  - intros i [|[|k]] t Hi Hk Ht; try lia; cbv beta.
    + replace (1 + t - (1 + 0)) with t by ring. rewrite Rabs_pos_eq; lra.
    + rewrite Rminus_0_r, Rabs_R0. lra.
  - intros [|i] [|[|k]] Hi Hk; try lia; cbn; ring.
  - intros [|s] Hs; try lia; cbn; lra.
  - destruct (C11_returns eigh_ref argsort_ref 1 2 D w73 eigh_ref_contract eigh_ref_total ltac:(lia) E2 eq_refl) as (e & V & H).
    exists D, w', e, V. split; auto. split; auto.
    destruct (E3 e V H) as (B & _). specialize (B 0%nat ltac:(lia)). rewrite E0 in B. eapply Rle_trans; [exact B|].
    assert (S2 : sqrt (INR 2) <= 3 / 2).
    { rewrite <- (sqrt_Rsqr (3 / 2)) by lra. apply sqrt_le_1_alt. unfold Rsqr. cbn. lra. }
    pose proof (sqrt_pos (INR 2)). change (sumf 1 (fun s => w73.[s, 0%nat])) with (0 + 1).
    set (q := sqrt (INR 2)) in *. nra.
Qed.
