(** Final statements about weights and repeated samples: C74. *)
From Coq Require Import String Reals Lra Lia List Arith ZArith Bool.
From Verif Require Import Prelude Py NumArr LinAlg Lsq Sorting Spectral Perturb M_Subspaces P_Subspaces
  EighRef P_Partition P_Bootstrap P_SubsState Toy Properties_Subspaces Properties_SubsState P_Stability.
Import ListNotations.
Open Scope R_scope.

Lemma gradC_weights : forall M M' D w (ind : nat -> nat) v i k,
  (forall s, (s < M')%nat -> (ind s < M)%nat) ->
  (forall u, (u < M)%nat -> w u = sumf M' (fun s => if Nat.eqb (ind s) u then v s else 0)) ->
  gradC M' (fun s => D (ind s)) v i k = gradC M D w i k.
Proof.
  intros M M' D w ind v i k Hi Hw. unfold gradC.
  rewrite (sumf_ext M _ (fun u => sumf M' (fun s => (if Nat.eqb (ind s) u then v s else 0) * (D u i * D u k)))).
  2: { intros u Hu. rewrite Hw by auto. now rewrite sumf_scal_r. }
  rewrite sumf_swap. apply sumf_ext; intros s Hs.
  rewrite (sumf_single M (ind s)); auto.
  - now rewrite Nat.eqb_refl.
  - intros u Hu Hn. destruct (Nat.eqb_spec (ind s) u); [congruence|ring].
Qed.

(** ** C74 *)
(** Listing a sample several times is the same as adding up the weights of its copies; leaving it
    out is the same as giving it weight 0. *)
Theorem C74_weights_count_samples : forall eigh argsort eigh' argsort' M M' m df weights df' weights' e V e' V' (ind : nat -> nat),
  eigh_contract eigh -> argsort_contract argsort -> eigh_contract eigh' -> argsort_contract argsort' ->
  shape df = [M; m] -> shape weights = [M; 1%nat] -> shape df' = [M'; m] -> shape weights' = [M'; 1%nat] ->
  (forall s, (s < M')%nat -> (ind s < M)%nat) ->
  (forall s i, (s < M')%nat -> (i < m)%nat -> df'.[s, i] = df.[ind s, i]) ->
  (forall u, (u < M)%nat -> weights.[u, 0%nat] = sumf M' (fun s => if Nat.eqb (ind s) u then weights'.[s, 0%nat] else 0)) ->
  active_subspace eigh argsort df weights = Ok (e, V) -> active_subspace eigh' argsort' df' weights' = Ok (e', V') ->
  (forall j, (j < m)%nat -> e'.[j, 0%nat] = e.[j, 0%nat]) /\
  ((forall s, (s < M')%nat -> 0 <= weights'.[s, 0%nat]) -> forall k, (1 <= k)%nat -> (k < m)%nat -> e.[k, 0%nat] < e.[(k - 1)%nat, 0%nat] ->
     forall i l, (i < m)%nat -> (l < m)%nat -> sumf k (fun a => V'.[i, a] * V'.[l, a]) = sumf k (fun a => V.[i, a] * V.[l, a])).
Proof.
  intros eigh argsort eigh' argsort' M M' m df weights df' weights' e V e' V' ind HE HA HE' HA' Sd Sw Sd' Sw' Hi Hd Hw H H'.
  destruct (active_subspace_spec eigh argsort HE HA M m df weights e V Sd Sw H) as (lam & L).
  destruct (active_subspace_spec eigh' argsort' HE' HA' M' m df' weights' e' V' Sd' Sw' H') as (lam' & L').
  assert (EC : forall i k, (i < m)%nat -> (k < m)%nat ->
     gradC M' (ent df') (fun s => weights'.[s, 0%nat]) i k = gradC M (ent df) (fun s => weights.[s, 0%nat]) i k).
  { intros i k Hii Hk. rewrite <- (gradC_weights M M' (ent df) (fun s => weights.[s, 0%nat]) ind (fun s => weights'.[s, 0%nat]) i k Hi Hw).
    apply sumf_ext; intros s Hs. unfold ent. rewrite !Hd by auto. reflexivity. }
  assert (L2 := eigsorted_ext m _ _ e' V' lam' EC L').
  assert (EQ : forall j, (j < m)%nat -> e'.[j, 0%nat] = e.[j, 0%nat]) by (apply (eigsorted_unique m _ e' V' lam' e V lam L2 L)).
  split; [exact EQ|]. intros Hp k Hk Hkm Gap i l Hii Hl.
  assert (Hp' : forall s, (s < M)%nat -> 0 <= weights.[s, 0%nat]).
  { intros u Hu. rewrite Hw by auto. apply sumf_nonneg; intros s Hs. destruct (Nat.eqb (ind s) u); auto. lra. }
  assert (P := gradC_psd M m (ent df) (fun s => weights.[s, 0%nat]) Hp').
  assert (EV := eigsorted_psd_eig _ _ _ _ _ L P). assert (EV' := eigsorted_psd_eig _ _ _ _ _ L2 P).
  apply (projector_unique m _ (fun j => e'.[j, 0%nat]) (ent V') (fun j => e.[j, 0%nat]) (ent V) k (fun a b _ _ => gradC_sym M (ent df) _ (S (a + b)) a b ltac:(lia) ltac:(lia))
     (es_orth _ _ _ _ _ L2) EV' (es_orth _ _ _ _ _ L) EV); auto; try lia.
  intros a b Ha Hb Hb'. rewrite EQ by lia.
  pose proof (es_dec _ _ _ _ _ L a (k - 1)%nat ltac:(lia) ltac:(lia)) as Q1. pose proof (es_dec _ _ _ _ _ L k b ltac:(lia) ltac:(lia)) as Q2.
  cbv beta in Q1, Q2. lra.
Qed.
Print Assumptions C74_weights_count_samples.

(** more weight, hence also more samples, never lowers an eigenvalue *)
Theorem C74_monotone : forall eigh argsort eigh' argsort' M m df weights weights' e V e' V' r,
  eigh_contract eigh -> argsort_contract argsort -> eigh_contract eigh' -> argsort_contract argsort' ->
  shape df = [M; m] -> shape weights = [M; 1%nat] -> shape weights' = [M; 1%nat] -> 0 <= r ->
  (forall s, (s < M)%nat -> 0 <= weights.[s, 0%nat]) -> (forall s, (s < M)%nat -> weights.[s, 0%nat] <= r * weights'.[s, 0%nat]) ->
  (forall s, (s < M)%nat -> 0 <= weights'.[s, 0%nat]) ->
  active_subspace eigh argsort df weights = Ok (e, V) -> active_subspace eigh' argsort' df weights' = Ok (e', V') ->
  forall j, (j < m)%nat -> e.[j, 0%nat] <= r * e'.[j, 0%nat].
Proof.
  intros eigh argsort eigh' argsort' M m df weights weights' e V e' V' r HE HA HE' HA' Sd Sw Sw' Hr Hp Hle Hp' H H' j Hj.
  destruct (active_subspace_spec eigh argsort HE HA M m df weights e V Sd Sw H) as (lam & L).
  destruct (active_subspace_spec eigh' argsort' HE' HA' M m df weights' e' V' Sd Sw' H') as (lam' & L').
  assert (EV := eigsorted_psd_eig _ _ _ _ _ L (gradC_psd M m (ent df) (fun s => weights.[s, 0%nat]) Hp)).
  assert (EV' := eigsorted_psd_eig _ _ _ _ _ L' (gradC_psd M m (ent df) (fun s => weights'.[s, 0%nat]) Hp')).
  assert (ER : eigcols m (gradC M (ent df) (fun s => r * weights'.[s, 0%nat])) (fun j => r * e'.[j, 0%nat]) (ent V')).
  { intros i k Hi Hk. rewrite Rmult_assoc, <- (EV' i k Hi Hk), <- sumf_scal_l. apply sumf_ext; intros l Hl. unfold gradC.
    rewrite <- Rmult_assoc, <- sumf_scal_l. f_equal. apply sumf_ext; intros; ring. }
  rewrite <- (Rplus_0_r (r * _)).
  apply (weyl m (gradC M (ent df) (fun s => r * weights'.[s, 0%nat])) (fun j => r * e'.[j, 0%nat]) (ent V') (gradC M (ent df) (fun s => weights.[s, 0%nat])) (fun j => e.[j, 0%nat]) (ent V) 0); auto.
  - apply (es_orth _ _ _ _ _ L').
  - intros a b Hab Hb. apply Rmult_le_compat_l; auto. apply (es_dec _ _ _ _ _ L'); auto.
  - apply (es_orth _ _ _ _ _ L).
  - apply (es_dec _ _ _ _ _ L).
  - intros x. rewrite Rmult_0_l, Rplus_0_r, !gradC_quad. apply sumf_le; intros s Hs. apply Rmult_le_compat_r; [apply Rle_0_sqr|auto].
Qed.
Print Assumptions C74_monotone.

Lemma filter_len : forall A (p : A -> bool) l, (List.length (filter p l) <= List.length l)%nat.
Proof. induction l as [|x l IH]; cbn; [lia|]. destruct (p x); cbn; lia. Qed.

Lemma replicate_core : forall eigh argsort eigh' argsort' M m df weights df0 w0 (ind : nat -> nat) e V e0 V0,
  eigh_contract eigh -> argsort_contract argsort -> eigh_contract eigh' -> eigh_total eigh' -> argsort_contract argsort' ->
  shape df = [M; m] -> shape weights = [M; 1%nat] -> (forall s, (s < M)%nat -> 0 <= weights.[s, 0%nat]) ->
  active_subspace eigh argsort df weights = Ok (e, V) ->
  shape df0 = [M; m] -> shape w0 = [M; 1%nat] -> (forall i, (i < M)%nat -> (ind i < M)%nat) ->
  (forall i, (i < M)%nat -> w0.[i, 0%nat] = weights.[ind i, 0%nat]) ->
  (forall i j, (i < M)%nat -> (j < m)%nat -> df0.[i, j] = df.[ind i, j]) ->
  active_subspace eigh' argsort' df0 w0 = Ok (e0, V0) ->
  exists count : nat -> nat, (forall s, (s < M)%nat -> (count s <= M)%nat) /\ sumf M (fun s => INR (count s)) = INR M /\
    (exists V1 e1, active_subspace eigh' argsort' df (mk2 M 1 (fun s _ => INR (count s) * weights.[s, 0%nat])) = Ok (e1, V1) /\
       forall j, (j < m)%nat -> e0.[j, 0%nat] = e1.[j, 0%nat]) /\
    forall j, (j < m)%nat -> 0 <= e0.[j, 0%nat] <= INR M * e.[j, 0%nat].
Proof.
  intros eigh argsort eigh' argsort' M m df weights df0 w0 ind e V e0 V0 HE HA HE' HT HA' Sd Sw Hp H Sd0 Sw0 Hi Hw Hd H0.
  set (hits := fun u => List.length (filter (fun s => Nat.eqb (ind s) u) (seq 0 M))).
  assert (HC : forall u, INR (hits u) = sumf M (fun s => if Nat.eqb (ind s) u then 1 else 0)).
  { intros u. unfold hits. generalize M. intros n. induction n as [|n IH]; [reflexivity|].
    rewrite seq_S, filter_app, app_length, plus_INR, IH. cbn [sumf plus filter]. destruct (Nat.eqb (ind n) u); cbn; ring. }
  assert (HL : forall u, (hits u <= M)%nat).
  { intros u. unfold hits. eapply Nat.le_trans; [apply filter_len|]. now rewrite seq_length. }
  exists hits. split; [auto|]. split.
  { rewrite (sumf_ext M _ (fun u => sumf M (fun s => if Nat.eqb (ind s) u then 1 else 0))) by (intros; apply HC).
    rewrite sumf_swap. rewrite (sumf_ext M _ (fun _ => 1)); [rewrite sumf_const; ring|].
    intros s Hs. rewrite (sumf_single M (ind s)); auto; [now rewrite Nat.eqb_refl|].
    intros u Hu Hn. destruct (Nat.eqb_spec (ind s) u); congruence. }
  assert (Hm : (0 < m)%nat).
  { destruct (active_subspace_spec eigh argsort HE HA M m df weights e V Sd Sw H) as (lam & L). apply (es_m _ _ _ _ _ L). }
  set (wc := mk2 M 1 (fun s _ => INR (hits s) * weights.[s, 0%nat])).
  destruct (C11_returns eigh' argsort' M m df wc HE' HT Hm Sd eq_refl) as (e1 & V1 & H1).
  assert (EQ : forall j, (j < m)%nat -> e0.[j, 0%nat] = e1.[j, 0%nat]).
  { destruct (C74_weights_count_samples eigh' argsort' eigh' argsort' M M m df wc df0 w0 e1 V1 e0 V0 ind HE' HA' HE' HA' Sd eq_refl Sd0 Sw0 Hi Hd) as (E & _); auto.
    intros u Hu. unfold wc. rewrite at_mk2, HC, <- sumf_scal_r. apply sumf_ext; intros s Hs. rewrite Hw by auto.
    destruct (Nat.eqb_spec (ind s) u) as [->|]; ring. }
  assert (Pc : forall s, (s < M)%nat -> 0 <= wc.[s, 0%nat]).
  { intros s Hs. unfold wc. rewrite at_mk2. apply Rmult_le_pos; auto. apply pos_INR. }
  split; [exists V1, e1; auto|]. intros j Hj. rewrite EQ by auto. split.
  - destruct (active_subspace_spec eigh' argsort' HE' HA' M m df wc e1 V1 Sd eq_refl H1) as (lam & L). apply (eigsorted_nonneg _ _ _ _ _ L); auto.
  - apply (C74_monotone eigh' argsort' eigh argsort M m df wc weights e1 V1 e V (INR M) HE' HA' HE HA Sd eq_refl Sw (pos_INR M) Pc); auto.
    intros s Hs. unfold wc. rewrite at_mk2. apply Rmult_le_compat_r; auto. apply le_INR. auto.
Qed.

(** one bootstrap replicate is the weighted estimate with each weight multiplied by how often its
    sample was drawn; its eigenvalues are at most M times those of the full data *)
Theorem C74_replicate : forall (G : gen) (U : Type) eigh argsort eigh' argsort' X f M m df weights (w w' : world G U (nd R)) X0 f0 df0 w0 e V e0 V0,
  eigh_contract eigh -> argsort_contract argsort -> eigh_contract eigh' -> eigh_total eigh' -> argsort_contract argsort' ->
  shape df = [M; m] -> shape weights = [M; 1%nat] -> (forall s, (s < M)%nat -> 0 <= weights.[s, 0%nat]) ->
  active_subspace eigh argsort df weights = Ok (e, V) ->
  bootstrap_replicate X f (Some df) weights w = (Ok (X0, f0, Some df0, w0), w') ->
  active_subspace eigh' argsort' df0 w0 = Ok (e0, V0) ->
  exists count : nat -> nat, (forall s, (s < M)%nat -> (count s <= M)%nat) /\ sumf M (fun s => INR (count s)) = INR M /\
    (exists V1 e1, active_subspace eigh' argsort' df (mk2 M 1 (fun s _ => INR (count s) * weights.[s, 0%nat])) = Ok (e1, V1) /\
       forall j, (j < m)%nat -> e0.[j, 0%nat] = e1.[j, 0%nat]) /\
    forall j, (j < m)%nat -> 0 <= e0.[j, 0%nat] <= INR M * e.[j, 0%nat].
Proof.
  intros G U eigh argsort eigh' argsort' X f M m df weights w w' X0 f0 df0 w0 e V e0 V0 HE HA HE' HT HA' Sd Sw Hp H HB H0.
  destruct (C20_replicates_keep_samples_together G U X f (Some df) weights w X0 f0 (Some df0) w0 w' HB) as (ind & Hi & N0 & Hw & HY).
  rewrite (nrows_shape2 _ weights M 1 Sw) in *. rewrite (ncols_shape2 _ weights M 1 Sw) in Hw.
  destruct (HY (Some df) (Some df0) ltac:(cbn; auto)) as (Sd0 & Hd). rewrite (ncols_shape2 _ df M m Sd) in Sd0, Hd.
  assert (Sw0 : shape w0 = [M; 1%nat]).
  { destruct (bootstrap_replicate_ok _ _ _ _ _ _ _ _ _ _ HB) as (ind' & L1 & _ & _ & _ & _ & _ & HRW).
    destruct HRW as (r & c & S1 & S2 & _ & _). rewrite Sw in S1. injection S1 as <- <-. rewrite L1, (nrows_shape2 _ weights M 1 Sw) in S2. exact S2. }
  apply (replicate_core eigh argsort eigh' argsort' M m df weights df0 w0 ind e V e0 V0); auto.
Qed.
Print Assumptions C74_replicate.

(** hence the bootstrap range of eigenvalue j lies in [0, M e_j]: an eigenvalue 0 has range [0, 0] *)
Theorem C74_bootstrap_ranges : forall eigh argsort lstsq norm2 det (G : gen) (U : Type) e V X f M m df weights nboot
    (w : world G U (nd R)) e_br sub_br li_F w',
  eigh_contract eigh -> eigh_total eigh -> argsort_contract argsort -> norm2_contract norm2 -> det_contract det ->
  (1 <= nboot)%nat -> shape df = [M; m] -> shape weights = [M; 1%nat] -> (forall s, (s < M)%nat -> 0 <= weights.[s, 0%nat]) ->
  active_subspace eigh argsort df weights = Ok (e, V) ->
  bootstrap_ranges norm2 det e V X f (Some df) weights (ssmethod eigh argsort lstsq "AS") nboot w = (Ok (e_br, sub_br, li_F), w') ->
  forall j, (j < m)%nat -> 0 <= e_br.[j, 0%nat] <= e_br.[j, 1%nat] /\ e_br.[j, 1%nat] <= INR M * e.[j, 0%nat].
Proof.
  intros eigh argsort lstsq norm2 det G U e V X f M m df weights nboot w e_br sub_br li_F w' HE HT HA HN HD Hnb Sd Sw Hp H HB j Hj.
  destruct (active_subspace_spec eigh argsort HE HA M m df weights e V Sd Sw H) as (lam & L).
  destruct (C19_bootstrap_ranges eigh argsort lstsq norm2 det G U "AS" e V X f (Some df) weights nboot w e_br sub_br li_F w' m HE HA HN HD Hnb (es_V _ _ _ _ _ L))
    as (_ & _ & _ & eb & Vb & dist & R1 & _ & R3 & _); auto.
  { intros a b Ha Hb. etransitivity; [apply (es_orth _ _ _ _ _ L a b Ha Hb)|]. destruct (Nat.eqb_spec a b) as [->|Hab]; [apply kd_same|now apply kd_diff]. }
  { apply (ncols_shape2 _ df M m Sd). }
  assert (B : forall i, (i < nboot)%nat -> 0 <= (eb i).[j, 0%nat] <= INR M * e.[j, 0%nat]).
  { intros i Hi. destruct (R1 i Hi) as (ind & X0 & f0 & df0 & w0 & wa & wb & LI & _ & _ & RD & RW & HM).
    rewrite (nrows_shape2 _ weights M 1 Sw) in LI.
    destruct RD as (d & -> & r & c & S1 & S2 & F & E). rewrite Sd in S1. injection S1 as <- <-.
    destruct RW as (r & c & S1 & S2' & _ & E'). rewrite Sw in S1. injection S1 as <- <-.
    rewrite LI in *. unfold ssmethod in HM. cbn [String.eqb Ascii.eqb Bool.eqb] in HM. unfold mlift in HM. injection HM as HM _.
    destruct (replicate_core eigh argsort eigh argsort M m df weights d w0 (fun i => nth i ind 0%nat) e V (eb i) (Vb i) HE HA HE HT HA Sd Sw Hp H S2 S2') as (_ & _ & _ & _ & B); auto.
    intros k Hk. rewrite Forall_forall in F. apply F, nth_In. lia. }
  destruct (R3 j Hj) as (A1 & (i0 & Hi0 & E0) & (i1 & Hi1 & E1)).
  rewrite <- E0, <- E1. split; [split; [apply B; auto|]|apply B; auto].
  rewrite E0. apply A1; auto.
Qed.
Print Assumptions C74_bootstrap_ranges.

(** gradients (3,4), (6,8), (6,8) with weights 1/4 each give the eigenvalues of (3,4) with weight 1/4
    and (6,8) with weight 1/2 *)
Definition df74 : nd R := mat_of [[3; 4]; [6; 8]; [6; 8]].
Definition w74 : nd R := mat_of [[/ 4]; [/ 4]; [/ 4]].
Example C74_case : exists e V e' V', active_subspace eigh_ref argsort_ref df11 (mat_of [[/ 4]; [/ 2]]) = Ok (e, V) /\
  active_subspace eigh_ref argsort_ref df74 w74 = Ok (e', V') /\ e'.[0%nat, 0%nat] = e.[0%nat, 0%nat] /\ e'.[1%nat, 0%nat] = e.[1%nat, 0%nat].
Proof.
  destruct (C11_returns eigh_ref argsort_ref 2 2 df11 (mat_of [[/ 4]; [/ 2]]) eigh_ref_contract eigh_ref_total ltac:(lia) eq_refl eq_refl) as (e & V & H).
  destruct (C11_returns eigh_ref argsort_ref 3 2 df74 w74 eigh_ref_contract eigh_ref_total ltac:(lia) eq_refl eq_refl) as (e' & V' & H').
  exists e, V, e', V'. split; auto. split; auto.
  destruct (C74_weights_count_samples eigh_ref argsort_ref eigh_ref argsort_ref 2 3 2 df11 (mat_of [[/ 4]; [/ 2]]) df74 w74 e V e' V'
     (fun s => match s with O => 0 | _ => 1 end)%nat eigh_ref_contract argsort_ref_contract eigh_ref_contract argsort_ref_contract eq_refl eq_refl eq_refl eq_refl) as (EQ & _); auto.
  - intros [|s] Hs; lia.
  - intros [|[|[|s]]] [|[|i]] Hs Hi; try lia; reflexivity.
  - intros [|[|u]] Hu; try lia; cbn; lra.
Qed.
