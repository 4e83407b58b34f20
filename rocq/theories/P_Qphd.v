(** Facts about qphd_subspace *)
From Coq Require Import String Reals Lra Lia List Arith ZArith Bool Permutation.
From Verif Require Import Prelude Py NumArr LinAlg Lsq Sorting Spectral M_Misc P_Misc M_RespSurf P_IndexSet P_Poly P_PolyTrain P_PolyFacts M_Gradients M_Subspaces P_Subspaces P_Estimators.
Import ListNotations.
Open Scope R_scope.

(** a quadratic polynomial c + b.x + x^T H x / 2, and its gradient for symmetric H *)
Definition qmodel (m : nat) (c : R) (b : nat -> R) (H : nat -> nat -> R) (x : nat -> R) : R :=
  c + sumf m (fun k => b k * x k) + / 2 * sumf m (fun a => sumf m (fun k => H a k * x a * x k)).
Definition qgrad (m : nat) (b : nat -> R) (H : nat -> nat -> R) (x : nat -> R) (i : nat) : R :=
  b i + sumf m (fun k => H i k * x k).

(** what the weighted fit minimises: residuals are multiplied by the weights *)
Definition wq (M m : nat) (X f w : nd R) (c : R) (b : nat -> R) (H : nat -> nat -> R) : R :=
  sumf M (fun i => (w.[i, 0%nat] * (f.[i, 0%nat] - qmodel m c b H (fun j => X.[i, j])))
                 * (w.[i, 0%nat] * (f.[i, 0%nat] - qmodel m c b H (fun j => X.[i, j])))).

(** every quadratic is a sum of monomials of degree <= 2 *)
Definition q_coef (m : nat) (c : R) (b : nat -> R) (H : nat -> nat -> R) (t : nat) : R :=
  match t with
  | O => c
  | S t' => if Nat.ltb t' m then b t' else / 2 * H ((t' - m) / m)%nat ((t' - m) mod m)%nat
  end.
Definition q_exp (m t j : nat) : nat :=
  match t with
  | O => 0
  | S t' => if Nat.ltb t' m then b2n (Nat.eqb j t')
            else (b2n (Nat.eqb j ((t' - m) / m)) + b2n (Nat.eqb j ((t' - m) mod m)))%nat
  end.

Lemma nsum_ind : forall m k, (nsum m (fun j => b2n (Nat.eqb j k)) <= 1)%nat /\
  ((m <= k)%nat -> nsum m (fun j => b2n (Nat.eqb j k)) = 0%nat).
Proof.
  intros m k. unfold nsum. induction m as [|m [IH1 IH2]]; [simpl; lia|].
  rewrite seq_S, map_app, list_sum_app. cbn [map list_sum plus].
  destruct (Nat.eqb_spec m k) as [->|N]; cbn [b2n].
  - rewrite IH2 by lia. split; [simpl; lia|lia].
  - split; [simpl; lia|]. intros. rewrite IH2 by lia. simpl. lia.
Qed.

Lemma nsum_plus : forall m f g, nsum m (fun j => (f j + g j)%nat) = (nsum m f + nsum m g)%nat.
Proof.
  intros m f g. unfold nsum. induction m as [|m IH]; [reflexivity|].
  rewrite seq_S, !map_app, !list_sum_app. simpl. lia.
Qed.

Lemma nsum_0 : forall m, nsum m (fun _ => 0%nat) = 0%nat.
Proof. intros m. unfold nsum. induction m as [|m IH]; [reflexivity|]. rewrite seq_S, map_app, list_sum_app. simpl. lia. Qed.

Lemma q_exp_deg : forall m t, (nsum m (q_exp m t) <= 2)%nat.
Proof.
  intros m [|t].
  - change (q_exp m 0) with (fun _ : nat => 0%nat). rewrite nsum_0. lia.
  - destruct (Nat.ltb_spec t m) as [Hlt|Hge].
    + assert (E : nsum m (q_exp m (S t)) = nsum m (fun j => b2n (Nat.eqb j t))).
      { unfold nsum. f_equal. apply map_ext. intros j. unfold q_exp. destruct (Nat.ltb_spec t m); [auto|lia]. }
      rewrite E. pose proof (proj1 (nsum_ind m t)). lia.
    + assert (E : nsum m (q_exp m (S t)) = nsum m (fun j => (b2n (Nat.eqb j ((t - m) / m)) + b2n (Nat.eqb j ((t - m) mod m)))%nat)).
      { unfold nsum. f_equal. apply map_ext. intros j. unfold q_exp. destruct (Nat.ltb_spec t m); [lia|auto]. }
      rewrite E, nsum_plus. pose proof (proj1 (nsum_ind m ((t - m) / m))). pose proof (proj1 (nsum_ind m ((t - m) mod m))). lia.
Qed.

Lemma prodf_ind : forall m k x, (k < m)%nat -> prodf m (fun j => x j ^ b2n (Nat.eqb j k)) = x k.
Proof.
  intros m k x Hk. rewrite (prodf_ext m _ (fun j => if Nat.eqb j k then x k else 1)), prodf_single; auto.
  intros j Hj. unfold b2n. destruct (Nat.eqb_spec j k); subst; simpl; ring.
Qed.

Lemma q_terms : forall m c b H x,
  terms_eval m (1 + (m + m * m)) (q_coef m c b H) (q_exp m) x = qmodel m c b H x.
Proof.
  intros m c b H x. unfold terms_eval, qmodel. rewrite (sumf_split 1), (sumf_split m). rewrite Rplus_assoc. f_equal; [|f_equal].
  - cbn [sumf q_coef q_exp pow]. rewrite prodf_one. ring.
  - apply sumf_ext; intros k Hk. change (1 + k)%nat with (S k). unfold q_coef.
    rewrite (prodf_ext m _ (fun j => x j ^ b2n (Nat.eqb j k))).
    + rewrite prodf_ind by auto. destruct (Nat.ltb_spec k m); [reflexivity|lia].
    + intros j Hj. unfold q_exp. destruct (Nat.ltb_spec k m); [reflexivity|lia].
  - rewrite sumf_prod, <- sumf_scal_l. apply sumf_ext; intros a Ha. rewrite <- sumf_scal_l. apply sumf_ext; intros k Hk.
    change (1 + (m + (a * m + k)))%nat with (S (m + (a * m + k))). unfold q_coef.
    assert (E1 : ((m + (a * m + k) - m) / m = a)%nat) by (rewrite Nat.add_comm, Nat.add_sub; apply div_add_lt; auto).
    assert (E2 : ((m + (a * m + k) - m) mod m = k)%nat) by (rewrite Nat.add_comm, Nat.add_sub; apply mod_add_lt; auto).
    rewrite (prodf_ext m _ (fun j => (x j ^ b2n (Nat.eqb j a)) * (x j ^ b2n (Nat.eqb j k)))).
    + rewrite prodf_mult, !prodf_ind by auto.
      destruct (Nat.ltb_spec (m + (a * m + k)) m); [lia|]. rewrite E1, E2. ring.
    + intros j Hj. unfold q_exp. destruct (Nat.ltb_spec (m + (a * m + k)) m); [lia|]. rewrite E1, E2. apply pow_add.
Qed.

(** C = b b^T + gamma H H^T *)
Definition quadC (m : nat) (gamma : R) (b : nat -> R) (H : nat -> nat -> R) (i k : nat) : R :=
  b i * b k + gamma * sumf m (fun l => H i l * H k l).

Lemma quadC_sym : forall m gamma b H, symmetric m (quadC m gamma b H).
Proof.
  intros m g b H i k Hi Hk. unfold quadC. f_equal; [ring|]. f_equal. apply sumf_ext; intros; ring.
Qed.

(** it is the average outer product of the model's gradient over any sample
    with mean 0 and second moment gamma I *)
Lemma quadC_average : forall m gamma b H P w (Z : nat -> nat -> R),
  sumf P w = 1 ->
  (forall k, (k < m)%nat -> sumf P (fun s => w s * Z s k) = 0) ->
  (forall k l, (k < m)%nat -> (l < m)%nat -> sumf P (fun s => w s * (Z s k * Z s l)) = gamma * kron_delta k l) ->
  forall i k, quadC m gamma b H i k = gradC P (fun s => qgrad m b H (Z s)) w i k.
Proof.
  intros m gamma b H P w Z H1 H0 H2 i k. unfold quadC, gradC, qgrad. symmetry.
  transitivity (sumf P (fun s => b i * b k * w s
     + sumf m (fun l => b i * H k l * (w s * Z s l))
     + sumf m (fun l => b k * H i l * (w s * Z s l))
     + sumf m (fun p => sumf m (fun q => H i p * H k q * (w s * (Z s p * Z s q)))))).
  { apply sumf_ext; intros s Hs.
    rewrite (sumf_ext m (fun l => b i * H k l * (w s * Z s l)) (fun l => w s * b i * (H k l * Z s l))) by (intros; ring).
    rewrite (sumf_ext m (fun l => b k * H i l * (w s * Z s l)) (fun l => w s * b k * (H i l * Z s l))) by (intros; ring).
    rewrite !sumf_scal_l.
    replace (sumf m (fun p => sumf m (fun q => H i p * H k q * (w s * (Z s p * Z s q)))))
      with (w s * (sumf m (fun p => H i p * Z s p) * sumf m (fun q => H k q * Z s q))).
    2: { rewrite sumf_mul, <- sumf_scal_l. apply sumf_ext; intros p Hp. rewrite <- sumf_scal_l. apply sumf_ext; intros; ring. }
    ring. }
  rewrite !sumf_plus, sumf_scal_l, H1.
  rewrite (sumf_swap P m (fun s l => b i * H k l * (w s * Z s l))).
  rewrite (sumf_zero m (fun j => sumf P (fun i0 => b i * H k j * (w i0 * Z i0 j)))).
  2: { intros l Hl. rewrite sumf_scal_l, H0 by auto. ring. }
  rewrite (sumf_swap P m (fun s l => b k * H i l * (w s * Z s l))).
  rewrite (sumf_zero m (fun j => sumf P (fun i0 => b k * H i j * (w i0 * Z i0 j)))).
  2: { intros l Hl. rewrite sumf_scal_l, H0 by auto. ring. }
  rewrite (sumf_swap P m). rewrite (sumf_ext m _ (fun p => gamma * (H i p * H k p))).
  - rewrite sumf_scal_l. ring.
  - intros p Hp. rewrite sumf_swap. rewrite (sumf_ext m _ (fun q => kron_delta p q * (gamma * H i p * H k q))).
    + rewrite (sumf_kd_l m p (fun q => gamma * H i p * H k q)) by auto. ring.
    + intros q Hq. rewrite sumf_scal_l, H2 by auto. ring.
Qed.

Section Qphd.
  Variable eigh : nd R -> res (nd R * nd R).
  Variable argsort : list R -> list nat.
  Variable lstsq : nd R -> nd R -> res (nd R).
  Hypothesis Heigh : eigh_contract eigh.
  Hypothesis Hsort : argsort_contract argsort.
  Hypothesis HL : lstsq_contract lstsq.

  Lemma amax_gt1_spec : forall X M m big, amax_gt1 X M m = Ok big ->
    (1 <= M)%nat /\ (1 <= m)%nat /\
    (big = true <-> exists i j, (i < M)%nat /\ (j < m)%nat /\ 1 < X.[i, j]).
  Proof.
    intros X M m big H. unfold amax_gt1 in H. destruct (M * m)%nat as [|k] eqn:E; [discriminate|].
    assert (1 <= M /\ 1 <= m)%nat by (destruct M, m; simpl in E; lia).
    split; [lia|]. split; [lia|]. inversion H as [HB]. clear H.
    destruct (max_upto_spec k (fun i => X.[(i / m)%nat, (i mod m)%nat])) as (H1 & (k0 & Hk0 & H2)).
    destruct (Rlt_dec 1 (max_upto k (fun i => X.[(i / m)%nat, (i mod m)%nat]))) as [Hlt|Hge].
    - split; [|auto]. intros _. exists (k0 / m)%nat, (k0 mod m)%nat. split; [apply div_lt_prod; lia|].
      split; [apply (mod_lt_prod k0 M m); lia|]. rewrite H2. auto.
    - split; [discriminate|]. intros (i & j & Hi & Hj & Hx). exfalso. apply Hge.
      specialize (H1 (i * m + j)%nat ltac:(nia)). cbv beta in H1. rewrite div_add_lt, mod_add_lt in H1 by auto. lra.
  Qed.

  Definition is_gamma (M m : nat) (X : nd R) (gamma : R) : Prop :=
    ((exists i j, (i < M)%nat /\ (j < m)%nat /\ 1 < X.[i, j]) -> gamma = 1) /\
    ((forall i j, (i < M)%nat -> (j < m)%nat -> X.[i, j] <= 1) -> gamma = 1 / 3).

  Lemma qphd_subspace_spec : forall M m X f w e V, shape X = [M; m] -> shape f = [M; 1%nat] -> shape w = [M; 1%nat] ->
    qphd_subspace eigh argsort lstsq X f w = Ok (e, V) ->
    exists c b H gamma lam, symmetric m H /\
      (forall c' b' H', wq M m X f w c b H <= wq M m X f w c' b' H') /\
      is_gamma M m X gamma /\
      eigsorted m (quadC m gamma b H) e V lam.
  Proof.
    intros M m X f w e V HX Hf Hw H. unfold qphd_subspace in H.
    rewrite (process_io_eq _ X f M m HX Hf) in H. cbn [rbind] in H.
    apply rbind_ok in H. destruct H as (big & Hbig & H).
    destruct (amax_gt1_spec X M m big Hbig) as (HM & Hm & Hb).
    apply rbind_ok in H. destruct H as (s & Hs & H).
    destruct (poly_train_inv lstsq HL 2 X f (Some w) M m HX Hf Hm ltac:(lia) Hw) as (L & EL & _ & Htr & _).
    specialize (Htr s Hs).
    destruct (trained_hessian 2 X f (Some w) M m L s Hm EL Htr (le_n 2)) as (A & EA & SA & _ & SymA & QA).
    specialize (QA eq_refl).
    rewrite EA in H. assert (Sg := t_gs _ _ _ _ _ _ _ _ Htr).
    assert (Strv : shape (tr A) = [m; m]).
    { unfold tr. rewrite shape_mk2, (nrows_shape2 _ A m m SA), (ncols_shape2 _ A m m SA). reflexivity. }
    rewrite (mdot_ok A (tr A) m m m SA Strv) in H. cbn [rbind] in H.
    assert (Esz : size (pa_g s) = m) by (unfold size; rewrite Sg; simpl; lia). rewrite Esz in H.
    set (AA := mk2 m m (fun i j => sumf m (fun l => A.[i, l] * (tr A).[l, j]))) in H.
    set (gamma := if big then 1 else 1 / 3) in H.
    destruct (bcast2_same _ _ _ Rplus (mk2 m m (fun i j => (pa_g s).[i, 0%nat] * (pa_g s).[j, 0%nat])) (amap (Rmult gamma) AA) m m eq_refl eq_refl) as (C & E1 & E2 & E3).
    rewrite E1 in H. cbn [rbind] in H.
    assert (EC : forall i k, (i < m)%nat -> (k < m)%nat -> ent C i k = quadC m gamma (fun k => (pa_g s).[k, 0%nat]) (ent A) i k).
    { intros i k Hi Hk. unfold ent at 1. rewrite E3 by auto. reflexivity. }
    destruct (sorted_eigh_spec eigh argsort Heigh Hsort m C e V E2) as (lam & HE); auto.
    { intros i k Hi Hk. rewrite !EC by auto. apply (quadC_sym m); auto. }
    exists ((pa_weights s).[0%nat, 0%nat]), (fun k => (pa_g s).[k, 0%nat]), (ent A), gamma, lam.
    split; [exact SymA|]. split; [|split].
    - intros c' b' H'.
      assert (EQ : forall u c b H0, (forall x, poly_eval m L u x = qmodel m c b H0 x) ->
        rss M (length L) (fun r c => wt (Some w) r * mono m (nth c L []) (fun j => X.[r, j])) (fun r => wt (Some w) r * f.[r, 0%nat]) u
        = wq M m X f w c b H0).
      { intros u c b H0 HU. unfold rss, wq. apply sumf_ext; intros i Hi. unfold resid. rewrite <- HU. unfold poly_eval.
        rewrite (sumf_ext (length L) _ (fun j => wt (Some w) i * (mono m (nth j L []) (fun j0 => X.[i, j0]) * u j))) by (intros; ring).
        rewrite sumf_scal_l. simpl. ring. }
      destruct (terms_collect 2 m L EL Hm (1 + (m + m * m)) (q_coef m c' b' H') (q_exp m)) as (u' & Hu').
      { intros; apply q_exp_deg. }
      rewrite <- (EQ u' c' b' H').
      2: { intros x. rewrite <- Hu'. apply q_terms. }
      rewrite <- (EQ (fun c => (pa_weights s).[c, 0%nat]) ((pa_weights s).[0%nat, 0%nat]) (fun k => (pa_g s).[k, 0%nat]) (ent A)).
      2: { intros x. rewrite <- (trained_value 2 X f (Some w) M m L s Hm EL Htr). apply QA. }
      apply (t_min _ _ _ _ _ _ _ _ Htr).
    - unfold gamma. destruct big; split; intros HH; auto.
      + exfalso. destruct Hb as [Hb _]. destruct (Hb eq_refl) as (i & j & Hi & Hj & Hx). specialize (HH i j Hi Hj). lra.
      + exfalso. destruct Hb as [_ Hb]. discriminate (Hb HH).
    - apply (eigsorted_ext m (ent C)); auto.
  Qed.

  Lemma qphd_subspace_returns : forall M m X f w, lstsq_total lstsq -> eigh_total eigh -> (1 <= m)%nat ->
    shape X = [M; m] -> shape f = [M; 1%nat] -> shape w = [M; 1%nat] -> (binom (2 + m) m <= M)%nat ->
    exists r, qphd_subspace eigh argsort lstsq X f w = Ok r.
  Proof.
    intros M m X f w HT HET Hm HX Hf Hw HM. unfold qphd_subspace.
    rewrite (process_io_eq _ X f M m HX Hf). cbn [rbind].
    assert (HM1 : (1 <= M)%nat).
    { apply Nat.le_trans with (binom (2 + m) m); auto.
      apply Nat.le_trans with (binom (1 + m) m); [simpl (1 + m)%nat; rewrite binom_sym1; lia|apply binom_mono_le; lia]. }
    assert (EB : exists big, amax_gt1 X M m = Ok big).
    { unfold amax_gt1. destruct (M * m)%nat as [|k] eqn:E; [nia|]. eauto. }
    destruct EB as (big & EB). rewrite EB. cbn [rbind].
    destruct (poly_train_inv lstsq HL 2 X f (Some w) M m HX Hf Hm ltac:(lia) Hw) as (L & EL & _ & Htr & Hret).
    rewrite (index_set_length 2 m Hm L EL) in Hret. destruct (Hret HM HT) as (s & Hs). specialize (Htr s Hs).
    rewrite Hs. cbn [rbind].
    destruct (trained_hessian 2 X f (Some w) M m L s Hm EL Htr (le_n 2)) as (A & EA & SA & _ & SymA & QA).
    rewrite EA. assert (Sg := t_gs _ _ _ _ _ _ _ _ Htr).
    assert (Strv : shape (tr A) = [m; m]).
    { unfold tr. rewrite shape_mk2, (nrows_shape2 _ A m m SA), (ncols_shape2 _ A m m SA). reflexivity. }
    rewrite (mdot_ok A (tr A) m m m SA Strv). cbn [rbind].
    assert (Esz : size (pa_g s) = m) by (unfold size; rewrite Sg; simpl; lia). rewrite Esz.
    set (AA := mk2 m m (fun i j => sumf m (fun l => A.[i, l] * (tr A).[l, j]))).
    set (gamma := if big then 1 else 1 / 3).
    destruct (bcast2_same _ _ _ Rplus (mk2 m m (fun i j => (pa_g s).[i, 0%nat] * (pa_g s).[j, 0%nat])) (amap (Rmult gamma) AA) m m eq_refl eq_refl) as (C & E1 & E2 & E3).
    rewrite E1. cbn [rbind]. apply (sorted_eigh_returns eigh argsort Heigh m); auto.
  Qed.
End Qphd.
