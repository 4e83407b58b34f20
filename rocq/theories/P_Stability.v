(** Symmetries and perturbations of the gradient matrix. *)
From Coq Require Import Reals Lra Lia List Arith.
From Verif Require Import Prelude Py NumArr LinAlg Spectral Perturb M_Subspaces P_Subspaces EighRef.
Import ListNotations.
Open Scope R_scope.

(** ** relabelling a sum *)
Lemma sumf_relabel : forall M (p p' : nat -> nat) f,
  (forall s, (s < M)%nat -> (p s < M)%nat /\ p' (p s) = s) -> (forall s, (s < M)%nat -> (p' s < M)%nat /\ p (p' s) = s) ->
  sumf M (fun s => f (p s)) = sumf M f.
Proof.
  intros M p p' f H H'.
  rewrite (sumf_ext M (fun s => f (p s)) (fun s => sumf M (fun u => kron_delta (p s) u * f u))).
  2: { intros s Hs. rewrite sumf_kd_l; auto. apply H; auto. }
  rewrite sumf_swap. apply sumf_ext; intros u Hu. rewrite sumf_scal_r.
  destruct (H' u Hu) as (P1 & P2).
  rewrite (sumf_single M (p' u)); auto.
  - rewrite P2, kd_same. ring.
  - intros s Hs Hn. apply kd_diff. intros E. apply Hn. rewrite <- E. symmetry. apply H; auto.
Qed.

(** ** two sorted eigenbases of one matrix have the same leading projector *)
Lemma projector_unique : forall m C lam V mu U k,
  (forall i l, (i < m)%nat -> (l < m)%nat -> C i l = C l i) ->
  orthonormal m m V -> eigcols m C lam V -> orthonormal m m U -> eigcols m C mu U ->
  (k <= m)%nat -> (forall a b, (a < k)%nat -> (k <= b)%nat -> (b < m)%nat -> mu b <> lam a) ->
  forall i l, (i < m)%nat -> (l < m)%nat ->
  sumf k (fun a => V i a * V l a) = sumf k (fun a => U i a * U l a).
Proof.
  intros m C lam V mu U k HS OV EV OU EU Hk HD i l Hi Hl.
  set (T := fun b a => sumf m (fun j => U j b * V j a)).
  assert (T0 : forall a b, (a < k)%nat -> (k <= b)%nat -> (b < m)%nat -> T b a = 0).
  { intros a b Ha Hb Hb'. apply (eig_orthogonal m C (fun j => U j b) (fun j => V j a) (mu b) (lam a)); auto.
    intros j Hj. apply EV; auto; lia. }
  assert (EX : forall a j, (a < k)%nat -> (j < m)%nat -> V j a = sumf k (fun b => T b a * U j b)).
  { intros a j Ha Hj. rewrite (ortho_expand m U OU (fun j => V j a) j Hj) at 1.
    rewrite (sumf_le_split m k _ Hk). fold (T). rewrite (sumf_zero (m - k)).
    - rewrite Rplus_0_r. reflexivity.
    - intros b Hb. fold (T (k + b)%nat a). rewrite T0 by lia. ring. }
  assert (OT : orthonormal k k T).
  { intros a a' Ha Ha'. rewrite <- (OV a a') by lia.
    rewrite (sumf_ext m _ (fun j => sumf k (fun b => T b a' * (U j b * V j a)))).
    2: { intros j Hj. rewrite (EX a' j Ha' Hj), <- sumf_scal_l. apply sumf_ext; intros; ring. }
    rewrite sumf_swap. apply sumf_ext; intros b Hb. rewrite sumf_scal_l. unfold T at 1. ring. }
  pose proof (ortho_rows k T OT) as OR.
  rewrite (sumf_ext k _ (fun a => sumf k (fun b => sumf k (fun c => (T b a * T c a) * (U i b * U l c))))).
  2: { intros a Ha. rewrite (EX a i Ha Hi), (EX a l Ha Hl). rewrite sumf_mul. apply sumf_ext; intros b Hb. apply sumf_ext; intros c Hc. ring. }
  rewrite sumf_swap. apply sumf_ext; intros b Hb. rewrite sumf_swap.
  rewrite (sumf_ext k _ (fun c => kron_delta b c * (U i b * U l c))).
  2: { intros c Hc. rewrite sumf_scal_r, OR by auto. reflexivity. }
  rewrite (sumf_kd_l k b (fun c => U i b * U l c)) by auto. reflexivity.
Qed.

(** ** the gradient matrix of rotated, scaled, relabelled gradients *)
Lemma gradC_transform : forall M m D w D' w' (p p' : nat -> nat) Q c t,
  (forall s, (s < M)%nat -> (p s < M)%nat /\ p' (p s) = s) -> (forall s, (s < M)%nat -> (p' s < M)%nat /\ p (p' s) = s) ->
  (forall s i, (s < M)%nat -> (i < m)%nat -> D' s i = c * sumf m (fun l => Q i l * D (p s) l)) ->
  (forall s, (s < M)%nat -> w' s = t * w (p s)) ->
  forall i k, (i < m)%nat -> (k < m)%nat ->
  gradC M D' w' i k = t * (c * c) * sumf m (fun a => sumf m (fun b => Q i a * gradC M D w a b * Q k b)).
Proof.
  intros M m D w D' w' p p' Q c t H H' HD Hw i k Hi Hk. unfold gradC.
  rewrite (sumf_ext M _ (fun s => t * (c * c) * (w (p s) * (sumf m (fun a => Q i a * D (p s) a) * sumf m (fun b => Q k b * D (p s) b))))).
  2: { intros s Hs. rewrite !HD, Hw by auto. ring. }
  rewrite sumf_scal_l. f_equal.
  rewrite (sumf_relabel M p p' (fun s => w s * (sumf m (fun a => Q i a * D s a) * sumf m (fun b => Q k b * D s b))) H H').
  rewrite (sumf_ext M _ (fun s => sumf m (fun a => sumf m (fun b => Q i a * (w s * (D s a * D s b)) * Q k b)))).
  2: { intros s Hs. rewrite sumf_mul, <- sumf_scal_l. apply sumf_ext; intros a Ha. rewrite <- sumf_scal_l. apply sumf_ext; intros; ring. }
  rewrite sumf_swap. apply sumf_ext; intros a Ha. rewrite sumf_swap. apply sumf_ext; intros b Hb.
  rewrite sumf_scal_r, sumf_scal_l. reflexivity.
Qed.

(** Q V is an eigenbasis of r Q C Q^T *)
Lemma rotated_basis : forall m C lam V Q r, orthonormal m m V -> eigcols m C lam V -> orthonormal m m Q ->
  orthonormal m m (fun i j => sumf m (fun b => Q i b * V b j)) /\
  eigcols m (fun i k => r * sumf m (fun a => sumf m (fun b => Q i a * C a b * Q k b))) (fun j => r * lam j)
    (fun i j => sumf m (fun b => Q i b * V b j)).
Proof.
  intros m C lam V Q r OV EV OQ.
  assert (OQ' : forall b d, (b < m)%nat -> (d < m)%nat -> sumf m (fun i => Q i b * Q i d) = kron_delta b d) by (exact OQ).
  assert (SQ : forall j b, (b < m)%nat -> sumf m (fun k => Q k b * sumf m (fun d => Q k d * V d j)) = V b j).
  { intros j b Hb. rewrite (sumf_ext m _ (fun k => sumf m (fun d => (Q k b * Q k d) * V d j))).
    2: { intros k Hk. rewrite <- sumf_scal_l. apply sumf_ext; intros; ring. }
    rewrite sumf_swap. rewrite (sumf_ext m _ (fun d => kron_delta b d * V d j)).
    - apply (sumf_kd_l m b (fun d => V d j)); auto.
    - intros d Hd. rewrite sumf_scal_r, OQ' by auto. reflexivity. }
  split.
  - intros a a' Ha Ha'. rewrite <- (OV a a') by auto.
    rewrite (sumf_ext m _ (fun i => sumf m (fun b => V b a * (Q i b * sumf m (fun d => Q i d * V d a'))))).
    2: { intros i Hi. rewrite <- sumf_scal_r. apply sumf_ext; intros; ring. }
    rewrite sumf_swap. apply sumf_ext; intros b Hb. rewrite sumf_scal_l, SQ by auto. reflexivity.
  - intros i j Hi Hj.
    rewrite (sumf_ext m _ (fun k => sumf m (fun a => sumf m (fun b => (r * Q i a * C a b) * (Q k b * sumf m (fun d => Q k d * V d j)))))).
    2: { intros k Hk. generalize (sumf m (fun d => Q k d * V d j)); intros q. rewrite <- sumf_scal_l, <- sumf_scal_r. apply sumf_ext; intros a Ha.
         rewrite <- sumf_scal_l, <- sumf_scal_r. apply sumf_ext; intros b Hb. ring. }
    rewrite sumf_swap.
    rewrite (sumf_ext m _ (fun a => r * lam j * (Q i a * V a j))).
    2: { intros a Ha. rewrite sumf_swap.
         rewrite (sumf_ext m _ (fun b => (r * Q i a) * (C a b * V b j))).
         - rewrite sumf_scal_l, EV by auto. ring.
         - intros b Hb. rewrite sumf_scal_l, SQ by auto. ring. }
    rewrite sumf_scal_l. reflexivity.
Qed.

(** ** the gradient matrix of slightly wrong gradients *)
Lemma gradC_bil : forall M m D w y x, bil m (gradC M D w) y x = sumf M (fun s => w s * (dot m (D s) y * dot m (D s) x)).
Proof.
  intros M m D w y x. unfold bil, gradC, dot.
  rewrite (sumf_ext m _ (fun i => sumf M (fun s => sumf m (fun k => w s * ((D s i * y i) * (D s k * x k)))))).
  2: { intros i Hi. rewrite sumf_swap, <- sumf_scal_l. apply sumf_ext; intros k Hk.
       rewrite <- sumf_scal_r, <- sumf_scal_l. apply sumf_ext; intros; ring. }
  rewrite sumf_swap. apply sumf_ext; intros s Hs. rewrite sumf_mul, <- sumf_scal_l.
  apply sumf_ext; intros i Hi. rewrite <- sumf_scal_l. apply sumf_ext; intros; ring.
Qed.

Lemma bil_minus : forall m A B y x, bil m (fun i l => A i l - B i l) y x = bil m A y x - bil m B y x.
Proof.
  intros. unfold bil, dot. rewrite <- sumf_minus. apply sumf_ext; intros i Hi.
  rewrite (sumf_ext m _ (fun k => A i k * x k - B i k * x k)) by (intros; ring). rewrite sumf_minus. ring.
Qed.

Lemma gradC_perturb : forall M m D D' w h L, 0 <= h -> 0 <= L -> (forall s, (s < M)%nat -> 0 <= w s) ->
  (forall s, (s < M)%nat -> len m (D s) <= L) ->
  (forall s, (s < M)%nat -> len m (fun i => D' s i - D s i) <= h) ->
  forall y x, Rabs (bil m (gradC M D' w) y x - bil m (gradC M D w) y x) <= h * (2 * L + h) * sumf M w * (len m y * len m x).
Proof.
  intros M m D D' w h L Hh HL Hw HD HE y x. rewrite !gradC_bil, <- sumf_minus.
  eapply Rle_trans; [apply sumf_abs|].
  rewrite (Rmult_assoc (h * (2 * L + h))), (Rmult_comm (sumf M w)), <- Rmult_assoc, <- sumf_scal_l.
  apply sumf_le; intros s Hs. specialize (Hw s Hs).
  replace (w s * (dot m (D' s) y * dot m (D' s) x) - w s * (dot m (D s) y * dot m (D s) x))
    with (w s * (dot m (fun i => D' s i - D s i) y * dot m (D' s) x + dot m (D s) y * dot m (fun i => D' s i - D s i) x))
    by (rewrite !dot_minus_l; ring).
  assert (E : dot m (D' s) x = dot m (fun i => D' s i - D s i) x + dot m (D s) x) by (rewrite dot_minus_l; ring).
  rewrite E. rewrite Rabs_mult, (Rabs_pos_eq (w s)) by auto. rewrite (Rmult_comm (h * (2 * L + h) * (len m y * len m x))).
  apply Rmult_le_compat_l; auto.
  pose proof (dot_len m (fun i => D' s i - D s i) y) as A1. pose proof (dot_len m (fun i => D' s i - D s i) x) as A2.
  pose proof (dot_len m (D s) y) as A3. pose proof (dot_len m (D s) x) as A4.
  specialize (HD s Hs). specialize (HE s Hs).
  pose proof (len_nonneg m y) as Py. pose proof (len_nonneg m x) as Px.
  pose proof (len_nonneg m (D s)) as PD. pose proof (len_nonneg m (fun i => D' s i - D s i)) as PE.
  set (dy := dot m (fun i => D' s i - D s i) y) in *. set (dx := dot m (fun i => D' s i - D s i) x) in *.
  set (gy := dot m (D s) y) in *. set (gx := dot m (D s) x) in *.
  set (ly := len m y) in *. set (lx := len m x) in *.
  assert (B1 : Rabs dy <= h * ly) by (eapply Rle_trans; [exact A1|apply Rmult_le_compat_r; auto]).
  assert (B2 : Rabs dx <= h * lx) by (eapply Rle_trans; [exact A2|apply Rmult_le_compat_r; auto]).
  assert (B3 : Rabs gy <= L * ly) by (eapply Rle_trans; [exact A3|apply Rmult_le_compat_r; auto]).
  assert (B4 : Rabs gx <= L * lx) by (eapply Rle_trans; [exact A4|apply Rmult_le_compat_r; auto]).
  eapply Rle_trans; [apply Rabs_triang|]. rewrite !Rabs_mult.
  assert (B5 : Rabs (dx + gx) <= (h + L) * lx) by (eapply Rle_trans; [apply Rabs_triang|]; lra).
  assert (C1 : Rabs dy * Rabs (dx + gx) <= (h * ly) * ((h + L) * lx)) by (apply Rmult_le_compat; auto using Rabs_pos).
  assert (C2 : Rabs gy * Rabs dx <= (L * ly) * (h * lx)) by (apply Rmult_le_compat; auto using Rabs_pos).
  eapply Rle_trans; [apply Rplus_le_compat; [exact C1|exact C2]|]. right. ring.
Qed.

(** ** the spectral norm as a bilinear bound *)
Lemma is_norm2_bil : forall r c A s, (0 < r)%nat -> is_norm2 r c A s ->
  (forall y z, sumf r (fun a => sumf c (fun b => y a * A a b * z b)) <= s * (len r y * len c z)) /\
  (exists y z, len r y = 1 /\ len c z = 1 /\ sumf r (fun a => sumf c (fun b => y a * A a b * z b)) = s).
Proof.
  intros r c A s Hr (S0 & S1 & (z & Z1 & Z2)).
  assert (E : forall y z, sumf r (fun a => sumf c (fun b => y a * A a b * z b)) = dot r y (fun a => sumf c (fun b => A a b * z b))).
  { intros y z0. unfold dot. apply sumf_ext; intros a Ha. rewrite <- sumf_scal_l. apply sumf_ext; intros; ring. }
  split.
  - intros y z0. rewrite E. eapply Rle_trans; [apply Rle_abs|]. eapply Rle_trans; [apply dot_len|].
    assert (len r (fun a => sumf c (fun b => A a b * z0 b)) <= s * len c z0).
    { apply len_le; [apply Rmult_le_pos; auto; apply len_nonneg|].
      replace (s * len c z0 * (s * len c z0)) with (s * s * (len c z0 * len c z0)) by ring. rewrite len_sq. apply S1. }
    pose proof (len_nonneg r y). replace (s * (len r y * len c z0)) with (len r y * (s * len c z0)) by ring.
    apply Rmult_le_compat_l; auto.
  - assert (NZ : len c z = 1) by (unfold len, dot; rewrite Z1; apply sqrt_1).
    destruct (Req_dec s 0) as [->|Hn].
    + exists (fun a => kron_delta a 0), z. split; [|split; auto].
      * unfold len, dot. rewrite (sumf_kd_r r 0 (fun a => kron_delta a 0)) by auto. rewrite kd_same. apply sqrt_1.
      * rewrite E. assert (Q := sumf_sq_eq0 r _ (eq_trans Z2 (Rmult_0_l 0))). cbv beta in Q.
        unfold dot. apply sumf_zero; intros a Ha. rewrite Q by auto. ring.
    + exists (fun a => sumf c (fun b => A a b * z b) / s), z. split; [|split; auto].
      * unfold len, dot. rewrite (sumf_ext r _ (fun a => / (s * s) * (sumf c (fun b => A a b * z b) * sumf c (fun b => A a b * z b)))).
        2: { intros a Ha. field. auto. }
        rewrite sumf_scal_l, Z2, Rinv_l by (apply Rmult_integral_contrapositive; auto). apply sqrt_1.
      * rewrite E. unfold dot. rewrite (sumf_ext r _ (fun a => / s * (sumf c (fun b => A a b * z b) * sumf c (fun b => A a b * z b)))).
        2: { intros a Ha. field. auto. }
        rewrite sumf_scal_l, Z2. field. auto.
Qed.

(** ** forward differences of a function with Lipschitz slope *)
Lemma forward_difference_error : forall (phi dphi : R -> R) h K, 0 < h -> 0 <= K ->
  (forall t, 0 <= t <= h -> derivable_pt_lim phi t (dphi t)) ->
  (forall t, 0 <= t <= h -> Rabs (dphi t - dphi 0) <= K * t) ->
  Rabs ((phi h - phi 0) / h - dphi 0) <= K * h / 2.
Proof.
  intros phi dphi h K Hh HK HD HL.
  assert (G : forall s, s = 1 \/ s = -1 -> s * (phi h - phi 0 - dphi 0 * h) <= K * (h * h) / 2).
  { intros s Hs.
    set (psi := (mult_real_fct s phi - mult_real_fct (s * dphi 0) id - mult_real_fct (K / 2) (id * id))%F).
    destruct (MVT_cor2 psi (fun t => s * dphi t - s * dphi 0 * 1 - K / 2 * (1 * id t + id t * 1)) 0 h Hh) as (c & E & Hc).
    { intros t Ht. unfold psi. apply derivable_pt_lim_minus; [apply derivable_pt_lim_minus|]; apply derivable_pt_lim_scal.
      - apply HD; lra.
      - apply derivable_pt_lim_id.
      - apply derivable_pt_lim_mult; apply derivable_pt_lim_id. }
    unfold psi, minus_fct, mult_real_fct, mult_fct, id in E.
    specialize (HL c ltac:(lra)). assert (s * (dphi c - dphi 0) <= K * c).
    { eapply Rle_trans; [|exact HL]. unfold Rabs. destruct Hs as [->| ->]; destruct (Rcase_abs (dphi c - dphi 0)); lra. }
    assert ((s * dphi c - s * dphi 0 * 1 - K / 2 * (1 * c + c * 1)) * (h - 0) <= 0) by nra.
    lra. }
  assert (G1 := G 1 ltac:(auto)). assert (G2 := G (-1) ltac:(auto)).
  replace ((phi h - phi 0) / h - dphi 0) with ((phi h - phi 0 - dphi 0 * h) * / h) by (field; lra).
  rewrite Rabs_mult, (Rabs_pos_eq (/ h)) by (left; now apply Rinv_0_lt_compat).
  replace (K * h / 2) with (K * (h * h) / 2 * / h) by (field; lra).
  apply Rmult_le_compat_r; [left; now apply Rinv_0_lt_compat|].
  unfold Rabs. destruct (Rcase_abs _); lra.
Qed.
