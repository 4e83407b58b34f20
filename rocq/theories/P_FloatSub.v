(** How rounding in the gradient matrix moves eigenvalues and eigenvectors. *)
From Coq Require Import Reals Lra Lia List Arith ZArith String Bool Permutation.
From Verif Require Import Prelude Py NumArr LinAlg Spectral Perturb M_Misc M_Subspaces P_Misc P_Subspaces M_Float M_FloatGrad P_Float P_FloatCode P_Stability.
Import ListNotations.
Open Scope R_scope.

(** Davis-Kahan when the eigenvalues of B are known up to sign *)
Lemma davis_kahan_abs : forall m A lam V B mu U eps k s c,
  (forall i l, (i < m)%nat -> (l < m)%nat -> A i l = A l i) ->
  orthonormal m m V -> eigcols m A lam V -> decreasing m lam ->
  orthonormal m m U -> eigcols m B mu U ->
  (forall j, (k <= j)%nat -> (j < m)%nat -> Rabs (mu j) <= c) ->
  0 <= eps -> (forall y x, Rabs (bil m (fun i l => A i l - B i l) y x) <= eps * (len m y * len m x)) ->
  (1 <= k)%nat -> (k < m)%nat -> c < lam (k - 1)%nat -> 0 <= s ->
  (forall y z, sumf k (fun a => sumf (m - k) (fun b => y a * dot m (fun i => V i a) (fun i => U i (k + b)%nat) * z b)) <= s * (len k y * len (m - k) z)) ->
  (exists y z, len k y = 1 /\ len (m - k) z = 1 /\
     sumf k (fun a => sumf (m - k) (fun b => y a * dot m (fun i => V i a) (fun i => U i (k + b)%nat) * z b)) = s) ->
  s * (lam (k - 1)%nat - c) <= eps.
Proof.
  intros m A lam V B mu U eps k s c HS OV EV DV OU EU PM He HE Hk1 Hkm Gap Hs Bnd (y & z & Ny & Nz & At).
  set (X := fun a b => dot m (fun i => V i a) (fun i => U i (k + b)%nat)) in *.
  assert (PL : forall a, (a < k)%nat -> lam (k - 1)%nat <= lam a) by (intros; apply DV; lia).
  assert (Pk : 0 <= c) by (eapply Rle_trans; [apply Rabs_pos|exact (PM k (le_n k) Hkm)]).
  set (l1 := lam (k - 1)%nat) in *. assert (P1 : 0 < l1) by lra.
  (* entry identity *)
  assert (ID : forall a b, (a < k)%nat -> (b < m - k)%nat ->
     lam a * X a b = X a b * mu (k + b)%nat + bil m (fun i l => A i l - B i l) (fun i => V i a) (fun i => U i (k + b)%nat)).
  { intros a b Ha Hb. unfold bil, X, dot.
    rewrite (sumf_ext m (fun i => V i a * sumf m (fun k0 => (A i k0 - B i k0) * U k0 (k + b)%nat))
      (fun i => V i a * sumf m (fun l => A i l * U l (k + b)%nat) - (V i a * U i (k + b)%nat) * mu (k + b)%nat)).
    2: { intros i Hi. rewrite (sumf_ext m _ (fun l => A i l * U l (k + b)%nat - B i l * U l (k + b)%nat)) by (intros; ring).
         rewrite sumf_minus, EU by lia. ring. }
    rewrite sumf_minus, sumf_scal_r.
    assert (T : sumf m (fun i => V i a * sumf m (fun l => A i l * U l (k + b)%nat)) = lam a * sumf m (fun i => V i a * U i (k + b)%nat)).
    { rewrite <- sumf_scal_l. transitivity (sumf m (fun i => sumf m (fun l => A i l * V l a) * U i (k + b)%nat)).
      2: { apply sumf_ext; intros i Hi. rewrite EV by lia. ring. }
      rewrite (sumf_ext m _ (fun i => sumf m (fun l => V i a * (A i l * U l (k + b)%nat)))) by (intros; now rewrite sumf_scal_l).
      rewrite sumf_swap. apply sumf_ext; intros l Hl. rewrite <- sumf_scal_r. apply sumf_ext; intros i Hi.
      rewrite (HS i l) by auto. ring. }
    rewrite T. ring. }
  set (y' := fun a => y a / lam a).
  assert (Ny' : len k y' <= / l1).
  { apply len_le; [left; now apply Rinv_0_lt_compat|].
    replace (/ l1 * / l1) with (/ l1 * / l1 * dot k y y) by (rewrite <- len_sq, Ny; ring).
    unfold dot. rewrite <- sumf_scal_l. apply sumf_le; intros a Ha. unfold y'.
    pose proof (PL a Ha). assert (I : 0 <= / lam a <= / l1) by (split; [left; apply Rinv_0_lt_compat; lra|apply Rinv_le_contravar; lra]).
    assert (/ lam a * / lam a <= / l1 * / l1) by (apply Rmult_le_compat; lra).
    unfold Rdiv. pose proof (Rle_0_sqr (y a)). unfold Rsqr in *. nra. }
  set (z' := fun b => mu (k + b)%nat * z b).
  assert (Nz' : len (m - k) z' <= c).
  { apply len_le; auto. replace (c * c) with (c * c * dot (m - k) z z) by (rewrite <- len_sq, Nz; ring).
    unfold dot. rewrite <- sumf_scal_l. apply sumf_le; intros b Hb. unfold z'.
    pose proof (PM (k + b)%nat ltac:(lia) ltac:(lia)) as Q.
    assert (mu (k + b)%nat * mu (k + b)%nat <= c * c).
    { replace (mu (k + b)%nat * mu (k + b)%nat) with (Rabs (mu (k + b)%nat) * Rabs (mu (k + b)%nat)) by (rewrite <- Rabs_mult; apply Rabs_pos_eq, Rle_0_sqr). apply Rmult_le_compat; auto using Rabs_pos. }
    pose proof (Rle_0_sqr (z b)). unfold Rsqr in *. nra. }
  set (vy := comb k V y'). set (uz := comb (m - k) (fun i b => U i (k + b)%nat) z).
  assert (L1 : len m vy = len k y').
  { unfold len. f_equal. apply comb_self. apply (orthonormal_sub m m); auto; lia. }
  assert (L2 : len m uz = 1).
  { rewrite <- Nz. unfold len. f_equal. apply comb_self. intros a b Ha Hb. rewrite OU by lia.
    destruct (Nat.eq_dec a b) as [->|Hab]; [rewrite !kd_same; auto|rewrite !kd_diff by lia; auto]. }
  assert (SP : s = sumf k (fun a => sumf (m - k) (fun b => y' a * X a b * z' b)) + bil m (fun i l => A i l - B i l) vy uz).
  { assert (BE : bil m (fun i l => A i l - B i l) vy uz =
       sumf k (fun a => sumf (m - k) (fun b => y' a * bil m (fun i l => A i l - B i l) (fun i => V i a) (fun i => U i (k + b)%nat) * z b))).
    { unfold bil at 1. rewrite dot_comm. unfold vy. rewrite comb_dot. apply sumf_ext; intros a Ha.
      rewrite (sumf_ext (m - k) _ (fun b => y' a * (z b * bil m (fun i l => A i l - B i l) (fun i => V i a) (fun i => U i (k + b)%nat)))) by (intros; ring).
      rewrite sumf_scal_l. f_equal. rewrite dot_comm. unfold bil, dot.
      rewrite (sumf_ext (m - k) _ (fun b => sumf m (fun i => V i a * (sumf m (fun l => (A i l - B i l) * U l (k + b)%nat) * z b)))).
      2: { intros b Hb. rewrite <- sumf_scal_l. apply sumf_ext; intros; ring. }
      rewrite sumf_swap. apply sumf_ext; intros i Hi. rewrite sumf_scal_l. f_equal.
      rewrite (sumf_ext (m - k) _ (fun b => sumf m (fun l => (A i l - B i l) * (U l (k + b)%nat * z b)))).
      2: { intros b Hb. rewrite <- sumf_scal_r. apply sumf_ext; intros; ring. }
      rewrite sumf_swap. apply sumf_ext; intros l Hl. rewrite sumf_scal_l. f_equal.
      unfold uz, comb. apply sumf_ext; intros; ring. }
    rewrite BE, <- sumf_plus, <- At. apply sumf_ext; intros a Ha. rewrite <- sumf_plus. apply sumf_ext; intros b Hb.
    fold (X a b). assert (Q := ID a b Ha Hb). unfold z', y'. pose proof (PL a Ha).
    transitivity (y a / lam a * (lam a * X a b) * z b); [field; lra|]. rewrite Q. ring. }
  assert (Q1 := Bnd y' z'). fold X in Q1.
  assert (Q2 := HE vy uz). rewrite L1, L2 in Q2.
  assert (Q3 : bil m (fun i l => A i l - B i l) vy uz <= eps * len k y') by (eapply Rle_trans; [apply Rle_abs|]; lra).
  pose proof (len_nonneg k y'). pose proof (len_nonneg (m - k) z').
  assert (Q4 : s <= s * (len k y' * c) + eps * len k y').
  { rewrite SP at 1. apply Rplus_le_compat; auto. eapply Rle_trans; [exact Q1|].
    apply Rmult_le_compat_l; auto. apply Rmult_le_compat_l; auto. }
  assert (Q5 : s <= (s * c + eps) * / l1).
  { eapply Rle_trans; [exact Q4|]. replace (s * (len k y' * c) + eps * len k y') with ((s * c + eps) * len k y') by ring.
    apply Rmult_le_compat_l; auto. pose proof (Rmult_le_pos s c Hs Pk). lra. }
  apply (Rmult_le_compat_r l1) in Q5; [|lra]. rewrite Rmult_assoc, Rinv_l, Rmult_1_r in Q5 by lra. lra.
Qed.

Lemma assembled : forall m (c : nat -> R) U, orthonormal m m U -> eigcols m (fun i k => sumf m (fun j => c j * U i j * U k j)) c U.
Proof.
  intros m c U O i j Hi Hj.
  rewrite (sumf_ext m _ (fun k => sumf m (fun l => c l * U i l * (U k l * U k j)))).
  2: { intros k Hk. rewrite <- sumf_scal_r. apply sumf_ext; intros; ring. }
  rewrite sumf_swap. rewrite (sumf_ext m _ (fun l => kron_delta j l * (c l * U i l))).
  - now rewrite (sumf_kd_l m j (fun l => c l * U i l)) by auto.
  - intros l Hl. rewrite sumf_scal_l, (O l j Hl Hj). unfold kron_delta. rewrite Nat.eqb_sym. destruct (Nat.eqb j l); ring.
Qed.

(** the magnitudes of the eigenvalues of B, sorted, against the eigenvalues of a positive semidefinite A *)
Lemma weyl_abs : forall m A lam V B mu e U eps,
  orthonormal m m V -> eigcols m A lam V -> decreasing m lam -> (forall j, (j < m)%nat -> 0 <= lam j) ->
  orthonormal m m U -> eigcols m B mu U -> (forall j, (j < m)%nat -> e j = Rabs (mu j)) -> decreasing m e -> 0 <= eps ->
  (forall x, Rabs (quad m B x - quad m A x) <= eps * dot m x x) ->
  forall j, (j < m)%nat -> Rabs (e j - lam j) <= eps.
Proof.
  intros m A lam V B mu e U eps OV EV DV PV OU EU Ae De He HQ j Hj.
  assert (QB := quad_spectral m B mu U OU EU). assert (QA := quad_spectral m A lam V OV EV).
  assert (SQ : forall y : R, 0 <= y * y) by (intros; apply Rle_0_sqr).
  assert (PA : forall x, 0 <= quad m A x) by (intros x; rewrite QA; apply sumf_nonneg; intros i Hi; apply Rmult_le_pos; auto).
  assert (ME : forall i, (i < m)%nat -> - eps <= mu i).
  { intros i Hi. specialize (HQ (fun l => U l i)). rewrite (quad_eigvec m B mu U OU EU i Hi) in HQ. specialize (PA (fun l => U l i)).
    assert (N1 : dot m (fun l => U l i) (fun l => U l i) = 1) by (unfold dot; rewrite (OU i i Hi Hi); apply kd_same).
    rewrite N1 in HQ. dabs; lra. }
  assert (QC : forall c x, quad m (fun i k => sumf m (fun j => c j * U i j * U k j)) x = sumf m (fun j => c j * (dot m (fun i => U i j) x * dot m (fun i => U i j) x))).
  { intros c x. apply (quad_spectral m _ c U OU (assembled m c U OU)). }
  apply Rabs_le. split.
  - cut (lam j <= e j + eps); [lra|].
    apply (weyl m (fun i k => sumf m (fun j => e j * U i j * U k j)) e U A lam V eps OU (assembled m e U OU) De OV EV DV); auto.
    intros x. specialize (HQ x). rewrite QC. rewrite QB in HQ.
    assert (sumf m (fun j => mu j * (dot m (fun i => U i j) x * dot m (fun i => U i j) x)) <= sumf m (fun j => e j * (dot m (fun i => U i j) x * dot m (fun i => U i j) x))).
    { apply sumf_le. intros i Hi. apply Rmult_le_compat_r; auto. rewrite Ae by auto. apply Rle_abs. }
    dabs; lra.
  - cut (e j <= lam j + eps); [lra|]. destruct (Rle_dec (e j) eps) as [S|S]; [specialize (PV j Hj); lra|].
    assert (POS : forall i, (i <= j)%nat -> mu i = e i).
    { intros i Hi. assert (e j <= e i) by (apply De; lia). specialize (ME i ltac:(lia)). assert (X1 := Ae i ltac:(lia)). clear - X1 ME H S. dabs; lra. }
    set (c := fun i => if Nat.leb i j then e i else - eps).
    replace (e j) with (c j) by (unfold c; now rewrite Nat.leb_refl).
    apply (weyl m A lam V (fun i k => sumf m (fun j => c j * U i j * U k j)) c U eps OV EV DV OU (assembled m c U OU)); auto.
    + intros a b Hab Hb. unfold c. destruct (Nat.leb_spec a j), (Nat.leb_spec b j); try lia.
      * apply De; auto.
      * assert (e j <= e a) by (apply De; lia). lra.
      * lra.
    + intros x. specialize (HQ x). rewrite QC. rewrite QB in HQ.
      assert (sumf m (fun j => c j * (dot m (fun i => U i j) x * dot m (fun i => U i j) x)) <= sumf m (fun j => mu j * (dot m (fun i => U i j) x * dot m (fun i => U i j) x))).
      { apply sumf_le. intros i Hi. apply Rmult_le_compat_r; auto. unfold c. destruct (Nat.leb_spec i j); [rewrite POS by auto; lra|now apply ME]. }
      dabs; lra.
Qed.

Lemma len_abs : forall m x, len m (fun i => Rabs (x i)) = len m x.
Proof. intros. unfold len. f_equal. unfold dot. apply sumf_ext. intros i Hi. rewrite <- Rabs_mult. apply Rabs_pos_eq, Rle_0_sqr. Qed.
Lemma len_one : forall m, len m (fun _ => 1) = sqrt (INR m).
Proof. intros. unfold len. f_equal. unfold dot. rewrite (sumf_const m (1 * 1)). ring. Qed.

(** a matrix whose entries are bounded like those of the gradient matrix, in the operator norm *)
Lemma entries_bil : forall M m E D w gam kap L, 0 <= gam -> 0 <= kap -> 0 <= L -> (forall s, (s < M)%nat -> 0 <= w s) ->
  (forall s, (s < M)%nat -> len m (D s) <= L) ->
  (forall i k, (i < m)%nat -> (k < m)%nat -> Rabs (E i k) <= gam * gradC M (fun s i => Rabs (D s i)) w i k + kap) ->
  forall y x, Rabs (bil m E y x) <= (gam * (L * L) * sumf M w + INR m * kap) * (len m y * len m x).
Proof.
  intros M m E D w gam kap L Hg Hk HL Hw HD HE y x.
  set (ay := fun i => Rabs (y i)). set (ax := fun i => Rabs (x i)).
  assert (S1 : Rabs (bil m E y x) <= bil m (fun i k => gam * gradC M (fun s i => Rabs (D s i)) w i k + kap) ay ax).
  { unfold bil, dot. eapply Rle_trans; [apply sumf_abs|]. apply sumf_le. intros i Hi. rewrite Rabs_mult. apply Rmult_le_compat_l; [apply Rabs_pos|].
    eapply Rle_trans; [apply sumf_abs|]. apply sumf_le. intros k Hk'. rewrite Rabs_mult. apply Rmult_le_compat_r; [apply Rabs_pos|]. auto. }
  assert (S2 : bil m (fun i k => gam * gradC M (fun s i => Rabs (D s i)) w i k + kap) ay ax =
     gam * bil m (gradC M (fun s i => Rabs (D s i)) w) ay ax + kap * (dot m ay (fun _ => 1) * dot m ax (fun _ => 1))).
  { unfold bil. transitivity (dot m ay (fun i => gam * sumf m (fun k => gradC M (fun s i => Rabs (D s i)) w i k * ax k) + kap * sumf m ax)).
    - apply dot_ext; auto. intros i Hi. rewrite <- !sumf_scal_l, <- sumf_plus. apply sumf_ext. intros; ring.
    - assert (D1 : forall z, dot m z (fun _ => 1) = sumf m z) by (intros z; unfold dot; apply sumf_ext; intros; ring).
      rewrite !D1. generalize (sumf m ax) as b. intros b. unfold dot.
      set (f := fun i => sumf m (fun k => gradC M (fun s i => Rabs (D s i)) w i k * ax k)).
      transitivity (sumf m (fun i => gam * (ay i * f i)) + sumf m (fun i => ay i * (kap * b))).
      + rewrite <- sumf_plus. apply sumf_ext. intros i Hi. change (ay i * (gam * f i + kap * b) = gam * (ay i * f i) + ay i * (kap * b)). ring.
      + transitivity (gam * sumf m (fun i => ay i * f i) + kap * (sumf m ay * b)); [|reflexivity]. rewrite (sumf_scal_l m), (sumf_scal_r m). ring. }
  eapply Rle_trans; [exact S1|]. rewrite S2, gradC_bil.
  assert (Ly : len m ay = len m y) by apply len_abs. assert (Lx : len m ax = len m x) by apply len_abs.
  assert (Py := len_nonneg m y). assert (Px := len_nonneg m x). assert (Pxy : 0 <= len m y * len m x) by now apply Rmult_le_pos.
  assert (S3 : sumf M (fun s => w s * (dot m (fun i => Rabs (D s i)) ay * dot m (fun i => Rabs (D s i)) ax)) <= L * L * sumf M w * (len m y * len m x)).
  { replace (L * L * sumf M w * (len m y * len m x)) with (sumf M (fun s => w s * (L * len m y * (L * len m x)))) by (rewrite sumf_scal_r; ring).
    apply sumf_le. intros s Hs. apply Rmult_le_compat_l; auto.
    assert (K : forall z, 0 <= dot m (fun i => Rabs (D s i)) (fun i => Rabs (z i)) <= L * len m z).
    { intros z. split; [apply sumf_nonneg; intros; apply Rmult_le_pos; apply Rabs_pos|]. eapply Rle_trans; [apply Rle_abs|]. eapply Rle_trans; [apply dot_len|].
      rewrite !len_abs. apply Rmult_le_compat_r; [apply len_nonneg|auto]. }
    assert (K1 := K y). assert (K2 := K x). fold ay in K1. fold ax in K2. apply Rmult_le_compat; lra. }
  assert (S4 : dot m ay (fun _ => 1) * dot m ax (fun _ => 1) <= INR m * (len m y * len m x)).
  { assert (K : forall z, 0 <= dot m (fun i => Rabs (z i)) (fun _ => 1) <= len m z * sqrt (INR m)).
    { intros z. split; [apply sumf_nonneg; intros; apply Rmult_le_pos; [apply Rabs_pos|lra]|]. eapply Rle_trans; [apply Rle_abs|]. eapply Rle_trans; [apply dot_len|]. rewrite len_abs, len_one. lra. }
    assert (K1 := K y). assert (K2 := K x). fold ay in K1. fold ax in K2.
    replace (INR m * (len m y * len m x)) with (len m y * sqrt (INR m) * (len m x * sqrt (INR m))).
    - apply Rmult_le_compat; lra.
    - transitivity (sqrt (INR m) * sqrt (INR m) * (len m y * len m x)); [ring|]. rewrite sqrt_sqrt by apply pos_INR. reflexivity. }
  apply (Rmult_le_compat_l gam) in S3; auto. apply (Rmult_le_compat_l kap) in S4; auto. lra.
Qed.
