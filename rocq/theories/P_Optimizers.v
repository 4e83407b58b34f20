(** Facts about the model of optimizers.py *)
From Coq Require Import String Reals Lra Lia List Arith ZArith Bool.
From Verif Require Import Prelude Py NumArr Lsq M_Misc M_RespSurf M_Gradients M_Subspaces M_QP M_Domains M_Designs M_ASRS M_Optimizers
  P_Misc P_QP P_Rbf P_PolyFacts P_PolyTrain P_DomSample P_Domains P_Multistart Properties_RespSurf Properties_QP Properties_Domains.
Import ListNotations.
Open Scope R_scope.

(** ** Quadratic forms *)
Lemma sumf_pull : forall m p (f : nat -> nat -> R) v, sumf m (fun i => sumf p (f i) * v i) = sumf p (fun a => sumf m (fun i => f i a * v i)).
Proof. intros. rewrite (sumf_swap p m). apply sumf_ext. intros i Hi. now rewrite <- sumf_scal_r. Qed.

Lemma triple : forall m p (Wp H : nat -> nat -> R) (u v : nat -> R),
  sumf m (fun i => u i * sumf m (fun i' => sumf p (fun a => Wp i a * sumf p (fun b => H a b * Wp i' b)) * v i')) =
  sumf p (fun a => sumf m (fun i => Wp i a * u i) * sumf p (fun b => H a b * sumf m (fun i' => Wp i' b * v i'))).
Proof.
  intros m p Wp H u v.
  assert (A : forall i, sumf m (fun i' => sumf p (fun a => Wp i a * sumf p (fun b => H a b * Wp i' b)) * v i') =
     sumf p (fun a => Wp i a * sumf p (fun b => H a b * sumf m (fun i' => Wp i' b * v i')))).
  { intros i. rewrite (sumf_pull m p (fun i' a => Wp i a * sumf p (fun b => H a b * Wp i' b)) v). apply sumf_ext. intros a Ha.
    rewrite (sumf_ext m _ (fun i' => Wp i a * (sumf p (fun b => H a b * Wp i' b) * v i'))) by (intros; ring). rewrite sumf_scal_l. f_equal.
    rewrite (sumf_pull m p (fun i' b => H a b * Wp i' b) v). apply sumf_ext. intros b Hb.
    rewrite <- sumf_scal_l. apply sumf_ext. intros; ring. }
  rewrite (sumf_ext m _ (fun i => sumf p (fun a => Wp i a * sumf p (fun b => H a b * sumf m (fun i' => Wp i' b * v i'))) * u i)) by (intros i Hi; rewrite A; ring).
  rewrite (sumf_pull m p (fun i a => Wp i a * sumf p (fun b => H a b * sumf m (fun i' => Wp i' b * v i'))) u). apply sumf_ext. intros a Ha.
  rewrite <- sumf_scal_r. apply sumf_ext. intros; ring.
Qed.

Lemma quad_shift : forall p (g : nat -> R) H (u d : nat -> R), (forall a b, (a < p)%nat -> (b < p)%nat -> H a b = H b a) ->
  sumf p (fun a => g a * (u a + d a)) + / 2 * sumf p (fun a => sumf p (fun b => H a b * (u a + d a) * (u b + d b))) =
  (sumf p (fun a => g a * u a) + / 2 * sumf p (fun a => sumf p (fun b => H a b * u a * u b))) +
  (sumf p (fun a => g a * d a) + sumf p (fun a => d a * sumf p (fun b => H a b * u b))) + / 2 * sumf p (fun a => sumf p (fun b => H a b * d a * d b)).
Proof.
  intros p g H u d SH.
  rewrite (sumf_ext p _ (fun a => g a * u a + g a * d a)) by (intros; ring). rewrite sumf_plus.
  set (C := sumf p (fun a => d a * sumf p (fun b => H a b * u b))).
  assert (E1 : sumf p (fun a => sumf p (fun b => H a b * d a * u b)) = C).
  { unfold C. apply sumf_ext. intros a Ha. rewrite <- sumf_scal_l. apply sumf_ext. intros; ring. }
  assert (E2 : sumf p (fun a => sumf p (fun b => H a b * u a * d b)) = C).
  { rewrite sumf_swap. rewrite <- E1. apply sumf_ext. intros a Ha. apply sumf_ext. intros b Hb. rewrite (SH a b) by auto. ring. }
  rewrite (sumf_ext p (fun a => sumf p (fun b => H a b * (u a + d a) * (u b + d b)))
     (fun a => sumf p (fun b => H a b * u a * u b) + sumf p (fun b => H a b * u a * d b) + sumf p (fun b => H a b * d a * u b) + sumf p (fun b => H a b * d a * d b))).
  2:{ intros a Ha. rewrite <- !sumf_plus. apply sumf_ext. intros; ring. }
  rewrite !sumf_plus, E1, E2. lra.
Qed.

(** the coefficients of the restriction of the quadratic g.u + u.H u / 2,
    u = Wp^T x, to x = W1 y + W2 z *)
Lemma quad_restrict : forall m n k p (Wp H W1 W2 : nat -> nat -> R) (g y z bz : nat -> R) (zAy zAz : nat -> nat -> R),
  (forall a b, (a < p)%nat -> (b < p)%nat -> H a b = H b a) ->
  (forall l, (l < k)%nat -> bz l = sumf m (fun i => W2 i l * sumf p (fun a => Wp i a * g a))) ->
  (forall l j, (l < k)%nat -> (j < n)%nat -> zAy l j = sumf m (fun i => W2 i l * sumf m (fun i' => sumf p (fun a => Wp i a * sumf p (fun b => H a b * Wp i' b)) * W1 i' j))) ->
  (forall l j, (l < k)%nat -> (j < k)%nat -> zAz l j = sumf m (fun i => W2 i l * sumf m (fun i' => sumf p (fun a => Wp i a * sumf p (fun b => H a b * Wp i' b)) * W2 i' j))) ->
  let q := fun x => sumf p (fun a => g a * sumf m (fun i => Wp i a * x i)) +
                    / 2 * sumf p (fun a => sumf p (fun b => H a b * sumf m (fun i => Wp i a * x i) * sumf m (fun i => Wp i b * x i))) in
  q (fun i => sumf n (fun j => W1 i j * y j) + sumf k (fun j => W2 i j * z j)) =
  q (fun i => sumf n (fun j => W1 i j * y j)) +
  sumf k (fun l => (bz l + sumf n (fun j => zAy l j * y j)) * z l) + / 2 * sumf k (fun l => sumf k (fun j => z l * zAz l j * z j)).
Proof.
  intros m n k p Wp H W1 W2 g y z bz zAy zAz SH Eb Ey Ez q. unfold q. clear q.
  set (u := fun a => sumf m (fun i => Wp i a * sumf n (fun j => W1 i j * y j))).
  set (P := fun a l => sumf m (fun i => Wp i a * W2 i l)). set (Q := fun a l => sumf m (fun i => Wp i a * W1 i l)).
  set (d := fun a => sumf k (fun l => P a l * z l)).
  assert (EU : forall a, sumf m (fun i => Wp i a * (sumf n (fun j => W1 i j * y j) + sumf k (fun j => W2 i j * z j))) = u a + d a).
  { intros a. unfold u, d, P. rewrite (sumf_ext m _ (fun i => Wp i a * sumf n (fun j => W1 i j * y j) + Wp i a * sumf k (fun j => W2 i j * z j))) by (intros; ring).
    rewrite sumf_plus. f_equal. rewrite (sumf_pull k m (fun l i => Wp i a * W2 i l) z). apply sumf_ext. intros i Hi. rewrite <- sumf_scal_l. apply sumf_ext. intros; ring. }
  assert (Eu : forall a, u a = sumf n (fun j => Q a j * y j)).
  { intros a. unfold u, Q. rewrite (sumf_pull n m (fun j i => Wp i a * W1 i j) y). apply sumf_ext. intros i Hi. rewrite <- sumf_scal_l. apply sumf_ext. intros; ring. }
  rewrite (sumf_ext p (fun a => g a * sumf m (fun i => Wp i a * (sumf n (fun j => W1 i j * y j) + sumf k (fun j => W2 i j * z j)))) (fun a => g a * (u a + d a))) by (intros; now rewrite EU).
  rewrite (sumf_ext p (fun a => sumf p (fun b => H a b * sumf m (fun i => Wp i a * (sumf n (fun j => W1 i j * y j) + sumf k (fun j => W2 i j * z j))) * sumf m (fun i => Wp i b * (sumf n (fun j => W1 i j * y j) + sumf k (fun j => W2 i j * z j)))))
     (fun a => sumf p (fun b => H a b * (u a + d a) * (u b + d b)))) by (intros; apply sumf_ext; intros; now rewrite !EU).
  rewrite (quad_shift p g H u d SH). fold u. f_equal; [f_equal|].
  - rewrite (sumf_ext k _ (fun l => bz l * z l + sumf n (fun j => zAy l j * y j) * z l)) by (intros; ring). rewrite sumf_plus. f_equal.
    + unfold d. rewrite (sumf_ext k _ (fun l => sumf p (fun a => g a * P a l) * z l)).
      * rewrite (sumf_pull k p (fun l a => g a * P a l) z). apply sumf_ext. intros a Ha. rewrite <- sumf_scal_l. apply sumf_ext. intros; ring.
      * intros l Hl. rewrite Eb by auto. f_equal. unfold P.
        rewrite (sumf_ext m _ (fun i => sumf p (fun a => Wp i a * g a) * W2 i l)) by (intros; ring). rewrite (sumf_pull m p (fun i a => Wp i a * g a)). apply sumf_ext.
        intros a Ha. rewrite <- sumf_scal_l. apply sumf_ext. intros; ring.
    + rewrite (sumf_ext p _ (fun a => sumf p (fun b => H a b * u b) * d a)) by (intros; ring).
      rewrite (sumf_ext k _ (fun l => sumf p (fun a => sumf p (fun b => H a b * u b) * P a l) * z l)).
      * rewrite (sumf_pull k p (fun l a => sumf p (fun b => H a b * u b) * P a l) z). apply sumf_ext. intros a Ha. unfold d. rewrite <- sumf_scal_l. apply sumf_ext. intros; ring.
      * intros l Hl. f_equal.
        rewrite (sumf_ext n _ (fun j => sumf p (fun a => P a l * sumf p (fun b => H a b * Q b j)) * y j)).
        2:{ intros j Hj. f_equal. rewrite Ey by auto. rewrite (triple m p Wp H (fun i => W2 i l) (fun i => W1 i j)). reflexivity. }
        rewrite (sumf_pull n p (fun j a => P a l * sumf p (fun b => H a b * Q b j)) y). apply sumf_ext. intros a Ha.
        rewrite (sumf_ext n _ (fun j => P a l * (sumf p (fun b => H a b * Q b j) * y j))) by (intros; ring). rewrite sumf_scal_l, Rmult_comm. f_equal.
        rewrite (sumf_pull n p (fun j b => H a b * Q b j) y). apply sumf_ext. intros b Hb. rewrite Eu. rewrite <- sumf_scal_l. apply sumf_ext. intros; ring.
  - f_equal. transitivity (sumf p (fun a => sumf p (fun b => H a b * d b) * d a)).
    { apply sumf_ext. intros a Ha. rewrite <- sumf_scal_r. apply sumf_ext. intros; ring. }
    transitivity (sumf k (fun l => sumf p (fun a => sumf p (fun b => H a b * d b) * P a l) * z l)).
    { rewrite (sumf_pull k p (fun l a => sumf p (fun b => H a b * d b) * P a l) z). apply sumf_ext. intros a Ha. unfold d at 2. rewrite <- sumf_scal_l. apply sumf_ext. intros; ring. }
    apply sumf_ext. intros l Hl.
    rewrite (sumf_ext k (fun j => z l * zAz l j * z j) (fun j => z l * (sumf p (fun a => P a l * sumf p (fun b => H a b * P b j)) * z j))).
    2:{ intros j Hj. rewrite Ez by auto. rewrite (triple m p Wp H (fun i => W2 i l) (fun i => W2 i j)). fold (P). unfold P. ring. }
    rewrite sumf_scal_l, Rmult_comm. f_equal.
    rewrite (sumf_pull k p (fun j a => P a l * sumf p (fun b => H a b * P b j)) z). apply sumf_ext. intros a Ha.
    rewrite (sumf_ext k _ (fun j => P a l * (sumf p (fun b => H a b * P b j) * z j))) by (intros; ring). rewrite sumf_scal_l, Rmult_comm. f_equal.
    rewrite (sumf_pull k p (fun j b => H a b * P b j) z). apply sumf_ext. intros b Hb. unfold d. rewrite <- sumf_scal_l. apply sumf_ext. intros; ring.
Qed.

(** ** The trained model *)

(** the full-space point with active variables y and inactive variables z *)
Definition xpt (W1 W2 : nd R) (n k : nat) (y z : nat -> R) (i : nat) : R :=
  sumf n (fun j => W1.[i, j] * y j) + sumf k (fun j => W2.[i, j] * z j).
(** the quadratic surrogate pr of the first p active coordinates at that
    point, plus the regularisation 0.01 |z|^2 / 2 *)
Definition min_model (pr : poly) (p m n : nat) (Wm W1 W2 : nd R) (y z : nat -> R) : R :=
  poly_value pr p (fun a => sumf m (fun i => Wm.[i, a] * xpt W1 W2 n (m - n) y z i)) + / 2 * (1 / 100) * sumf (m - n) (fun l => z l * z l).

(** pr is the quadratic fitted in train to the data in the first p coordinates *)
Definition fitted (lstsq : nd R -> nd R -> res (nd R)) (X f Wm : nd R) (M m p : nat) (pr : poly) : Prop :=
  exists Yp, shape Yp = [M; p] /\ (forall r a, (r < M)%nat -> (a < p)%nat -> Yp.[r, a] = sumf m (fun i => X.[r, i] * Wm.[i, a])) /\ poly_train lstsq 2 Yp f None = Ok pr.

Lemma reshape_same : forall (X : nd R) s, shape X = s -> reshape s X = Ok X.
Proof. intros X s E. unfold reshape. destruct (list_eq_dec Nat.eq_dec s (shape X)); [reflexivity|congruence]. Qed.

Lemma npdot2_ex : forall X Y r k c, shape X = [r; k] -> shape Y = [k; c] ->
  exists Z, npdot X Y = Ok Z /\ shape Z = [r; c] /\ forall i j, Z.[i, j] = sumf k (fun l => X.[i, l] * Y.[l, j]).
Proof. intros X Y r k c SX SY. rewrite (npdot2 X Y r k c SX SY). eexists. split; [reflexivity|]. split; [reflexivity|]. intros. now rewrite at_mk2. Qed.
Ltac dot H r k c Z SZ VZ := match type of H with (rbind (npdot ?a ?b) _) = _ =>
  let E := fresh "E" in destruct (npdot2_ex a b r k c ltac:(assumption) ltac:(assumption)) as (Z & E & SZ & VZ); rewrite E in H; cbn [rbind] in H; clear E end.

Lemma mvm_train_spec : forall lstsq d m n Wm W1 W2 X f M v, lstsq_contract lstsq -> frame (d_subs d) m n Wm W1 W2 -> (1 <= m)%nat ->
  shape X = [M; m] -> shape f = [M; 1%nat] -> mvm_train lstsq d X f = Ok v ->
  let p := Nat.min (mvm_p m n) m in let k := (m - n)%nat in
  exists pr, fitted lstsq X f Wm M m p pr /\
    shape (mv_bz v) = [k; 1%nat] /\ shape (mv_zAy v) = [k; n] /\ shape (mv_zAz v) = [k; k] /\
    (forall a b, (a < k)%nat -> (b < k)%nat -> (mv_zAz v).[a, b] = (mv_zAz v).[b, a]) /\
    forall y z, min_model pr p m n Wm W1 W2 y z = min_model pr p m n Wm W1 W2 y (fun _ => 0) +
      sumf k (fun l => ((mv_bz v).[l, 0%nat] + sumf n (fun j => (mv_zAy v).[l, j] * y j)) * z l) +
      / 2 * sumf k (fun a => sumf k (fun b => z a * (mv_zAz v).[a, b] * z b)).
Proof.
  intros lstsq d m n Wm W1 W2 X f M v HL F Hm SX Sf H p k.
  pose proof (fr_sW _ _ _ _ _ _ F) as SW. pose proof (fr_s1 _ _ _ _ _ _ F) as S1. pose proof (fr_s2 _ _ _ _ _ _ F) as S2. pose proof (fr_le _ _ _ _ _ _ F) as Hle. fold k in S2.
  assert (Hp : (1 <= p)%nat) by (unfold p, mvm_p; destruct (Nat.ltb 2 (m - n)); lia).
  unfold mvm_train in H. rewrite (process_io_eq _ X f M m SX Sf) in H. cbn [rbind] in H.
  rewrite (fr_1 _ _ _ _ _ _ F), (fr_2 _ _ _ _ _ _ F), (fr_W _ _ _ _ _ _ F) in H. cbn [need rbind] in H. unfold shape2 in H at 1. rewrite S1 in H. cbn [rbind] in H.
  assert (SP : shape (cols_slice Wm 0 (mvm_p m n)) = [m; p]).
  { unfold cols_slice, p. cbn [shape mk2]. rewrite (nrows_shape2 _ Wm _ _ SW), (ncols_shape2 _ Wm _ _ SW), Nat.sub_0_r. reflexivity. }
  assert (VP : forall i a, (cols_slice Wm 0 (mvm_p m n)).[i, a] = Wm.[i, a]) by (intros; unfold cols_slice; now rewrite at_mk2).
  set (Wp := cols_slice Wm 0 (mvm_p m n)) in *. clearbody Wp. clearbody p.
  dot H M m p Yp SY VY.
  destruct (poly_train lstsq 2 Yp f None) as [pr|] eqn:EP; [|discriminate]. cbn [rbind] in H.
  destruct (C38_gradient_and_hessian lstsq 2 Yp f None M p pr HL SY Sf Hp ltac:(lia) I EP) as (Sg & _ & _ & K2).
  destruct (K2 ltac:(lia)) as (HH & EH & SH & Hsym & _ & Hval). specialize (Hval eq_refl). clear K2. rewrite EH in H. cbn [need rbind] in H.
  dot H m p 1%nat b Sb Vb.
  assert (ST : shape (tr Wp) = [p; m]) by (unfold tr; cbn [shape mk2]; now rewrite (nrows_shape2 _ Wp _ _ SP), (ncols_shape2 _ Wp _ _ SP)).
  assert (VT : forall i j, (tr Wp).[i, j] = Wp.[j, i]) by (intros; unfold tr; now rewrite at_mk2).
  assert (ST2 : shape (tr W2) = [k; m]) by (unfold tr; cbn [shape mk2]; now rewrite (nrows_shape2 _ W2 _ _ S2), (ncols_shape2 _ W2 _ _ S2)).
  assert (VT2 : forall i j, (tr W2).[i, j] = W2.[j, i]) by (intros; unfold tr; now rewrite at_mk2).
  dot H p p m AW SAW VAW. dot H m p m A SA VA. dot H k m 1%nat bz Sbz Vbz. dot H m m n AW1 SAW1 VAW1. dot H k m n zAy SzAy VzAy. dot H m m k AW2 SAW2 VAW2. dot H k m k zAz SzAz VzAz.
  rewrite (proj2 (Nat.leb_le n m) Hle) in H. cbn [guard rbind] in H. fold k in H.
  destruct (bcast2_same _ _ _ Rplus zAz (amap (fun x => 1 / 100 * x) (eye k)) k k SzAz eq_refl) as (Q & EQ & SQ & VQ).
  rewrite EQ in H. cbn [rbind] in H. injection H as <-. cbn [mv_bz mv_zAy mv_zAz].
  exists pr. split.
  { exists Yp. split; [exact SY|]. split; [|exact EP]. intros r a Hr Ha. rewrite VY. apply sumf_ext. intros; now rewrite VP. }
  split; [exact Sbz|]. split; [exact SzAy|]. split; [exact SQ|].
  assert (VA' : forall i i', A.[i, i'] = sumf p (fun a => Wm.[i, a] * sumf p (fun b => HH.[a, b] * Wm.[i', b]))).
  { intros i i'. rewrite VA. apply sumf_ext. intros a Ha. rewrite VP, VAW. f_equal. apply sumf_ext. intros b' Hb'. now rewrite VT, VP. }
  set (T := fun l j => sumf m (fun i => W2.[i, l] * sumf m (fun i' => sumf p (fun a => Wm.[i, a] * sumf p (fun b => HH.[a, b] * Wm.[i', b])) * W2.[i', j]))).
  assert (VQ' : forall a b, (a < k)%nat -> (b < k)%nat -> Q.[a, b] = T a b + 1 / 100 * kron_delta a b).
  { intros a b' Ha Hb. rewrite VQ by auto. f_equal. rewrite VzAz. unfold T. apply sumf_ext. intros i Hi. rewrite VT2, VAW2. f_equal. apply sumf_ext. intros i' Hi'. now rewrite VA'. }
  assert (TS : forall a b, T a b = T b a).
  { intros a b'. unfold T. rewrite (triple m p (fun i a => Wm.[i, a]) (fun a b => HH.[a, b]) (fun i => W2.[i, a]) (fun i => W2.[i, b'])).
    rewrite (triple m p (fun i a => Wm.[i, a]) (fun a b => HH.[a, b]) (fun i => W2.[i, b']) (fun i => W2.[i, a])).
    set (P := fun a l => sumf m (fun i => Wm.[i, a] * W2.[i, l])).
    transitivity (sumf p (fun c => sumf p (fun e => P c a * (HH.[c, e] * P e b')))). { apply sumf_ext. intros c Hc. rewrite sumf_scal_l. reflexivity. }
    rewrite sumf_swap. apply sumf_ext. intros c Hc. fold (P c b'). rewrite <- sumf_scal_l. apply sumf_ext. intros e He. rewrite (Hsym e c) by auto. fold (P e a). ring. }
  split. { intros a b' Ha Hb. rewrite !VQ' by auto. rewrite TS. f_equal. f_equal. unfold kron_delta. now rewrite Nat.eqb_sym. }
  intros y z.
  assert (R1 : forall l, (l < k)%nat -> bz.[l, 0%nat] = sumf m (fun i => W2.[i, l] * sumf p (fun a => Wm.[i, a] * (pa_g pr).[a, 0%nat]))).
  { intros l Hl. rewrite Vbz. apply sumf_ext. intros i Hi. rewrite VT2, Vb. f_equal. apply sumf_ext. intros; now rewrite VP. }
  assert (R2 : forall l j, (l < k)%nat -> (j < n)%nat -> zAy.[l, j] = sumf m (fun i => W2.[i, l] * sumf m (fun i' => sumf p (fun a => Wm.[i, a] * sumf p (fun b => HH.[a, b] * Wm.[i', b])) * W1.[i', j]))).
  { intros l j Hl Hj. rewrite VzAy. apply sumf_ext. intros i Hi. rewrite VT2, VAW1. f_equal. apply sumf_ext. intros i' Hi'. now rewrite VA'. }
  pose proof (quad_restrict m n k p (fun i a => Wm.[i, a]) (fun a b => HH.[a, b]) (fun i j => W1.[i, j]) (fun i j => W2.[i, j]) (fun a => (pa_g pr).[a, 0%nat]) y z
    (fun l => bz.[l, 0%nat]) (fun l j => zAy.[l, j]) T Hsym R1 R2 (fun l j _ _ => eq_refl)) as QR.
  set (q := fun x => _) in QR.
  assert (MV : forall z', min_model pr p m n Wm W1 W2 y z' = poly_value pr p (fun _ => 0) + q (xpt W1 W2 n k y z') + / 2 * (1 / 100) * sumf k (fun l => z' l * z' l)).
  { intros z'. unfold min_model, q. rewrite Hval. fold k. ring. }
  rewrite !MV. clear MV.
  assert (Z0 : q (xpt W1 W2 n k y (fun _ => 0)) = q (fun i => sumf n (fun j => W1.[i, j] * y j))).
  { assert (Z0 : forall i, xpt W1 W2 n k y (fun _ => 0) i = sumf n (fun j => W1.[i, j] * y j)).
    { intros i. unfold xpt. rewrite (sumf_zero k); [ring|]. intros; ring. }
    unfold q. f_equal; [|f_equal]; apply sumf_ext; intros a Ha; [f_equal; apply sumf_ext; intros; now rewrite Z0|].
    apply sumf_ext. intros c Hc. f_equal; [f_equal|]; apply sumf_ext; intros; now rewrite Z0. }
  pose proof (QR : q (xpt W1 W2 n k y z) = _) as QX.
  assert (E3 : sumf k (fun a => sumf k (fun b => z a * Q.[a, b] * z b)) = sumf k (fun l => sumf k (fun j => z l * T l j * z j)) + 1 / 100 * sumf k (fun l => z l * z l)).
  { rewrite <- sumf_scal_l, <- sumf_plus. apply sumf_ext. intros a Ha.
    rewrite (sumf_ext k _ (fun b => z a * T a b * z b + kron_delta a b * (1 / 100 * (z a * z b)))) by (intros b' Hb; rewrite VQ' by auto; ring).
    rewrite sumf_plus, sumf_kd_l by auto. reflexivity. }
  rewrite E3, Z0, QX. cbv beta. rewrite (sumf_zero k (fun _ => 0 * 0)) by (intros; ring). ring.
Qed.

(** ** regularize_z *)
Lemma mmap_still : forall W A C (f : A -> M W C) l (w w' : W) ys, (forall x w w' y, In x l -> f x w = (Ok y, w') -> w' = w) -> mmap f l w = (Ok ys, w') ->
  w' = w /\ List.length ys = List.length l /\ forall i d1 d2, (i < List.length l)%nat -> f (nth i l d1) w = (Ok (nth i ys d2), w).
Proof.
  intros W A C f. induction l as [|x l IH]; intros w w' ys HS H; cbn [mmap] in H.
  - apply mret_inv in H. destruct H as [-> ->]. split; [reflexivity|]. split; [reflexivity|]. simpl. intros; lia.
  - apply mbind_ok in H. destruct H as (y & w1 & E & H). pose proof (HS x _ _ _ (or_introl eq_refl) E) as ->.
    apply mbind_ok in H. destruct H as (ys' & w2 & E2 & H). apply mret_inv in H. destruct H as [-> ->].
    destruct (IH _ _ _ (fun x w w' y I0 => HS x w w' y (or_intror I0)) E2) as (-> & IL & IK). split; [reflexivity|]. split; [simpl; lia|].
    intros [|i] d1 d2 Hi; cbn [nth]; [exact E|]. apply IK. simpl in Hi. lia.
Qed.

Lemma mvm_c_ok : forall v y k n, shape (mv_bz v) = [k; 1%nat] -> shape (mv_zAy v) = [k; n] -> shape y = [n] ->
  exists c, mvm_c v y k = Ok c /\ shape c = [k; 1%nat] /\ forall l, (l < k)%nat -> c.[l, 0%nat] = (mv_bz v).[l, 0%nat] + sumf n (fun j => (mv_zAy v).[l, j] * y.[j]).
Proof.
  intros v y k n Sb SA Sy. unfold mvm_c. rewrite (reshape_same _ _ Sb). cbn [rbind]. rewrite (npdot21 _ y k n SA Sy). cbn [rbind].
  destruct (flat_col (mk1 k (fun i => sumf n (fun l => (mv_zAy v).[i, l] * y.[l]))) k eq_refl) as (s & E & S1 & V). rewrite E. cbn [rbind].
  destruct (bcast2_same _ _ _ Rplus (mv_bz v) s k 1 Sb S1) as (c & Ec & Sc & Vc). exists c. split; [exact Ec|]. split; [exact Sc|].
  intros l Hl. rewrite Vc, V by lia. now rewrite at_mk1.
Qed.

Lemma stack_z_ok : forall l NY k, List.length l = NY -> exists Z, stack_z l NY k 1 = Ok Z /\ shape Z = [NY; k; 1%nat] /\
  forall i j dz, (i < NY)%nat -> Z.[i, j, 0%nat] = (nth i l dz).[j, 0%nat].
Proof.
  intros l NY k E. unfold stack_z. rewrite E. eexists. split; [apply reshape_same; reflexivity|]. split; [reflexivity|].
  intros i j dz Hi. rewrite at_mk3. f_equal. apply nth_indep. lia.
Qed.

Section Reg.
  Context {G : gen} {U L : Type}.
  Notation W := (world G U L).

  Lemma umvm_spec : forall solve d m n Wm W1 W2 v Y NY Z (w w' : W), solve_sound solve -> frame (d_subs d) m n Wm W1 W2 -> shape Y = [NY; n] ->
    shape (mv_bz v) = [(m - n)%nat; 1%nat] -> shape (mv_zAy v) = [(m - n)%nat; n] -> shape (mv_zAz v) = [(m - n)%nat; (m - n)%nat] ->
    umvm_regularize solve d v Y 1 w = (Ok Z, w') ->
    w' = w /\ shape Z = [NY; (m - n)%nat; 1%nat] /\ forall i l, (i < NY)%nat -> (l < m - n)%nat ->
      sumf (m - n) (fun j => (mv_zAz v).[l, j] * Z.[i, j, 0%nat]) = (mv_bz v).[l, 0%nat] + sumf n (fun j => (mv_zAy v).[l, j] * Y.[i, j]).
  Proof.
    intros solve d m n Wm W1 W2 v Y NY Z w w' HS F SY Sb SA SQ H. set (k := (m - n)%nat) in *.
    unfold umvm_regularize in H. cbn [Z.eqb Pos.eqb negb] in H. unfold mbind at 1, mlift at 1 in H. rewrite (fr_1 _ _ _ _ _ _ F) in H. cbn [need] in H.
    unfold mbind at 1, mlift at 1, shape2 in H. rewrite (fr_s1 _ _ _ _ _ _ F) in H. unfold mbind at 1, mlift at 1 in H. rewrite (proj2 (Nat.leb_le n m) (fr_le _ _ _ _ _ _ F)) in H. cbn [guard] in H.
    rewrite (nrows_shape2 _ Y _ _ SY) in H. fold k in H.
    apply mbind_ok in H. destruct H as (zs & w1 & E & H). apply mlift_inv in H. destruct H as [EZ ->].
    assert (ST : forall i (w w' : W) z, (dom c <- mlift (mvm_c v (row1 Y i) k); mlift (solve (mv_zAz v) c)) w = (Ok z, w') ->
      w' = w /\ shape z = [k; 1%nat] /\ forall l, (l < k)%nat -> sumf k (fun j => (mv_zAz v).[l, j] * z.[j, 0%nat]) = (mv_bz v).[l, 0%nat] + sumf n (fun j => (mv_zAy v).[l, j] * Y.[i, j])).
    { clear E. intros i w0 w0' z E. unfold mbind, mlift in E. destruct (mvm_c_ok v (row1 Y i) k n Sb SA) as (c & Ec & Sc & Vc); [unfold row1; cbn [shape mk1]; now rewrite (ncols_shape2 _ Y _ _ SY)|].
      rewrite Ec in E. destruct (solve (mv_zAz v) c) as [z0|] eqn:ES; [|discriminate]. injection E as -> ->. split; [reflexivity|].
      destruct (HS k 1%nat _ _ _ SQ Sc ES) as [Sz Vz]. split; [exact Sz|]. intros l Hl. rewrite Vz by lia. rewrite Vc by auto. reflexivity. }
    destruct (mmap_still _ _ _ _ _ _ _ _ (fun x w w' y _ E => proj1 (ST x w w' y E)) E) as (-> & EL & EK). rewrite seq_length in EL, EK.
    destruct (stack_z_ok zs NY k EL) as (Z0 & E0 & SZ & VZ). rewrite E0 in EZ. injection EZ as <-. split; [reflexivity|]. split; [exact SZ|].
    intros i l Hi Hl. specialize (EK i 0%nat (mk1 0 (fun _ => 0)) Hi). rewrite seq_nth in EK by auto. destruct (ST _ _ _ _ EK) as (_ & _ & V). cbn [Nat.add] in V. rewrite <- V by auto.
    apply sumf_ext. intros j Hj. now rewrite (VZ i j (mk1 0 (fun _ => 0)) Hi).
  Qed.

  (** what the quadratic program returns, for a property K of its answers *)
  Variable B : backend.
  Lemma bmvm_spec : forall d m n Wm W1 W2 v Y NY Z (w w' : W) (K : nd R -> nd R -> nd R -> nd R -> Prop), frame (d_subs d) m n Wm W1 W2 -> shape Y = [NY; n] ->
    shape (mv_bz v) = [(m - n)%nat; 1%nat] -> shape (mv_zAy v) = [(m - n)%nat; n] ->
    (forall c A b z (w w' : W), shape c = [(m - n)%nat; 1%nat] -> shape A = [(2 * m)%nat; (m - n)%nat] -> shape b = [(2 * m)%nat; 1%nat] ->
       quadratic_program_ineq B (qp_init B "GUROBI") c (mv_zAz v) A b w = (Ok z, w') -> K c A b z /\ w' = w) ->
    bmvm_regularize B d v Y 1 w = (Ok Z, w') ->
    w' = w /\ shape Z = [NY; (m - n)%nat; 1%nat] /\ forall i, (i < NY)%nat -> exists c A b z, shape c = [(m - n)%nat; 1%nat] /\ shape A = [(2 * m)%nat; (m - n)%nat] /\ shape b = [(2 * m)%nat; 1%nat] /\
      (forall j, Z.[i, j, 0%nat] = z.[j, 0%nat]) /\ K c A b z /\
      (forall l, (l < m - n)%nat -> c.[l, 0%nat] = (mv_bz v).[l, 0%nat] + sumf n (fun j => (mv_zAy v).[l, j] * Y.[i, j])) /\
      (forall x, doc_ineq A b (2 * m) (m - n) x <-> in_cube m (xpt W1 W2 n (m - n) (fun j => Y.[i, j]) x)).
  Proof.
    intros d m n Wm W1 W2 v Y NY Z w w' K F SY Sb SA HK H. set (k := (m - n)%nat) in *.
    pose proof (fr_s1 _ _ _ _ _ _ F) as S1. pose proof (fr_s2 _ _ _ _ _ _ F) as S2. fold k in S2.
    unfold bmvm_regularize in H. cbn [Z.eqb Pos.eqb negb] in H. unfold mbind at 1, mlift at 1 in H. rewrite (fr_1 _ _ _ _ _ _ F) in H. cbn [need] in H.
    unfold mbind at 1, mlift at 1 in H. rewrite (fr_2 _ _ _ _ _ _ F) in H. cbn [need] in H.
    unfold mbind at 1, mlift at 1, shape2 in H. rewrite S1 in H.
    unfold mbind at 1, mlift at 1, vstack at 1 in H. cbn [amap shape] in H. rewrite S2, Nat.eqb_refl in H. set (A := mk2 (m + m) k _) in H.
    unfold mbind at 1, mlift at 1 in H. rewrite (proj2 (Nat.leb_le n m) (fr_le _ _ _ _ _ _ F)) in H. cbn [guard] in H.
    rewrite (nrows_shape2 _ Y _ _ SY) in H. fold k in H.
    apply mbind_ok in H. destruct H as (zs & w1 & E & H). apply mlift_inv in H. destruct H as [EZ ->].
    assert (VA1 : forall i j, (i < m)%nat -> A.[i, j] = W2.[i, j]).
    { intros i j Hi. unfold A. rewrite at_mk2. destruct (Nat.ltb_spec i m); [reflexivity|lia]. }
    assert (VA2 : forall i j, (i < m)%nat -> A.[(m + i)%nat, j] = - W2.[i, j]).
    { intros i j Hi. unfold A. rewrite at_mk2. destruct (Nat.ltb_spec (m + i) m); [lia|]. replace (m + i - m)%nat with i by lia. reflexivity. }
    assert (SAi : shape A = [(2 * m)%nat; k]) by (unfold A; cbn [shape mk2]; replace (m + m)%nat with (2 * m)%nat by lia; reflexivity). clearbody A.
    set (step := fun i => let y := row1 Y i in _) in E.
    assert (ST : forall i (w w' : W) z, step i w = (Ok z, w') ->
      w' = w /\ exists c b, shape c = [k; 1%nat] /\ shape b = [(2 * m)%nat; 1%nat] /\ K c A b z /\
      (forall l, (l < k)%nat -> c.[l, 0%nat] = (mv_bz v).[l, 0%nat] + sumf n (fun j => (mv_zAy v).[l, j] * Y.[i, j])) /\
      (forall x, doc_ineq A b (2 * m) k x <-> in_cube m (xpt W1 W2 n k (fun j => Y.[i, j]) x))).
    { clear E. intros i w0 w0' z E. unfold step in E. cbv zeta in E.
      assert (Sy : shape (row1 Y i) = [n]) by (unfold row1; cbn [shape mk1]; now rewrite (ncols_shape2 _ Y _ _ SY)).
      destruct (mvm_c_ok v (row1 Y i) k n Sb SA Sy) as (c & Ec & Sc & Vc).
      destruct (shift_of_ok W1 (row1 Y i) m n S1 Sy) as (s & Es & Ss & Vs).
      unfold mbind at 1, mlift at 1 in E. rewrite Ec in E. unfold mbind at 1, mlift at 1 in E. rewrite Es in E.
      unfold mbind at 1, mlift at 1, vstack in E. cbn [amap shape] in E. rewrite Ss, Nat.eqb_refl in E. set (b := mk2 (m + m) 1 _) in E.
      assert (Sb2 : shape b = [(2 * m)%nat; 1%nat]) by (unfold b; cbn [shape mk2]; replace (m + m)%nat with (2 * m)%nat by lia; reflexivity).
      assert (Vs' : forall a, (a < m)%nat -> s.[a, 0%nat] = sumf n (fun j => W1.[a, j] * Y.[i, j])).
      { intros a Ha. rewrite Vs by auto. apply sumf_ext. intros j Hj. unfold row1. now rewrite at_mk1. }
      assert (VB1 : forall a, (a < m)%nat -> b.[a, 0%nat] = -1 - s.[a, 0%nat]).
      { intros a Ha. unfold b. rewrite at_mk2. destruct (Nat.ltb_spec a m); [reflexivity|lia]. }
      assert (VB2 : forall a, (a < m)%nat -> b.[(m + a)%nat, 0%nat] = -1 + s.[a, 0%nat]).
      { intros a Ha. unfold b. rewrite at_mk2. destruct (Nat.ltb_spec (m + a) m); [lia|]. replace (m + a - m)%nat with a by lia. reflexivity. }
      clearbody b. destruct (HK _ _ _ _ _ _ Sc SAi Sb2 E) as [KK ->]. split; [reflexivity|]. exists c, b. split; [exact Sc|]. split; [exact Sb2|]. split; [exact KK|]. split.
      { intros l Hl. rewrite Vc by auto. reflexivity. }
      intros x. assert (N1 : forall a, (a < m)%nat -> sumf k (fun j => A.[a, j] * x j) = sumf k (fun j => W2.[a, j] * x j)) by (intros; apply sumf_ext; intros; now rewrite VA1).
      assert (N2 : forall a, (a < m)%nat -> sumf k (fun j => A.[(m + a)%nat, j] * x j) = - sumf k (fun j => W2.[a, j] * x j)).
      { intros a Ha. rewrite <- sumf_opp. apply sumf_ext. intros j Hj. rewrite VA2 by auto. ring. }
      unfold doc_ineq, in_cube, xpt. split.
      - intros D a Ha. pose proof (D a ltac:(lia)) as D1. pose proof (D (m + a)%nat ltac:(lia)) as D2. rewrite VB1, N1, Vs' in D1 by auto. rewrite VB2, N2, Vs' in D2 by auto. lra.
      - intros D a Ha. destruct (Nat.lt_ge_cases a m) as [C|C].
        + specialize (D a C). rewrite VB1, N1, Vs' by auto. lra.
        + specialize (D (a - m)%nat ltac:(lia)). replace a with (m + (a - m))%nat by lia. rewrite VB2, N2, Vs' by lia. lra. }
    destruct (mmap_still _ _ _ _ _ _ _ _ (fun x w w' y _ E => proj1 (ST x w w' y E)) E) as (-> & EL & EK). rewrite seq_length in EL, EK.
    destruct (stack_z_ok zs NY k EL) as (Z0 & E0 & SZ & VZ). rewrite E0 in EZ. injection EZ as <-. split; [reflexivity|]. split; [exact SZ|].
    intros i Hi. specialize (EK i 0%nat (mk1 0 (fun _ => 0)) Hi). rewrite seq_nth in EK by auto. destruct (ST _ _ _ _ EK) as (_ & c & b & Sc & Sb2 & KK & V & D). cbn [Nat.add] in V, D.
    exists c, A, b, (nth i zs (mk1 0 (fun _ => 0))). do 3 (split; [assumption|]). split; [intros j; now apply VZ|]. split; [exact KK|]. split; [exact V|exact D].
  Qed.
End Reg.
