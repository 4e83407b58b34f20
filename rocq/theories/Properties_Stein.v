(** Final theorems on the regression-based methods at Gauss-Hermite points: C86 *)
From Coq Require Import String Reals Lra Lia List Arith ZArith Bool FunctionalExtensionality.
From Verif Require Import Prelude Py NumArr Toy GaussRules M_Misc M_RespSurf M_Gradients M_Subspaces M_Quadrature
  Lsq Det EighRef Tridiag Sorting P_Tensor P_Bootstrap P_Misc P_Quadrature P_IndexSet P_Poly P_PolyFacts PolySub Spectral P_Subspaces P_Estimators P_Qphd P_SubsState P_SubsLive P_PolyTrain P_Partition M_SimRunners LinAlg Cubature
  Properties_Misc Properties_Quadrature Properties_Subspaces Properties_SubsState Properties_Arguments Properties_Cubature Deriv GaussPoincare GaussRotate GaussCond.
Import ListNotations.
Open Scope R_scope.

(** ** least squares: the residual is orthogonal to every direction of search *)
Lemma normal_eq : forall q (w r g : nat -> R), (forall i, (i < q)%nat -> 0 <= w i) ->
  (forall t, sumf q (fun i => w i * (r i * r i)) <= sumf q (fun i => w i * ((r i + t * g i) * (r i + t * g i)))) ->
  sumf q (fun i => w i * (r i * g i)) = 0.
Proof.
  intros q w r g Hw H.
  set (B := sumf q (fun i => w i * (r i * g i))). set (A := sumf q (fun i => w i * (g i * g i))).
  assert (HA : 0 <= A). { apply sumf_nonneg. intros i Hi. apply Rmult_le_pos; auto. apply Rle_0_sqr. }
  assert (EX : forall t, sumf q (fun i => w i * ((r i + t * g i) * (r i + t * g i))) = sumf q (fun i => w i * (r i * r i)) + (2 * t * B + t * t * A)).
  { intros t. unfold A, B. rewrite <- !sumf_scal_l, <- !sumf_plus. apply sumf_ext. intros; ring. }
  assert (Z := H (- B / (A + 1))). rewrite EX in Z.
  assert (Q : 2 * (- B / (A + 1)) * B + (- B / (A + 1)) * (- B / (A + 1)) * A = - (B * B * ((A + 2) / ((A + 1) * (A + 1))))) by (field; lra).
  rewrite Q in Z.
  assert (P : 0 < (A + 2) / ((A + 1) * (A + 1))) by (apply Rdiv_lt_0_compat; nra).
  assert (B2 := Rle_0_sqr B). unfold Rsqr in B2.
  destruct (Req_dec B 0) as [|NB]; auto. exfalso. assert (0 < B * B) by nra. assert (0 < B * B * ((A + 2) / ((A + 1) * (A + 1)))) by (apply Rmult_lt_0_compat; auto). lra.
Qed.

(** ** partial derivatives of quadratics *)
Lemma pd_minus : forall j p p' r r', pd j p p' -> pd j r r' -> pd j (fun x => p x - r x) (fun x => p' x - r' x).
Proof. intros j p p' r r' H H' x. apply (D_minus (fun t => p (upd x j t)) (fun t => r (upd x j t))); auto. Qed.
Lemma upd_at : forall x j i, upd x j (x j) i = x i.
Proof. intros x j i. unfold upd. destruct (Nat.eqb_spec i j) as [->|]; auto. Qed.
Lemma pd_linear : forall m c (b : nat -> R) j, (j < m)%nat -> pd j (fun x => c + sumf m (fun k => b k * x k)) (fun _ => b j).
Proof.
  intros m c b j Hj x. eapply D_eq.
  - apply (D_plus (fun _ => c) (fun t => sumf m (fun k => b k * upd x j t k))); [apply D_const|].
    apply (D_sumf m (fun k t => b k * upd x j t k)). intros k Hk. apply D_mult; [apply D_const|apply upd_path].
  - cbv beta. rewrite Rplus_0_l. rewrite (sumf_ext m _ (fun k => (if Nat.eqb k j then 1 else 0) * b k)) by (intros; ring). now apply sumf_ite.
Qed.
Lemma pd_quadratic : forall m c b H j, (j < m)%nat -> (forall i k, (i < m)%nat -> (k < m)%nat -> H i k = H k i) ->
  pd j (quadratic m c b H) (fun x => quadratic_gradient m b H x j).
Proof.
  intros m c b H j Hj HS x. unfold quadratic, quadratic_gradient. eapply D_eq.
  - apply (D_plus (fun t => c + sumf m (fun k => b k * upd x j t k)) (fun t => / 2 * sumf m (fun i => sumf m (fun k => H i k * upd x j t i * upd x j t k))));
      [apply (pd_linear m c b j Hj x)|].
    apply D_mult; [apply D_const|].
    apply (D_sumf m (fun i t => sumf m (fun k => H i k * upd x j t i * upd x j t k))). intros i Hi.
    apply (D_sumf m (fun k t => H i k * upd x j t i * upd x j t k)). intros k Hk. apply D_mult; [apply D_mult; [apply D_const|apply upd_path]|apply upd_path].
  - cbv beta. rewrite Rmult_0_l, Rplus_0_l. f_equal.
    rewrite (sumf_ext m _ (fun i => (if Nat.eqb i j then 1 else 0) * sumf m (fun k => H i k * x k) + H i j * x i)).
    2: { intros i Hi. rewrite <- sumf_scal_l. rewrite <- (sumf_ite m j (fun k => H i k * x i) Hj), <- sumf_plus. apply sumf_ext. intros k Hk. rewrite !upd_at. ring. }
    rewrite sumf_plus, (sumf_ite m j (fun i => sumf m (fun k => H i k * x k)) Hj).
    rewrite (sumf_ext m (fun i => H i j * x i) (fun k => H j k * x k)) by (intros; rewrite HS by auto; reflexivity). field.
Qed.
Lemma poly_quadratic : forall m c b H, is_poly m 2 (quadratic m c b H).
Proof.
  intros m c b H. unfold quadratic. apply is_poly_plus.
  - apply (is_poly_le m 1); [lia|]. apply is_poly_plus; [apply is_poly_const|apply is_poly_linear].
  - apply is_poly_scal. apply (is_poly_sum m 2 m (fun i x => sumf m (fun k => H i k * x i * x k))). intros i Hi.
    apply (is_poly_sum m 2 m (fun k x => H i k * x i * x k)). intros k Hk. apply (is_poly_mult m 1 1 (fun x => H i k * x i) (fun x => x k)); [apply is_poly_scal|]; apply is_poly_var; auto.
Qed.
Lemma ex_var : forall m j, (j < m)%nat -> Ex m (fun x => x j) 0.
Proof.
  intros m j Hj. eapply (ex_ext m (fun x => x j * 1)); [intros; ring|].
  apply (stein m 0 (fun _ => 1) (fun _ => 0)); auto; [apply is_poly_const| |apply ex_const]. intros x. apply D_const.
Qed.
Lemma ex_minus : forall m f g a b, Ex m f a -> Ex m g b -> Ex m (fun x => f x - g x) (a - b).
Proof.
  intros m f g a b Hf Hg. assert (L := ex_lin m f g a b (-1) Hf Hg). replace (a - b) with (a + -1 * b) by ring.
  eapply ex_ext; [|exact L]. intros; cbv beta; ring.
Qed.
Lemma ex_pow : forall m j k, (j < m)%nat -> Ex m (fun x => x j ^ k) (mom k).
Proof.
  intros m j k Hj. set (e := fun i => if Nat.eqb i j then k else 0%nat).
  assert (A := ex_mon m e).
  replace (prodf m (fun i => mom (e i))) with (mom k) in A.
  - eapply ex_ext; [|exact A]. intros x. unfold mon. rewrite (prodf_at m j); [unfold e; now rewrite Nat.eqb_refl|auto|].
    intros i Hi NE. unfold e. now rewrite (proj2 (Nat.eqb_neq i j)).
  - symmetry. rewrite (prodf_at m j); [unfold e; now rewrite Nat.eqb_refl|auto|].
    intros i Hi NE. unfold e. now rewrite (proj2 (Nat.eqb_neq i j)).
Qed.
Lemma mom_2 : mom 2 = 1.  Proof. rewrite mom_SS. simpl pred. rewrite mom_0. simpl. ring. Qed.
Lemma mom_4 : mom 4 = 3.  Proof. rewrite mom_SS. simpl pred. rewrite mom_2. simpl. ring. Qed.
Lemma mom_1 : mom 1 = 0.  Proof. rewrite mom_SS. simpl. ring. Qed.
Lemma mom_3 : mom 3 = 0.  Proof. rewrite mom_SS. simpl pred. rewrite mom_1. ring. Qed.
Lemma mom_5 : mom 5 = 0.  Proof. rewrite mom_SS. simpl pred. rewrite mom_3. ring. Qed.

(** a rule exact for the Gaussian means of polynomials up to degree D *)
Definition exact_rule (m q D : nat) (x w : nd R) : Prop :=
  forall g, is_poly m D g -> Ex m g (sumf q (fun r => w.[r, 0%nat] * g (fun k => x.[r, k]))).

Lemma rule_residual : forall m q D x w g L, exact_rule m q D x w -> is_poly m D g ->
  sumf q (fun r => w.[r, 0%nat] * g (fun k => x.[r, k])) = 0 -> Ex m g L -> L = 0.
Proof. intros m q D x w g L HX Hg Z HL. assert (A := HX g Hg). rewrite Z in A. exact (ex_unique _ _ _ _ HL A). Qed.

(** the linear fit: its slope is the mean gradient *)
Lemma linear_fit : forall m q N x w f p dp g a b, exact_rule m q (S (Nat.max N 1)) x w -> (forall r, (r < q)%nat -> 0 <= w.[r, 0%nat]) ->
  is_poly m N p -> (forall r, (r < q)%nat -> f.[r, 0%nat] = p (fun k => x.[r, k])) ->
  (forall j, (j < m)%nat -> pd j p (dp j)) -> (forall j, (j < m)%nat -> Ex m (dp j) (g j)) ->
  (forall a' b', wls q m x f w a b <= wls q m x f w a' b') -> forall j, (j < m)%nat -> b j = g j.
Proof.
  intros m q N x w f p dp g a b HX Hw Hp Hf Hdp Hg Hmin j Hj.
  set (res := fun y => p y - (a + sumf m (fun k => b k * y k))).
  assert (Pr : is_poly m (Nat.max N 1) res).
  { apply (is_poly_ext m _ (fun y => p y + -1 * (a + sumf m (fun k => b k * y k)))); [intros; unfold res; ring|].
    apply is_poly_plus; [apply (is_poly_le m N); [lia|exact Hp]|]. apply is_poly_scal. apply (is_poly_le m 1); [lia|].
    apply is_poly_plus; [apply is_poly_const|apply is_poly_linear]. }
  assert (D1 : pd j res (fun y => dp j y - b j)) by (apply (pd_minus j p (dp j) (fun y => a + sumf m (fun k => b k * y k)) (fun _ => b j)); [auto|now apply pd_linear]).
  assert (M1 : Ex m (fun y => dp j y - b j) (g j - b j)) by (apply (ex_minus m (dp j) (fun _ => b j)); [auto|apply ex_const]).
  assert (S1 := stein m _ res _ j _ Hj Pr D1 M1).
  assert (Z : g j - b j = 0); [|lra].
  apply (rule_residual m q (S (Nat.max N 1)) x w (fun y => y j * res y)); auto.
  { apply (is_poly_mult m 1 (Nat.max N 1) (fun y => y j) res); [apply is_poly_var; auto|exact Pr]. }
  rewrite (sumf_ext q _ (fun r => w.[r, 0%nat] * (res (fun k => x.[r, k]) * x.[r, j]))) by (intros; ring).
  apply (normal_eq q (fun r => w.[r, 0%nat]) (fun r => res (fun k => x.[r, k])) (fun r => x.[r, j])); auto.
  intros t. eapply Rle_trans; [|eapply Rle_trans; [exact (Hmin a (fun k => b k + (if Nat.eqb k j then 1 else 0) * - t))|]]; right; unfold wls; apply sumf_ext; intros r Hr; rewrite Hf by auto; unfold res; [ring|].
  rewrite (sumf_ext m (fun k => (b k + (if Nat.eqb k j then 1 else 0) * - t) * x.[r, k]) (fun k => b k * x.[r, k] + (if Nat.eqb k j then 1 else 0) * (- t * x.[r, k]))) by (intros; ring).
  rewrite sumf_plus, (sumf_ite m j (fun k => - t * x.[r, k]) Hj). ring.
Qed.

(** the quadratic fit: its slope at 0 and its Hessian are the mean gradient and
    the mean Hessian *)
Lemma quadratic_fit : forall m q N x w f p dp ddp g h c b H, exact_rule m q (2 + Nat.max N 2) x w -> (forall r, (r < q)%nat -> 0 <= w.[r, 0%nat]) ->
  is_poly m N p -> (forall r, (r < q)%nat -> f.[r, 0%nat] = p (fun k => x.[r, k])) ->
  (forall j, (j < m)%nat -> pd j p (dp j)) -> (forall j, (j < m)%nat -> Ex m (dp j) (g j)) ->
  (forall j k, (j < m)%nat -> (k < m)%nat -> pd k (dp j) (ddp j k)) -> (forall j k, (j < m)%nat -> (k < m)%nat -> Ex m (ddp j k) (h j k)) ->
  (forall i k, (i < m)%nat -> (k < m)%nat -> H i k = H k i) ->
  let cost c b H := sumf q (fun r => w.[r, 0%nat] * ((f.[r, 0%nat] - quadratic m c b H (fun k => x.[r, k])) * (f.[r, 0%nat] - quadratic m c b H (fun k => x.[r, k])))) in
  (forall c' b' H', cost c b H <= cost c' b' H') ->
  (forall j, (j < m)%nat -> b j = g j) /\ (forall j k, (j < m)%nat -> (k < m)%nat -> H j k = h j k).
Proof.
  intros m q N x w f p dp ddp g h c b H HX Hw Hp Hf Hdp Hg Hddp Hh HS cost Hmin.
  set (N2 := Nat.max N 2) in *.
  set (res := fun y => p y - quadratic m c b H y).
  assert (Pr : is_poly m N2 res).
  { apply (is_poly_ext m _ (fun y => p y + -1 * quadratic m c b H y)); [intros; unfold res; ring|].
    apply is_poly_plus; [apply (is_poly_le m N); [unfold N2; lia|exact Hp]|]. apply is_poly_scal. apply (is_poly_le m 2); [unfold N2; lia|apply poly_quadratic]. }
  assert (NE : forall (dc : R) (db : nat -> R) (dH : nat -> nat -> R), 
     sumf q (fun r => w.[r, 0%nat] * (res (fun k => x.[r, k]) * quadratic m dc db dH (fun k => x.[r, k]))) = 0).
  { intros dc db dH. apply (normal_eq q (fun r => w.[r, 0%nat]) (fun r => res (fun k => x.[r, k])) (fun r => quadratic m dc db dH (fun k => x.[r, k]))); auto.
    intros t. eapply Rle_trans; [|eapply Rle_trans; [exact (Hmin (c - t * dc) (fun k => b k - t * db k) (fun i k => H i k - t * dH i k))|]]; right; unfold cost; apply sumf_ext; intros r Hr; rewrite Hf by auto; unfold res; [ring|].
    replace (quadratic m (c - t * dc) (fun k => b k - t * db k) (fun i k => H i k - t * dH i k) (fun k => x.[r, k]))
      with (quadratic m c b H (fun k => x.[r, k]) - t * quadratic m dc db dH (fun k => x.[r, k])); [ring|].
    unfold quadratic.
    rewrite (sumf_ext m (fun i => (b i - t * db i) * x.[r, i]) (fun i => b i * x.[r, i] + - t * (db i * x.[r, i]))) by (intros; ring).
    rewrite (sumf_ext m (fun i => sumf m (fun k => (H i k - t * dH i k) * x.[r, i] * x.[r, k])) (fun i => sumf m (fun k => H i k * x.[r, i] * x.[r, k]) + - t * sumf m (fun k => dH i k * x.[r, i] * x.[r, k]))).
    2: { intros i Hi. rewrite <- sumf_scal_l, <- sumf_plus. apply sumf_ext. intros; ring. }
    rewrite !sumf_plus, !sumf_scal_l. ring. }
  assert (D1 : forall j, (j < m)%nat -> pd j res (fun y => dp j y - quadratic_gradient m b H y j)).
  { intros j Hj. apply (pd_minus j p (dp j) (quadratic m c b H) (fun y => quadratic_gradient m b H y j)); [auto|now apply pd_quadratic]. }
  assert (D2 : forall j k, (j < m)%nat -> (k < m)%nat -> pd k (fun y => dp j y - quadratic_gradient m b H y j) (fun y => ddp j k y - H j k)).
  { intros j k Hj Hk. apply (pd_minus k (dp j) (ddp j k) (fun y => quadratic_gradient m b H y j) (fun _ => H j k)); [auto|]. unfold quadratic_gradient. now apply (pd_linear m (b j) (fun l => H j l) k). }
  assert (M1 : forall j, (j < m)%nat -> Ex m (fun y => dp j y - quadratic_gradient m b H y j) (g j - b j)).
  { intros j Hj. apply (ex_minus m (dp j)); [auto|]. unfold quadratic_gradient.
    assert (A : Ex m (fun y => b j + sumf m (fun k => H j k * y k)) (b j + sumf m (fun k => H j k * 0))).
    { apply (ex_plus m (fun _ => b j)); [apply ex_const|]. apply (ex_sum m m (fun k y => H j k * y k) (fun k => H j k * 0)). intros k Hk. apply ex_scal. now apply ex_var. }
    rewrite (sumf_zero m (fun k => H j k * 0)), Rplus_0_r in A by (intros; ring). exact A. }
  assert (M2 : forall j k, (j < m)%nat -> (k < m)%nat -> Ex m (fun y => ddp j k y - H j k) (h j k - H j k)).
  { intros j k Hj Hk. apply (ex_minus m (ddp j k)); [auto|apply ex_const]. }
  (* mean residual *)
  assert (R0 : Ex m res 0).
  { assert (A := HX res (is_poly_le m N2 (2 + N2) res ltac:(lia) Pr)). 
    assert (Z := NE 1 (fun _ => 0) (fun _ _ => 0)).
    rewrite (sumf_ext q _ (fun r => w.[r, 0%nat] * res (fun k => x.[r, k]))) in Z; [rewrite Z in A; exact A|].
    intros r Hr. unfold quadratic. rewrite (sumf_zero m (fun i => 0 * x.[r, i])) by (intros; ring).
    rewrite (sumf_zero m (fun i => sumf m (fun k => 0 * x.[r, i] * x.[r, k]))) by (intros; apply sumf_zero; intros; ring). ring. }
  assert (BG : forall j, (j < m)%nat -> b j = g j).
  { intros j Hj. assert (S1 := stein m _ res _ j _ Hj Pr (D1 j Hj) (M1 j Hj)).
    assert (Z : g j - b j = 0); [|lra].
    apply (rule_residual m q (2 + N2) x w (fun y => y j * res y)); auto.
    { apply (is_poly_le m (1 + N2)); [lia|]. apply (is_poly_mult m 1 N2 (fun y => y j) res); [apply is_poly_var; auto|exact Pr]. }
    rewrite <- (NE 0 (fun k => if Nat.eqb k j then 1 else 0) (fun _ _ => 0)). apply sumf_ext. intros r Hr. unfold quadratic.
    rewrite (sumf_ite m j (fun k => x.[r, k]) Hj), (sumf_zero m (fun i => sumf m (fun k => 0 * x.[r, i] * x.[r, k]))) by (intros; apply sumf_zero; intros; ring). ring. }
  split; [exact BG|]. intros j k Hj Hk.
  (* x_k (x_j res) *)
  assert (D3 : pd k (fun y => y j * res y) (fun y => (if Nat.eqb j k then 1 else 0) * res y + y j * (dp k y - quadratic_gradient m b H y k))).
  { intros y. eapply D_eq; [apply (D_mult (fun t => upd y k t j) (fun t => res (upd y k t))); [apply upd_path|apply D1; auto]|]. cbv beta.
    rewrite upd_at. replace (upd y k (y k)) with y; [ring|]. symmetry. apply functional_extensionality. intros i. apply upd_at. }
  assert (M3 : Ex m (fun y => (if Nat.eqb j k then 1 else 0) * res y + y j * (dp k y - quadratic_gradient m b H y k)) ((if Nat.eqb j k then 1 else 0) * 0 + (h k j - H k j))).
  { apply (ex_plus m (fun y => (if Nat.eqb j k then 1 else 0) * res y)); [now apply ex_scal|].
    apply (stein m (pred N2) (fun y => dp k y - quadratic_gradient m b H y k) (fun y => ddp k j y - H k j)); auto.
    apply (pd_poly m N2 res k); auto. }
  assert (P3 : is_poly m (1 + N2) (fun y => y j * res y)) by (apply (is_poly_mult m 1 N2 (fun y => y j) res); [apply is_poly_var; auto|exact Pr]).
  assert (S3 := stein m _ _ _ k _ Hk P3 D3 M3).
  assert (Z : (if Nat.eqb j k then 1 else 0) * 0 + (h k j - H k j) = 0).
  { apply (rule_residual m q (2 + N2) x w (fun y => y k * (y j * res y))); auto.
    { apply (is_poly_mult m 1 (1 + N2) (fun y => y k) (fun y => y j * res y)); [apply is_poly_var; auto|exact P3]. }
    rewrite <- (NE 0 (fun _ => 0) (fun i l => 2 * ((if Nat.eqb i j then 1 else 0) * (if Nat.eqb l k then 1 else 0)))). apply sumf_ext. intros r Hr. unfold quadratic.
    rewrite (sumf_zero m (fun i => 0 * x.[r, i])) by (intros; ring).
    rewrite (sumf_ext m _ (fun i => (if Nat.eqb i j then 1 else 0) * (2 * x.[r, i] * x.[r, k]))).
    2: { intros i Hi. rewrite (sumf_ext m _ (fun l => (if Nat.eqb l k then 1 else 0) * (2 * (if Nat.eqb i j then 1 else 0) * x.[r, i] * x.[r, l]))) by (intros; ring).
         rewrite (sumf_ite m k (fun l => 2 * (if Nat.eqb i j then 1 else 0) * x.[r, i] * x.[r, l]) Hk). ring. }
    rewrite (sumf_ite m j (fun i => 2 * x.[r, i] * x.[r, k]) Hj). field. }
  rewrite (HS j k Hj Hk). rewrite Rmult_0_r in Z.
  (* the mean Hessian is symmetric as the fit's is *)
  assert (HK : H k j = h k j) by lra.
  (* repeat with j and k exchanged *)
  assert (D4 : pd j (fun y => y k * res y) (fun y => (if Nat.eqb k j then 1 else 0) * res y + y k * (dp j y - quadratic_gradient m b H y j))).
  { intros y. eapply D_eq; [apply (D_mult (fun t => upd y j t k) (fun t => res (upd y j t))); [apply upd_path|apply D1; auto]|]. cbv beta.
    rewrite upd_at. replace (upd y j (y j)) with y; [ring|]. symmetry. apply functional_extensionality. intros i. apply upd_at. }
  assert (M4 : Ex m (fun y => (if Nat.eqb k j then 1 else 0) * res y + y k * (dp j y - quadratic_gradient m b H y j)) ((if Nat.eqb k j then 1 else 0) * 0 + (h j k - H j k))).
  { apply (ex_plus m (fun y => (if Nat.eqb k j then 1 else 0) * res y)); [now apply ex_scal|].
    apply (stein m (pred N2) (fun y => dp j y - quadratic_gradient m b H y j) (fun y => ddp j k y - H j k)); auto.
    apply (pd_poly m N2 res j); auto. }
  assert (P4 : is_poly m (1 + N2) (fun y => y k * res y)) by (apply (is_poly_mult m 1 N2 (fun y => y k) res); [apply is_poly_var; auto|exact Pr]).
  assert (S4 := stein m _ _ _ j _ Hj P4 D4 M4).
  assert (EQ := ex_unique m _ _ _ S3 (ex_ext m (fun y => y j * (y k * res y)) (fun y => y k * (y j * res y)) _ ltac:(intros; cbv beta; ring) S4)).
  rewrite !Rmult_0_r in EQ. rewrite (HS j k Hj Hk) in EQ. lra.
Qed.

(** some point of an exact rule lies beyond 1 *)
Lemma beyond_one : forall m q x w, (1 <= m)%nat -> exact_rule m q 5 x w -> (forall r, (r < q)%nat -> 0 <= w.[r, 0%nat]) ->
  exists r i, (r < q)%nat /\ (i < m)%nat /\ 1 < x.[r, i].
Proof.
  intros m q x w Hm HX Hw.
  assert (DEC : (exists r, (r < q)%nat /\ 1 < x.[r, 0%nat]) \/ forall r, (r < q)%nat -> x.[r, 0%nat] <= 1).
  { clear. induction q; [right; intros; lia|]. destruct IHq as [(r & Hr & H)|IH]; [left; exists r; split; auto; lia|].
    destruct (Rlt_dec 1 (x.[q, 0%nat])) as [L|L]; [left; exists q; split; auto|]. right. intros r Hr.
    destruct (Nat.eq_dec r q) as [->|]; [lra|apply IH; lia]. }
  destruct DEC as [(r & Hr & H)|C]; [exists r, 0%nat; auto|]. exfalso.
  set (g := fun y : nat -> R => 4 * y 0%nat ^ 2 + -3 * y 0%nat ^ 4 + -1 * y 0%nat ^ 5).
  assert (Pg : is_poly m 5 g).
  { assert (V : forall k, (k <= 5)%nat -> is_poly m 5 (fun y => y 0%nat ^ k)).
    { intros k Hk. apply (is_poly_le m (k * 1)); [lia|]. apply is_poly_pow. apply is_poly_var. lia. }
    unfold g. apply is_poly_plus; [apply is_poly_plus|]; apply is_poly_scal; apply V; lia. }
  assert (A := HX g Pg).
  assert (B : Ex m g (4 * mom 2 + -3 * mom 4 + -1 * mom 5)) by (unfold g; apply ex_plus; [apply ex_plus|]; apply ex_scal; apply ex_pow; lia).
  rewrite mom_2, mom_4, mom_5 in B. assert (E := ex_unique _ _ _ _ A B).
  assert (P : 0 <= sumf q (fun r => w.[r, 0%nat] * g (fun k => x.[r, k]))).
  { apply sumf_nonneg. intros r Hr. apply Rmult_le_pos; auto. unfold g. specialize (C r Hr).
    replace (4 * x.[r, 0%nat] ^ 2 + -3 * x.[r, 0%nat] ^ 4 + -1 * x.[r, 0%nat] ^ 5) with ((1 - x.[r, 0%nat]) * ((x.[r, 0%nat] * (x.[r, 0%nat] + 2)) * (x.[r, 0%nat] * (x.[r, 0%nat] + 2)))) by ring.
    apply Rmult_le_pos; [lra|apply Rle_0_sqr]. }
  lra.
Qed.
Lemma quadC_quad : forall m gamma b H x, quad m (quadC m gamma b H) x
  = sumf m (fun i => x i * b i) ^ 2 + gamma * sumf m (fun l => sumf m (fun i => x i * H i l) ^ 2).
Proof.
  intros m gamma b H x. unfold quad, quadC. symmetry. rewrite <- Rsqr_pow2. unfold Rsqr. rewrite sumf_mul.
  rewrite (sumf_ext m (fun l => sumf m (fun i => x i * H i l) ^ 2) (fun l => sumf m (fun i => sumf m (fun k => x i * H i l * (x k * H k l))))).
  2: { intros l Hl. rewrite <- sumf_mul. ring. }
  rewrite (sumf_swap m m (fun l i => sumf m (fun k => x i * H i l * (x k * H k l)))). rewrite <- sumf_scal_l, <- sumf_plus. apply sumf_ext. intros i Hi.
  rewrite (sumf_swap m m (fun l k => x i * H i l * (x k * H k l))). rewrite <- sumf_scal_l, <- sumf_plus. apply sumf_ext. intros k Hk.
  rewrite (sumf_ext m (fun l => x i * H i l * (x k * H k l)) (fun l => x i * x k * (H i l * H k l))) by (intros; ring). rewrite sumf_scal_l. ring.
Qed.
Lemma quadC_psd : forall m gamma b H, 0 <= gamma -> psd m (quadC m gamma b H).
Proof.
  intros m gamma b H Hg x. rewrite quadC_quad. apply Rplus_le_le_0_compat; [apply pow2_ge_0|].
  apply Rmult_le_pos; auto. apply sumf_nonneg. intros. apply pow2_ge_0.
Qed.

(** ** the Gauss-Hermite points *)
Lemma hermite_rule : forall eig argsort l D x w, eig_contract eig -> eig_total eig -> argsort_contract argsort -> Forall (fun n => 1 <= n <= 10 ^ 24)%Z l ->
  (forall k, (k < List.length l)%nat -> (D < 2 * Z.to_nat (nth k l 0%Z))%nat) -> gauss_hermite eig argsort (NList l) = Ok (x, w) ->
  shape x = [nrows x; List.length l] /\ shape w = [nrows x; 1%nat] /\ (forall r, (r < nrows x)%nat -> 0 < w.[r, 0%nat]) /\ exact_rule (List.length l) (nrows x) D x w.
Proof.
  intros eig argsort l D x w HI HIT HA HL HD H.
  destruct (C84_hermite_cubature eig argsort l D (fun _ => 0) x w HI HIT HA HL HD (is_poly_const _ D 0) H) as (q & Sx & Sw & P & _).
  assert (NR : nrows x = q) by (unfold nrows; now rewrite Sx). rewrite NR. repeat split; auto.
  intros g Hg. destruct (C84_hermite_cubature eig argsort l D g x w HI HIT HA HL HD Hg H) as (q' & Sx' & _ & _ & R). rewrite Sx in Sx'. inversion Sx'; subst q'. exact R.
Qed.

(** ** C86 *)
(** compute(X=x, f=f, weights=w, sstype='OLS') on Gauss-Hermite points x, w with
    f the values of a polynomial p: the one nonzero eigenvalue is the squared
    length of the mean gradient of p, and its eigenvector points along it.
    No derivative of p is ever given to the code. *)
Theorem C86_ols_mean_gradient : forall eigh eig argsort lstsq norm2 det (Gn : gen) (U : Type) l N p dp g x w f ptype nboot (ws ws' : world Gn U (nd R) * subspaces),
  eigh_contract eigh -> eig_contract eig -> eig_total eig -> argsort_contract argsort -> lstsq_contract lstsq ->
  let m := List.length l in
  Forall (fun n => 2 <= n <= 10 ^ 24)%Z l -> (forall k, (k < m)%nat -> (N + 1 < 2 * Z.to_nat (nth k l 0%Z))%nat) ->
  is_poly m N p -> (forall j, (j < m)%nat -> pd j p (dp j)) -> (forall j, (j < m)%nat -> mean_nd gaussian_mean m (dp j) (g j)) ->
  gauss_hermite eig argsort (NList l) = Ok (x, w) -> shape f = [nrows x; 1%nat] -> (forall r, (r < nrows x)%nat -> f.[r, 0%nat] = p (fun k => x.[r, k])) ->
  ss_compute eigh argsort lstsq norm2 det (Some x) (Some f) None (Some w) "OLS" ptype nboot ws = (Ok tt, ws') ->
  exists e V, s_eigenvals (snd ws') = Some e /\ s_eigenvecs (snd ws') = Some V /\ shape e = [m; 1%nat] /\ shape V = [m; m] /\
    e.[0%nat, 0%nat] = sumf m (fun i => g i * g i) /\ (forall j, (1 <= j)%nat -> (j < m)%nat -> e.[j, 0%nat] = 0) /\
    (sumf m (fun i => g i * g i) <> 0 -> exists s, (s = 1 \/ s = -1) /\ forall i, (i < m)%nat -> V.[i, 0%nat] = s * (g i / sqrt (sumf m (fun i => g i * g i)))).
Proof.
  intros eigh eig argsort lstsq norm2 det Gn U l N p dp g x w f ptype nboot ws ws' HE HI HIT HA HLS m HL HD Hp Hdp Hg H Sf Hf HC.
  assert (HL1 : Forall (fun n => 1 <= n <= 10 ^ 24)%Z l) by (eapply Forall_impl; [|exact HL]; cbv beta; intros; lia).
  destruct (hermite_rule eig argsort l (S (Nat.max N 1)) x w HI HIT HA HL1) as (Sx & Sw & Pw & EX); auto.
  { intros k Hk. specialize (HD k Hk). rewrite Forall_forall in HL. assert (A := HL (nth k l 0%Z) (nth_In l 0%Z Hk)). lia. }
  fold m in Sx, EX.
  destruct (C53_methods eigh argsort lstsq norm2 det Gn U (Some x) (Some f) None (Some w) "OLS" ptype nboot ws ws' HE HA HC)
    as (M & m' & e & V & Sx' & Ee & EV & [(Q & _)|(x' & f' & Ex' & Ef' & [(_ & EO)|[(Q & _)|(Q & _)]])]); try discriminate.
  inversion Ex'; subst x'. inversion Ef'; subst f'.
  destruct (ols_subspace_spec eigh argsort lstsq HE HA HLS (nrows x) m x f w e V Sx Sf Sw ltac:(intros; left; auto) EO) as (a & b & lam & Hmin & L).
  assert (BG := linear_fit m (nrows x) N x w f p dp g a b EX ltac:(intros; left; auto) Hp Hf Hdp Hg Hmin).
  destruct (rank_one m b e V lam L) as (R1 & R2 & R3).
  assert (SB : dot m b b = sumf m (fun i => g i * g i)) by (apply sumf_ext; intros i Hi; now rewrite BG).
  rewrite SB in R1, R3. exists e, V. split; [exact Ee|]. split; [exact EV|]. split; [apply (es_e _ _ _ _ _ L)|]. split; [apply (es_V _ _ _ _ _ L)|].
  split; [exact R1|]. split; [exact R2|]. intros NZ. destruct (R3 NZ) as (s & Hs & Vs). exists s. split; auto. intros i Hi. rewrite Vs, BG by auto. reflexivity.
Qed.
Print Assumptions C86_ols_mean_gradient.

(** compute(X=x, f=f, weights=v, sstype='QPHD') with v the square roots of the
    Gauss-Hermite weights: the eigenpairs of g g^T + H H^T for the mean gradient
    g and the mean Hessian H of p.  Again only values of p are used. *)
Theorem C86_qphd_mean_hessian : forall eigh eig argsort lstsq norm2 det (Gn : gen) (U : Type) l N p dp ddp g h x w v f ptype nboot (ws ws' : world Gn U (nd R) * subspaces),
  eigh_contract eigh -> eig_contract eig -> eig_total eig -> argsort_contract argsort -> lstsq_contract lstsq ->
  let m := List.length l in
  Forall (fun n => 3 <= n <= 10 ^ 24)%Z l -> (forall k, (k < m)%nat -> (N + 2 < 2 * Z.to_nat (nth k l 0%Z))%nat) ->
  is_poly m N p -> (forall j, (j < m)%nat -> pd j p (dp j)) -> (forall j, (j < m)%nat -> mean_nd gaussian_mean m (dp j) (g j)) ->
  (forall j k, (j < m)%nat -> (k < m)%nat -> pd k (dp j) (ddp j k)) -> (forall j k, (j < m)%nat -> (k < m)%nat -> mean_nd gaussian_mean m (ddp j k) (h j k)) ->
  gauss_hermite eig argsort (NList l) = Ok (x, w) -> shape f = [nrows x; 1%nat] -> (forall r, (r < nrows x)%nat -> f.[r, 0%nat] = p (fun k => x.[r, k])) ->
  shape v = [nrows x; 1%nat] -> (forall r, (r < nrows x)%nat -> v.[r, 0%nat] * v.[r, 0%nat] = w.[r, 0%nat]) ->
  ss_compute eigh argsort lstsq norm2 det (Some x) (Some f) None (Some v) "QPHD" ptype nboot ws = (Ok tt, ws') ->
  exists e V, s_eigenvals (snd ws') = Some e /\ s_eigenvecs (snd ws') = Some V /\ shape e = [m; 1%nat] /\ shape V = [m; m] /\ orthonormal m m (ent V) /\
    (forall i j, (i <= j)%nat -> (j < m)%nat -> e.[j, 0%nat] <= e.[i, 0%nat]) /\
    (forall i j, (i < m)%nat -> (j < m)%nat -> sumf m (fun k => (g i * g k + sumf m (fun t => h i t * h k t)) * V.[k, j]) = e.[j, 0%nat] * V.[i, j]) /\
    (forall j, (j < m)%nat -> e.[j, 0%nat] = (sumf m (fun i => V.[i, j] * g i)) ^ 2 + sumf m (fun t => (sumf m (fun i => V.[i, j] * h i t)) ^ 2)).
Proof.
  intros eigh eig argsort lstsq norm2 det Gn U l N p dp ddp g h x w v f ptype nboot ws ws' HE HI HIT HA HLS m HL HD Hp Hdp Hg Hddp Hh H Sf Hf Sv Hv HC.
  assert (HL1 : Forall (fun n => 1 <= n <= 10 ^ 24)%Z l) by (eapply Forall_impl; [|exact HL]; cbv beta; intros; lia).
  assert (H3 : forall k, (k < m)%nat -> (3 <= nth k l 0)%Z) by (intros k Hk; rewrite Forall_forall in HL; assert (A := HL (nth k l 0%Z) (nth_In l 0%Z Hk)); lia).
  destruct (hermite_rule eig argsort l (2 + Nat.max N 2) x w HI HIT HA HL1) as (Sx & Sw & Pw & EX); auto.
  { intros k Hk. specialize (HD k Hk). specialize (H3 k Hk). lia. }
  destruct (hermite_rule eig argsort l 5 x w HI HIT HA HL1) as (_ & _ & _ & EX5); auto.
  { intros k Hk. specialize (H3 k Hk). lia. }
  fold m in Sx, EX, EX5.
  destruct (C53_methods eigh argsort lstsq norm2 det Gn U (Some x) (Some f) None (Some v) "QPHD" ptype nboot ws ws' HE HA HC)
    as (M & m' & e & V & Sx' & Ee & EV & [(Q & _)|(x' & f' & Ex' & Ef' & [(Q & _)|[(_ & EO)|(Q & _)]])]); try discriminate.
  inversion Ex'; subst x'. inversion Ef'; subst f'.
  destruct (qphd_subspace_spec eigh argsort lstsq HE HA HLS (nrows x) m x f v e V Sx Sf Sv EO) as (c & b & A & gam & lam & SA & Hmin & (G1 & _) & L).
  assert (Hm := es_m _ _ _ _ _ L).
  rewrite (G1 (beyond_one m (nrows x) x w Hm EX5 ltac:(intros; left; auto))) in L. clear G1.
  assert (EC : forall c b A, wq (nrows x) m x f v c b A = sumf (nrows x) (fun r => w.[r, 0%nat] * ((f.[r, 0%nat] - quadratic m c b A (fun k => x.[r, k])) * (f.[r, 0%nat] - quadratic m c b A (fun k => x.[r, k]))))).
  { intros c0 b0 A0. unfold wq. apply sumf_ext. intros r Hr. rewrite <- (Hv r Hr). unfold qmodel, quadratic. ring. }
  destruct (quadratic_fit m (nrows x) N x w f p dp ddp g h c b A EX ltac:(intros; left; auto) Hp Hf Hdp Hg Hddp Hh SA) as (BG & AH).
  { intros c' b' H'. rewrite <- !EC. apply Hmin. }
  assert (L' : eigsorted m (quadC m 1 g h) e V lam).
  { apply (eigsorted_ext m (quadC m 1 b A)); auto. intros i k Hi Hk. unfold quadC. rewrite !BG by auto. do 2 f_equal. apply sumf_ext. intros t Ht. now rewrite !AH by auto. }
  assert (PS := quadC_psd m 1 g h Rle_0_1).
  assert (EE := eigsorted_psd_eig _ _ _ _ _ L' PS).
  exists e, V. split; [exact Ee|]. split; [exact EV|]. split; [apply (es_e _ _ _ _ _ L)|]. split; [apply (es_V _ _ _ _ _ L)|]. split; [apply (es_orth _ _ _ _ _ L)|].
  split; [apply (es_dec _ _ _ _ _ L)|]. split.
  - intros i j Hi Hj. eapply eq_trans; [|exact (EE i j Hi Hj)]. apply sumf_ext. intros k Hk. unfold quadC, ent. ring.
  - intros j Hj. assert (QE := quad_eigvec m _ _ _ (es_orth _ _ _ _ _ L') EE j Hj). rewrite quadC_quad, Rmult_1_l in QE. symmetry. exact QE.
Qed.
Print Assumptions C86_qphd_mean_hessian.

(** *** the calls return *)
Lemma fit_compute_returns : forall eigh argsort lstsq norm2 det (Gn : gen) (U : Type) M m sstype x f w e V (ws : world Gn U (nd R) * subspaces),
  (2 <= m)%nat -> shape x = [M; m] -> shape e = [m; 1%nat] -> shape V = [m; m] ->
  ssmethod eigh argsort lstsq sstype (Some x) (Some f) None w (fst ws) = (Ok (e, V), fst ws) ->
  exists ws', ss_compute eigh argsort lstsq norm2 det (Some x) (Some f) None (Some w) sstype "EVG" 0 ws = (Ok tt, ws').
Proof.
  intros eigh argsort lstsq norm2 det Gn U M m sstype x f w e V [w0 s] Hm Sx Se SV EM.
  unfold ss_compute. rewrite (process_inputs_eq _ x M m Sx). cbn [rbind]. unfold mlift at 1, mbind at 1.
  unfold liftW at 1, mbind at 1. cbn [fst snd] in EM |- *. rewrite EM.
  unfold mbind at 1, getS at 1. cbn [snd fst]. unfold mbind at 1, setS at 1. cbn [snd fst].
  unfold mbind at 1. cbn [Z.ltb Z.compare String.eqb Ascii.eqb Bool.eqb orb]. unfold mret at 1.
  unfold mbind at 1, getS at 1. cbn [snd fst]. unfold mbind at 1, setS at 1. cbn [snd fst s_eigenvals s_eigenvecs s_W1 s_W2].
  destruct (eig_partition_eq m e Se Hm) as (k & ed & EP & _ & _ & K1 & _).
  unfold mlift at 1, choose_dim. cbn [String.eqb Ascii.eqb Bool.eqb]. rewrite EP. cbn [rbind]. unfold mbind at 1.
  apply ss_partition_iff. eexists. exists V. cbn [snd s_eigenvecs]. split; [reflexivity|]. split; auto. rewrite (nrows_shape2 _ V m m SV). lia.
Qed.

Lemma binom_two : forall m, (binom (2 + m) 2 <= 3 ^ m)%nat.
Proof.
  induction m; [simpl; lia|]. replace (2 + S m)%nat with (S (2 + m)) by lia.
  assert (A : binom (S (2 + m)) 2 = (binom (2 + m) 1 + binom (2 + m) 2)%nat) by reflexivity. rewrite A.
  assert (B : forall n, binom n 1 = n) by (induction n as [|n IH]; [reflexivity|]; change (binom (S n) 1) with (binom n 0 + binom n 1)%nat; rewrite IH; destruct n; reflexivity).
  rewrite B. cbn [Nat.pow]. assert (m < 3 ^ m)%nat by (apply Nat.pow_gt_lin_r; lia). lia.
Qed.
Lemma prodn_three : forall l, Forall (fun n => 3 <= n)%Z l -> (3 ^ List.length l <= prodn (map Z.to_nat l))%nat.
Proof.
  induction l as [|n l IH]; intros HF; [cbn; lia|]. inversion HF; subst. cbn [List.length Nat.pow map prodn fold_right]. specialize (IH H2).
  apply Nat.mul_le_mono; [lia|exact IH].
Qed.

(** with at least three points in each direction both methods return *)
Theorem C86_returns : forall eigh eig argsort lstsq norm2 det (Gn : gen) (U : Type) l x w v f sstype (ws : world Gn U (nd R) * subspaces),
  eigh_contract eigh -> eigh_total eigh -> eig_contract eig -> eig_total eig -> argsort_contract argsort -> lstsq_contract lstsq -> lstsq_total lstsq ->
  (2 <= List.length l)%nat -> Forall (fun n => 3 <= n <= 10 ^ 24)%Z l ->
  gauss_hermite eig argsort (NList l) = Ok (x, w) -> shape f = [nrows x; 1%nat] -> shape v = [nrows x; 1%nat] -> (forall r, (r < nrows x)%nat -> 0 <= v.[r, 0%nat]) ->
  sstype = "OLS"%string \/ sstype = "QPHD"%string ->
  exists ws', ss_compute eigh argsort lstsq norm2 det (Some x) (Some f) None (Some v) sstype "EVG" 0 ws = (Ok tt, ws').
Proof.
  intros eigh eig argsort lstsq norm2 det Gn U l x w v f sstype ws HE HET HI HIT HA HLS HLT Hm HL H Sf Sv Hv HS.
  assert (HL1 : Forall (fun n => 1 <= n)%Z l) by (eapply Forall_impl; [|exact HL]; cbv beta; intros; lia).
  destruct (C31_gauss_hermite_tensor eig argsort l HI HIT HA HL1) as (x' & w' & E' & Sx & _). rewrite H in E'. inversion E'; subst x' w'. clear E'.
  assert (NR : nrows x = prodn (map Z.to_nat l)) by (unfold nrows; now rewrite Sx). rewrite <- NR in Sx.
  assert (NB : (binom (2 + List.length l) (List.length l) <= nrows x)%nat).
  { rewrite NR. cbn [Nat.add]. rewrite binom_sym2. eapply Nat.le_trans; [apply binom_two|]. apply prodn_three. eapply Forall_impl; [|exact HL]; cbv beta; intros; lia. }
  destruct HS as [-> | ->].
  - destruct (ols_subspace_returns eigh argsort lstsq HE HLS (nrows x) (List.length l) x f v HLT HET ltac:(lia) Sx Sf Sv) as ((e & V) & EO).
    destruct (ols_subspace_spec eigh argsort lstsq HE HA HLS (nrows x) _ x f v e V Sx Sf Sv Hv EO) as (a & b & lam & _ & L).
    apply (fit_compute_returns eigh argsort lstsq norm2 det Gn U (nrows x) (List.length l) "OLS" x f v e V ws Hm Sx (es_e _ _ _ _ _ L) (es_V _ _ _ _ _ L)).
    unfold ssmethod. cbn [String.eqb Ascii.eqb Bool.eqb]. unfold mlift. now rewrite EO.
  - destruct (qphd_subspace_returns eigh argsort lstsq HE HLS (nrows x) (List.length l) x f v HLT HET ltac:(lia) Sx Sf Sv NB) as ((e & V) & EO).
    destruct (qphd_subspace_spec eigh argsort lstsq HE HA HLS (nrows x) _ x f v e V Sx Sf Sv EO) as (c & b & A & gam & lam & _ & _ & _ & L).
    apply (fit_compute_returns eigh argsort lstsq norm2 det Gn U (nrows x) (List.length l) "QPHD" x f v e V ws Hm Sx (es_e _ _ _ _ _ L) (es_V _ _ _ _ _ L)).
    unfold ssmethod. cbn [String.eqb Ascii.eqb Bool.eqb]. unfold mlift. now rewrite EO.
Qed.
Print Assumptions C86_returns.

(** p(x, y) = x^2 y + y + x y on the 3-by-3 points: mean gradient (0, 2), mean
    Hessian [[0, 1]; [1, 0]] *)
Definition p86 (y : nat -> R) : R := y 0%nat ^ 2 * y 1%nat + y 1%nat + y 0%nat * y 1%nat.
Definition dp86 (j : nat) (y : nat -> R) : R := match j with O => 2 * y 0%nat * y 1%nat + y 1%nat | _ => y 0%nat ^ 2 + 1 + y 0%nat end.
Definition ddp86 (j k : nat) (y : nat -> R) : R :=
  match j, k with O, O => 2 * y 1%nat | O, _ => 2 * y 0%nat + 1 | _, O => 2 * y 0%nat + 1 | _, _ => 0 end.
Definition g86 (j : nat) : R := match j with O => 0 | _ => 2 end.
Definition h86 (j k : nat) : R := match j, k with O, O => 0 | O, _ => 1 | _, O => 1 | _, _ => 0 end.
Lemma p86_poly : is_poly 2 3 p86.
Proof.
  assert (V0 : is_poly 2 1 (fun y => y 0%nat)) by (apply is_poly_var; lia). assert (V1 : is_poly 2 1 (fun y => y 1%nat)) by (apply is_poly_var; lia).
  unfold p86. apply is_poly_plus; [apply is_poly_plus|].
  - apply (is_poly_mult 2 2 1 (fun y => y 0%nat ^ 2) (fun y => y 1%nat)); auto. apply (is_poly_pow 2 1 (fun y => y 0%nat) 2). auto.
  - apply (is_poly_le 2 1); auto.
  - apply (is_poly_le 2 (1 + 1)); auto. apply (is_poly_mult 2 1 1 (fun y => y 0%nat) (fun y => y 1%nat)); auto.
Qed.
Lemma p86_pd : forall j, (j < 2)%nat -> pd j p86 (dp86 j).
Proof.
  intros [|[|j]] Hj; try lia; intros x; unfold p86, dp86, upd; cbn [Nat.eqb].
  - eapply D_eq; [apply D_plus; [apply D_plus; [apply D_mult; [apply D_pow, D_id|apply D_const]|apply D_const]|apply D_mult; [apply D_id|apply D_const]]|]. cbv beta. simpl. ring.
  - eapply D_eq; [apply D_plus; [apply D_plus; [apply D_mult; [apply D_const|apply D_id]|apply D_id]|apply D_mult; [apply D_const|apply D_id]]|]. cbv beta. ring.
Qed.
Lemma p86_pd2 : forall j k, (j < 2)%nat -> (k < 2)%nat -> pd k (dp86 j) (ddp86 j k).
Proof.
  intros [|[|j]] [|[|k]] Hj Hk; try lia; intros x; unfold dp86, ddp86, upd; cbn [Nat.eqb].
  - eapply D_eq; [apply D_plus; [apply D_mult; [apply D_mult; [apply D_const|apply D_id]|apply D_const]|apply D_const]|]. cbv beta. ring.
  - eapply D_eq; [apply D_plus; [apply D_mult; [apply D_const|apply D_id]|apply D_id]|]. cbv beta. ring.
  - eapply D_eq; [apply D_plus; [apply D_plus; [apply D_pow, D_id|apply D_const]|apply D_id]|]. cbv beta. simpl. ring.
  - apply D_const.
Qed.
Lemma p86_mean : forall j, (j < 2)%nat -> mean_nd gaussian_mean 2 (dp86 j) (g86 j).
Proof.
  assert (E0 := ex_var 2 0 ltac:(lia)). assert (E1 := ex_var 2 1 ltac:(lia)).
  intros [|[|j]] Hj; try lia; unfold dp86, g86.
  - assert (A : Ex 2 (fun x => x 0%nat * x 1%nat) 0).
    { apply (stein 2 1 (fun x => x 1%nat) (fun _ => 0)); [lia|apply is_poly_var; lia| |apply ex_const]. intros x. unfold upd. cbn [Nat.eqb]. apply D_const. }
    assert (B := ex_lin 2 _ _ _ _ 2 E1 A). replace (0 + 2 * 0) with 0 in B by ring. eapply ex_ext; [|exact B]. intros x. cbv beta. ring.
  - assert (A := ex_pow 2 0 2 ltac:(lia)). rewrite mom_2 in A.
    assert (B := ex_plus 2 _ _ _ _ (ex_plus 2 _ _ _ _ A (ex_const 2 1)) E0). replace (1 + 1 + 0) with 2 in B by ring. exact B.
Qed.
Lemma p86_mean2 : forall j k, (j < 2)%nat -> (k < 2)%nat -> mean_nd gaussian_mean 2 (ddp86 j k) (h86 j k).
Proof.
  assert (E0 := ex_var 2 0 ltac:(lia)). assert (E1 := ex_var 2 1 ltac:(lia)).
  assert (M : Ex 2 (fun x => 2 * x 0%nat + 1) 1) by (assert (B := ex_plus 2 _ _ _ _ (ex_scal 2 _ _ 2 E0) (ex_const 2 1)); replace (2 * 0 + 1) with 1 in B by ring; exact B).
  intros [|[|j]] [|[|k]] Hj Hk; try lia; unfold ddp86, h86; auto.
  - assert (B := ex_scal 2 _ _ 2 E1). replace (2 * 0) with 0 in B by ring. exact B.
  - apply ex_const.
Qed.

Example C86_case : exists x w f ws1 ws2 e1 V1 e2 V2, gauss_hermite eigh_ref argsort_ref (NList [3; 3]%Z) = Ok (x, w) /\
  (forall r, (r < nrows x)%nat -> f.[r, 0%nat] = p86 (fun k => x.[r, k])) /\
  ss_compute eigh_ref argsort_ref lstsq_ref norm2_ref det_ref (Some x) (Some f) None (Some w) "OLS" "EVG" 0 (toy_world (L := nd R) tt, subs_new) = (Ok tt, ws1) /\
  s_eigenvals (snd ws1) = Some e1 /\ s_eigenvecs (snd ws1) = Some V1 /\ e1.[0%nat, 0%nat] = 4 /\ e1.[1%nat, 0%nat] = 0 /\ V1.[0%nat, 0%nat] = 0 /\
  ss_compute eigh_ref argsort_ref lstsq_ref norm2_ref det_ref (Some x) (Some f) None (Some (amap sqrt w)) "QPHD" "EVG" 0 (toy_world (L := nd R) tt, subs_new) = (Ok tt, ws2) /\
  s_eigenvals (snd ws2) = Some e2 /\ s_eigenvecs (snd ws2) = Some V2 /\ e2.[0%nat, 0%nat] = 5 /\ e2.[1%nat, 0%nat] = 1.
Proof.
  assert (HL : Forall (fun n => 3 <= n <= 10 ^ 24)%Z [3; 3]%Z) by (repeat constructor; lia).
  assert (HL2 : Forall (fun n => 2 <= n <= 10 ^ 24)%Z [3; 3]%Z) by (repeat constructor; lia).
  assert (HL1 : Forall (fun n => 1 <= n <= 10 ^ 24)%Z [3; 3]%Z) by (repeat constructor; lia).
  destruct (C31_gauss_hermite_tensor eigh_ref argsort_ref [3; 3]%Z eig_ref_contract eig_ref_total argsort_ref_contract ltac:(repeat constructor; lia)) as (x & w & E & _).
  assert (HD : forall k, (k < 2)%nat -> (3 + 2 < 2 * Z.to_nat (nth k [3; 3]%Z 0%Z))%nat) by (intros [|[|k]] Hk; simpl; lia).
  destruct (hermite_rule eigh_ref argsort_ref [3; 3]%Z 5 x w eig_ref_contract eig_ref_total argsort_ref_contract HL1 HD E) as (Sx & Sw & Pw & _).
  set (f := mk2 (nrows x) 1 (fun r _ => p86 (fun k => x.[r, k]))).
  assert (Hf : forall r, (r < nrows x)%nat -> f.[r, 0%nat] = p86 (fun k => x.[r, k])) by (intros; reflexivity).
  destruct (C86_returns eigh_ref eigh_ref argsort_ref lstsq_ref norm2_ref det_ref toy_gen unit [3; 3]%Z x w w f "OLS" (toy_world (L := nd R) tt, subs_new)
    eigh_ref_contract eigh_ref_total eig_ref_contract eig_ref_total argsort_ref_contract lstsq_ref_contract lstsq_ref_total ltac:(simpl; lia) HL E eq_refl Sw ltac:(intros; left; auto) (or_introl eq_refl)) as (ws1 & C1).
  destruct (C86_returns eigh_ref eigh_ref argsort_ref lstsq_ref norm2_ref det_ref toy_gen unit [3; 3]%Z x w (amap sqrt w) f "QPHD" (toy_world (L := nd R) tt, subs_new)
    eigh_ref_contract eigh_ref_total eig_ref_contract eig_ref_total argsort_ref_contract lstsq_ref_contract lstsq_ref_total ltac:(simpl; lia) HL E eq_refl Sw ltac:(intros; cbn; apply sqrt_pos) (or_intror eq_refl)) as (ws2 & C2).
  destruct (C86_ols_mean_gradient eigh_ref eigh_ref argsort_ref lstsq_ref norm2_ref det_ref toy_gen unit [3; 3]%Z 3 p86 dp86 g86 x w f "EVG" 0 _ ws1
    eigh_ref_contract eig_ref_contract eig_ref_total argsort_ref_contract lstsq_ref_contract HL2 ltac:(intros k Hk; specialize (HD k Hk); lia) p86_poly p86_pd p86_mean E eq_refl Hf C1)
    as (e1 & V1 & Ee1 & EV1 & _ & _ & A0 & A1 & A2).
  destruct (C86_qphd_mean_hessian eigh_ref eigh_ref argsort_ref lstsq_ref norm2_ref det_ref toy_gen unit [3; 3]%Z 3 p86 dp86 ddp86 g86 h86 x w (amap sqrt w) f "EVG" 0 _ ws2
    eigh_ref_contract eig_ref_contract eig_ref_total argsort_ref_contract lstsq_ref_contract HL HD p86_poly p86_pd p86_mean p86_pd2 p86_mean2 E eq_refl Hf Sw ltac:(intros r Hr; apply sqrt_sqrt; left; auto) C2)
    as (e2 & V2 & Ee2 & EV2 & _ & _ & O & Dec & EQ & _).
  exists x, w, f, ws1, ws2, e1, V1, e2, V2. do 5 (split; [auto|]).
  assert (N4 : sumf (length [3; 3]%Z) (fun i => g86 i * g86 i) = 4) by (cbn; ring).
  rewrite N4 in A0, A2. split; [exact A0|]. split; [apply A1; simpl; lia|].
  split. { destruct (A2 ltac:(lra)) as (s & _ & Vs). rewrite (Vs 0%nat) by (simpl; lia). unfold g86, Rdiv. ring. }
  do 3 (split; [auto|]).
  assert (O0 := O 0%nat 0%nat ltac:(simpl; lia) ltac:(simpl; lia)). assert (O1 := O 1%nat 1%nat ltac:(simpl; lia) ltac:(simpl; lia)). assert (O2 := O 0%nat 1%nat ltac:(simpl; lia) ltac:(simpl; lia)).
  rewrite kd_same in O0, O1. unfold kron_delta in O2. cbn [Nat.eqb] in O2.
  assert (Q00 := EQ 0%nat 0%nat ltac:(simpl; lia) ltac:(simpl; lia)). assert (Q10 := EQ 1%nat 0%nat ltac:(simpl; lia) ltac:(simpl; lia)).
  assert (Q01 := EQ 0%nat 1%nat ltac:(simpl; lia) ltac:(simpl; lia)). assert (Q11 := EQ 1%nat 1%nat ltac:(simpl; lia) ltac:(simpl; lia)).
  assert (Dc := Dec 0%nat 1%nat ltac:(lia) ltac:(simpl; lia)).
  cbn [sumf List.length g86 h86] in Q00, Q10, Q01, Q11, O0, O1, O2. unfold ent in O0, O1, O2.
  set (a := V2.[0%nat, 0%nat]) in *. set (b := V2.[1%nat, 0%nat]) in *. set (c := V2.[0%nat, 1%nat]) in *. set (d := V2.[1%nat, 1%nat]) in *.
  set (u := e2.[0%nat, 0%nat]) in *. set (t := e2.[1%nat, 0%nat]) in *. clearbody a b c d u t.
  assert (K1 : (u - 1) * a = 0) by lra. assert (K2 : (u - 5) * b = 0) by lra. assert (K3 : (t - 1) * c = 0) by lra. assert (K4 : (t - 5) * d = 0) by lra.
  destruct (Rmult_integral _ _ K1) as [U|U]; destruct (Rmult_integral _ _ K4) as [T|T]; try lra.
  - assert (d0 : d = 0) by lra. subst d. assert (b0 : b = 0) by (destruct (Rmult_integral _ _ K2); lra). subst b.
    assert (c * c = 1) by lra. assert (a * a = 1) by lra. assert (a * c = 0) by lra. destruct (Rmult_integral a c) as [Z|Z]; auto; rewrite Z in *; lra.
  - subst a. assert (b * b = 1) by lra. destruct (Rmult_integral _ _ K2) as [Z|Z]; [|rewrite Z in *; lra].
    assert (c0 : c = 0) by (destruct (Rmult_integral _ _ K3); lra). rewrite c0 in *.
    assert (b * d = 0) by lra. destruct (Rmult_integral b d) as [Y|Y]; auto; rewrite Y in *; lra.
  - subst a d. assert (b * b = 1) by lra. assert (c * c = 1) by lra. destruct (Rmult_integral _ _ K2) as [Z|Z]; [|rewrite Z in *; lra].
    destruct (Rmult_integral _ _ K3) as [Y|Y]; [|rewrite Y in *; lra]. split; lra.
Qed.

(** QPHD with the weights of the rule themselves is not that: poly_train
    multiplies the residuals by the weights, so its squares are weighted by
    their squares (ols_subspace takes their square roots).  The five points
    below are exact for all polynomials up to degree 5; for p(x) = x^3 the mean
    slope is 3 and the mean second derivative 0.  OLS stores 9, QPHD 25/4. *)
Definition X86 : nd R := mat_of [[-2]; [-1]; [0]; [1]; [2]].
Definition f86 : nd R := mat_of [[-8]; [-1]; [0]; [1]; [8]].
Definition w86 : nd R := mat_of [[/ 12]; [/ 6]; [/ 2]; [/ 6]; [/ 12]].
Lemma w86_exact : exact_rule 1 5 5 X86 w86.
Proof.
  intros g (T & a & e & He & Hg).
  apply (ex_ext 1 (terms_eval 1 T a e)); [intros; now rewrite Hg|].
  replace (sumf 5 (fun r => w86.[r, 0%nat] * g (fun k => X86.[r, k]))) with (sumf T (fun t => a t * prodf 1 (fun j => mom (e t j)))); [apply ex_terms|].
  rewrite (sumf_ext 5 _ (fun r => sumf T (fun t => a t * (w86.[r, 0%nat] * X86.[r, 0%nat] ^ e t 0%nat)))).
  2: { intros r Hr. rewrite Hg. unfold terms_eval. rewrite <- sumf_scal_l. apply sumf_ext. intros t Ht. cbn [prodf]. ring. }
  rewrite sumf_swap. apply sumf_ext. intros t Ht. rewrite sumf_scal_l. f_equal. specialize (He t Ht). cbn [prodf].
  assert (K : (e t 0 <= 5)%nat) by (unfold nsum in He; simpl in He; lia). rewrite Rmult_1_l.
  destruct (e t 0%nat) as [|[|[|[|[|[|k]]]]]]; [rewrite mom_0|rewrite mom_1|rewrite mom_2|rewrite mom_3|rewrite mom_4|rewrite mom_5|lia]; cbn; field.
Qed.
Theorem C86_qphd_weights_refuted : exact_rule 1 5 5 X86 w86 /\ (forall r, (r < 5)%nat -> 0 < w86.[r, 0%nat]) /\
  (forall r, (r < 5)%nat -> f86.[r, 0%nat] = X86.[r, 0%nat] ^ 3) /\
  pd 0 (fun y => y 0%nat ^ 3) (fun y => 3 * y 0%nat ^ 2) /\ mean_nd gaussian_mean 1 (fun y => 3 * y 0%nat ^ 2) 3 /\
  pd 0 (fun y => 3 * y 0%nat ^ 2) (fun y => 6 * y 0%nat) /\ mean_nd gaussian_mean 1 (fun y => 6 * y 0%nat) 0 /\
  exists e1 V1 e2 V2, ols_subspace eigh_ref argsort_ref lstsq_ref X86 f86 w86 = Ok (e1, V1) /\ e1.[0%nat, 0%nat] = 9 /\
    qphd_subspace eigh_ref argsort_ref lstsq_ref X86 f86 w86 = Ok (e2, V2) /\ e2.[0%nat, 0%nat] = 25 / 4.
Proof.
  assert (PW : forall r, (r < 5)%nat -> 0 < w86.[r, 0%nat]) by (intros [|[|[|[|[|r]]]]] Hr; try lia; cbn; lra).
  assert (HF : forall r, (r < 5)%nat -> f86.[r, 0%nat] = X86.[r, 0%nat] ^ 3) by (intros [|[|[|[|[|r]]]]] Hr; try lia; cbn; ring).
  assert (D1 : pd 0 (fun y => y 0%nat ^ 3) (fun y => 3 * y 0%nat ^ 2)) by (intros x; unfold upd; cbn [Nat.eqb]; eapply D_eq; [apply D_pow, D_id|cbv beta; simpl; ring]).
  assert (M1 : mean_nd gaussian_mean 1 (fun y => 3 * y 0%nat ^ 2) 3) by (assert (A := ex_scal 1 _ _ 3 (ex_pow 1 0 2 ltac:(lia))); rewrite mom_2, Rmult_1_r in A; exact A).
  split; [exact w86_exact|]. split; [exact PW|]. split; [exact HF|]. split; [exact D1|]. split; [exact M1|].
  split; [intros x; unfold upd; cbn [Nat.eqb]; eapply D_eq; [apply D_mult; [apply D_const|apply D_pow, D_id]|cbv beta; simpl; ring]|].
  split. { assert (A := ex_scal 1 _ _ 6 (ex_var 1 0 ltac:(lia))). rewrite Rmult_0_r in A. exact A. }
  destruct (C14_returns eigh_ref argsort_ref lstsq_ref 5 1 X86 f86 w86 eigh_ref_contract lstsq_ref_contract lstsq_ref_total eigh_ref_total ltac:(lia) eq_refl eq_refl eq_refl) as (e1 & V1 & H1).
  destruct (C15_returns eigh_ref argsort_ref lstsq_ref 5 1 X86 f86 w86 eigh_ref_contract lstsq_ref_contract lstsq_ref_total eigh_ref_total ltac:(lia) eq_refl eq_refl eq_refl ltac:(cbn; lia)) as (e2 & V2 & H2).
  exists e1, V1, e2, V2. split; [exact H1|]. split; [|split; [exact H2|]].
  - destruct (ols_subspace_spec eigh_ref argsort_ref lstsq_ref eigh_ref_contract argsort_ref_contract lstsq_ref_contract 5 1 X86 f86 w86 e1 V1 eq_refl eq_refl eq_refl ltac:(intros; left; auto) H1) as (a & b & lam & Hmin & L).
    assert (B := linear_fit 1 5 3 X86 w86 f86 (fun y => y 0%nat ^ 3) (fun _ y => 3 * y 0%nat ^ 2) (fun _ => 3) a b).
    destruct (rank_one 1 b e1 V1 lam L) as (R1 & _). rewrite R1. unfold dot. cbn [sumf]. rewrite B; try lia; [ring| | | | | | |].
    + intros g Hg. apply w86_exact. exact (is_poly_le 1 4 5 g ltac:(lia) Hg).
    + intros; left; auto.
    + apply (is_poly_pow 1 1 (fun y => y 0%nat) 3). apply is_poly_var. lia.
    + exact HF.
    + intros [|j] Hj; [exact D1|lia].
    + intros [|j] Hj; [exact M1|lia].
    + exact Hmin.
  - destruct (qphd_subspace_spec eigh_ref argsort_ref lstsq_ref eigh_ref_contract argsort_ref_contract lstsq_ref_contract 5 1 X86 f86 w86 e2 V2 eq_refl eq_refl eq_refl H2) as (c & b & A & gam & lam & SA & Hmin & (G1 & _) & L).
    assert (BIG : exists i j, (i < 5)%nat /\ (j < 1)%nat /\ 1 < X86.[i, j]) by (exists 4%nat, 0%nat; repeat split; try lia; cbn; lra).
    rewrite (G1 BIG) in L.
    assert (NE : forall dc db dH, sumf 5 (fun r => w86.[r, 0%nat] ^ 2 * ((f86.[r, 0%nat] - qmodel 1 c b A (fun k => X86.[r, k])) * qmodel 1 dc (fun _ => db) (fun _ _ => dH) (fun k => X86.[r, k]))) = 0).
    { intros dc db dH. apply (normal_eq 5 (fun r => w86.[r, 0%nat] ^ 2) (fun r => f86.[r, 0%nat] - qmodel 1 c b A (fun k => X86.[r, k])) (fun r => qmodel 1 dc (fun _ => db) (fun _ _ => dH) (fun k => X86.[r, k]))); [intros; apply pow2_ge_0|].
      intros t. eapply Rle_trans; [|eapply Rle_trans; [exact (Hmin (c - t * dc) (fun k => b k - t * db) (fun i k => A i k - t * dH))|]]; right; unfold wq; apply sumf_ext; intros r Hr; [ring|].
      unfold qmodel. cbn [sumf]. field. }
    assert (N1 := NE 1 0 0). assert (N2 := NE 0 1 0). assert (N3 := NE 0 0 2). unfold qmodel in N1, N2, N3. cbn in N1, N2, N3.
    assert (B : b 0%nat = 5 / 2) by lra. assert (A0 : A 0%nat 0%nat = 0) by lra.
    rewrite <- (eigsorted_psd _ _ _ _ _ L (quadC_psd 1 1 b A Rle_0_1) 0%nat ltac:(lia)).
    assert (Q := es_eig _ _ _ _ _ L 0%nat 0%nat ltac:(lia) ltac:(lia)). assert (O := es_orth _ _ _ _ _ L 0%nat 0%nat ltac:(lia) ltac:(lia)). rewrite kd_same in O.
    cbn [sumf] in Q, O. unfold quadC in Q. cbn [sumf] in Q. rewrite B, A0 in Q.
    assert (NZ : ent V2 0%nat 0%nat <> 0) by (intros Z; rewrite Z in O; lra).
    apply Rmult_eq_reg_r with (ent V2 0%nat 0%nat); auto. lra.
Qed.
Print Assumptions C86_qphd_weights_refuted.
