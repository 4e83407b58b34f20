(** Gaussian means of polynomials: integration by parts, rotation invariance
    and the Poincare inequality *)
From Coq Require Import Reals Lra Lia List Arith ZArith Bool FunctionalExtensionality.
From Verif Require Import Prelude Py NumArr LinAlg Tridiag GaussRules M_RespSurf P_IndexSet P_Poly P_PolyFacts PolySub Cubature Deriv Integral JacobiPoly Properties_Quadrature.
Import ListNotations.
Open Scope R_scope.

(** ** the one-dimensional mean *)
Lemma gm_ext : forall f g a, (forall x, f x = g x) -> gaussian_mean f a -> gaussian_mean g a.
Proof. intros f g a E H. replace g with f; auto. now apply functional_extensionality. Qed.

Lemma gm_lin : forall f g a b k, gaussian_mean f a -> gaussian_mean g b -> gaussian_mean (fun x => f x + k * g x) (a + k * b).
Proof.
  intros f g a b k Hf Hg eps He.
  assert (K : 0 < Rabs k + 1) by (assert (A := Rabs_pos k); lra).
  destruct (Hf (eps / 2) ltac:(lra)) as (T1 & H1).
  destruct (Hg (eps / (2 * (Rabs k + 1)))) as (T2 & H2).
  { apply Rdiv_lt_0_compat; lra. }
  exists (Rmax (Rmax T1 T2) 0). intros T HT. assert (M1 := Rmax_l T1 T2). assert (M2 := Rmax_r T1 T2). assert (M3 := Rmax_l (Rmax T1 T2) 0). assert (M4 := Rmax_r (Rmax T1 T2) 0).
  destruct (H1 T ltac:(lra)) as (p1 & p2 & P & A). destruct (H2 T ltac:(lra)) as (q1 & q2 & _ & B).
  rewrite (RiemannInt_P5 q2 p2) in B.
  assert (r : Riemann_integrable (fun x => f x * exp (- (x * x / 2)) + k * (g x * exp (- (x * x / 2)))) (- T) T) by (apply RiemannInt_P10; auto).
  assert (E : (fun x => f x * exp (- (x * x / 2)) + k * (g x * exp (- (x * x / 2)))) = (fun x => (f x + k * g x) * exp (- (x * x / 2)))) by (apply functional_extensionality; intros; ring).
  assert (RV := RiemannInt_P13 p1 q1 r).
  assert (r' : Riemann_integrable (fun x => (f x + k * g x) * exp (- (x * x / 2))) (- T) T) by (rewrite <- E; exact r).
  assert (RV' : RiemannInt r' = RiemannInt r) by (apply RiemannInt_P18; [lra|]; intros; ring).
  exists r', p2. split; [exact P|]. rewrite RV', RV.
  set (I := RiemannInt p2) in *. set (u := RiemannInt p1) in *. set (v := RiemannInt q1) in *.
  replace ((u + k * v) / I - (a + k * b)) with ((u / I - a) + k * (v / I - b)) by (field; lra).
  eapply Rle_lt_trans; [apply Rabs_triang|]. rewrite Rabs_mult.
  assert (C : Rabs k * Rabs (v / I - b) <= Rabs k * (eps / (2 * (Rabs k + 1)))) by (apply Rmult_le_compat_l; [apply Rabs_pos|lra]).
  assert (Dd : Rabs k * (eps / (2 * (Rabs k + 1))) <= eps / 2).
  { replace (Rabs k * (eps / (2 * (Rabs k + 1)))) with (eps / 2 * (Rabs k / (Rabs k + 1))) by (field; lra).
    rewrite <- (Rmult_1_r (eps / 2)) at 2. apply Rmult_le_compat_l; [lra|]. apply (Rmult_le_reg_r (Rabs k + 1)); [lra|]. unfold Rdiv. rewrite Rmult_assoc, Rinv_l by lra. lra. }
  lra.
Qed.

Lemma gm_nonneg : forall f a, (forall x, 0 <= f x) -> gaussian_mean f a -> 0 <= a.
Proof.
  intros f a P H. destruct (Rle_lt_dec 0 a) as [|N]; auto. exfalso.
  destruct (H (- a) ltac:(lra)) as (T0 & HT). destruct (HT (Rmax T0 1) (Rmax_l _ _)) as (p1 & p2 & Q & A). assert (M := Rmax_r T0 1).
  assert (C : 0 <= RiemannInt p1).
  { set (T := Rmax T0 1) in *.
    assert (Z := RiemannInt_P15 (RiemannInt_P14 (- T) T 0)). rewrite Rmult_0_l in Z. rewrite <- Z.
    apply RiemannInt_P19; [lra|]. intros x _. unfold fct_cte. apply Rmult_le_pos; [apply P|left; apply exp_pos]. }
  assert (C' : 0 <= RiemannInt p1 / RiemannInt p2) by (apply Rmult_le_pos; [auto|left; apply Rinv_0_lt_compat; auto]).
  rewrite Rabs_right in A by lra. lra.
Qed.

Lemma gm_const : forall c, gaussian_mean (fun _ => c) c.
Proof.
  intros c. assert (H := hermite_mean [c]). simpl in H. unfold kron_delta in H. simpl in H.
  replace (0 + c * 1) with c in H by ring. eapply gm_ext; [|exact H]. intros x. simpl. ring.
Qed.
Lemma gm_zero : gaussian_mean (fun _ => 0) 0.  Proof. apply gm_const. Qed.
Lemma gm_plus : forall f g a b, gaussian_mean f a -> gaussian_mean g b -> gaussian_mean (fun x => f x + g x) (a + b).
Proof. intros f g a b Hf Hg. assert (L := gm_lin f g a b 1 Hf Hg). rewrite Rmult_1_l in L. eapply gm_ext; [|exact L]. intros; cbv beta; ring. Qed.
Lemma gm_scal : forall f a k, gaussian_mean f a -> gaussian_mean (fun x => k * f x) (k * a).
Proof. intros f a k Hf. assert (L := gm_lin _ f 0 a k gm_zero Hf). rewrite Rplus_0_l in L. eapply gm_ext; [|exact L]. intros; cbv beta; ring. Qed.
Lemma gm_sum : forall n f a, (forall i, (i < n)%nat -> gaussian_mean (f i) (a i)) -> gaussian_mean (fun x => sumf n (fun i => f i x)) (sumf n a).
Proof.
  induction n; intros f a H; cbn [sumf]; [apply gm_zero|]. apply (gm_plus (fun x => sumf n (fun i => f i x)) (f n)); [apply IHn; intros|]; apply H; lia.
Qed.
Lemma gm_le : forall f g a b, (forall x, f x <= g x) -> gaussian_mean f a -> gaussian_mean g b -> a <= b.
Proof.
  intros f g a b L Hf Hg. assert (Q := gm_lin g f b a (-1) Hg Hf).
  assert (0 <= b + -1 * a); [|lra]. eapply gm_nonneg; [|exact Q]. intros x. cbv beta. specialize (L x). lra.
Qed.

(** moments *)
Definition mom (k : nat) : R := Tpow sh k 0.
Lemma mom_mean : forall k, gaussian_mean (fun x => x ^ k) (mom k).
Proof. intros k. rewrite <- (pmom_mono mom k). eapply gm_ext; [|exact (hermite_mean (monol k))]. apply monol_eval. Qed.
Lemma mom_0 : mom 0 = 1.  Proof. reflexivity. Qed.
Lemma mom_SS : forall k, mom (S k) = INR k * mom (pred k).
Proof.
  intros k. assert (Z : gaussian_mean (fun x => x ^ S k + - INR k * x ^ pred k) 0).
  { apply (gaussian_mean_anti _ (fun x => - (x ^ k * phi x))).
    - intros x. apply derivable_continuous_pt. eexists. apply D_plus; [apply derivable_pt_lim_pow|apply D_mult; [apply D_const|apply derivable_pt_lim_pow]].
    - assert (V := he_vanish 0 0 k). intros eps He. destruct (V eps He) as (T0 & HT & HV). exists T0. split; auto. intros x Hx. specialize (HV x Hx).
      unfold he in HV. rewrite mono_0 in HV. rewrite Rabs_Ropp. replace (x ^ k * (1 * 1 * phi x)) with (x ^ k * phi x) in HV by ring. exact HV.
    - intros x. assert (DP : D phi x (- x * phi x)).
      { unfold phi. eapply D_eq; [apply (derivable_pt_lim_comp (fun x => - (x * x / 2)) exp x (- x)); [|apply derivable_pt_lim_exp]|ring].
        eapply D_eq; [apply (D_ext (fun x => (- / 2) * (x * x))); [apply D_mult; [apply D_const|apply D_mult; apply D_id]|intros; field]|cbv beta; field]. }
      eapply D_eq; [apply D_opp, D_mult; [apply derivable_pt_lim_pow|exact DP]|]. cbn [pow]. ring. }
  assert (A := gm_lin _ _ _ _ (- INR k) (mom_mean (S k)) (mom_mean (pred k))).
  assert (U := gaussian_mean_unique _ _ _ Z A). lra.
Qed.

(** ** means over several coordinates *)
Notation Ex := (mean_nd gaussian_mean).
Lemma ex_unique : forall m g a b, Ex m g a -> Ex m g b -> a = b.
Proof. intros m g a b. apply mean_nd_unique. exact gaussian_mean_unique. Qed.
Lemma ex_ext : forall m g g' a, (forall x, g x = g' x) -> Ex m g a -> Ex m g' a.
Proof. intros m g g' a. apply mean_nd_ext. Qed.
Lemma ex_lin : forall m f g a b k, Ex m f a -> Ex m g b -> Ex m (fun x => f x + k * g x) (a + k * b).
Proof.
  induction m; intros f g a b k Hf Hg; cbn [mean_nd] in *; [intros x; now rewrite Hf, Hg|].
  destruct Hf as (h & A & B), Hg as (h' & A' & B'). exists (fun x => h x + k * h' x). split; [|apply IHm; auto].
  intros x. apply (gm_lin (fun t => f (upd x m t)) (fun t => g (upd x m t))); auto.
Qed.
Lemma ex_const : forall m c, Ex m (fun _ => c) c.
Proof. induction m; intros c; cbn [mean_nd]; auto. exists (fun _ => c). split; auto. intros x. apply gm_const. Qed.
Lemma ex_plus : forall m f g a b, Ex m f a -> Ex m g b -> Ex m (fun x => f x + g x) (a + b).
Proof. intros m f g a b Hf Hg. assert (L := ex_lin m f g a b 1 Hf Hg). rewrite Rmult_1_l in L. eapply ex_ext; [|exact L]. intros; cbv beta; ring. Qed.
Lemma ex_scal : forall m f a k, Ex m f a -> Ex m (fun x => k * f x) (k * a).
Proof. intros m f a k Hf. assert (L := ex_lin m _ f 0 a k (ex_const m 0) Hf). rewrite Rplus_0_l in L. eapply ex_ext; [|exact L]. intros; cbv beta; ring. Qed.
Lemma ex_sum : forall m n f a, (forall i, (i < n)%nat -> Ex m (f i) (a i)) -> Ex m (fun x => sumf n (fun i => f i x)) (sumf n a).
Proof.
  induction n; intros f a H; cbn [sumf]; [apply ex_const|]. apply (ex_plus m (fun x => sumf n (fun i => f i x)) (f n)); [apply IHn; intros|]; apply H; lia.
Qed.
Lemma ex_nonneg : forall m f a, (forall x, 0 <= f x) -> Ex m f a -> 0 <= a.
Proof.
  induction m; intros f a P H; cbn [mean_nd] in H; [rewrite <- (H (fun _ => 0)); auto|].
  destruct H as (h & A & B). apply (IHm h); auto. intros x. apply (gm_nonneg _ _ ltac:(intros t; apply P) (A x)).
Qed.
Lemma ex_le : forall m f g a b, (forall x, f x <= g x) -> Ex m f a -> Ex m g b -> a <= b.
Proof.
  intros m f g a b L Hf Hg. assert (Q := ex_lin m g f b a (-1) Hg Hf).
  assert (0 <= b + -1 * a); [|lra]. eapply ex_nonneg; [|exact Q]. intros x. cbv beta. specialize (L x). lra.
Qed.
Lemma ex_terms : forall m T a e, Ex m (terms_eval m T a e) (sumf T (fun t => a t * prodf m (fun j => mom (e t j)))).
Proof. intros. apply (mean_terms mom gaussian_mean hermite_mean). Qed.
Lemma ex_poly : forall m N p, is_poly m N p -> exists a, Ex m p a.
Proof. intros m N p (T & a & e & _ & E). eexists. eapply ex_ext; [|apply (ex_terms m T a e)]. intros; now rewrite E. Qed.

(** ** monomials and their derivatives *)
Definition mon (m : nat) (e : nat -> nat) (x : nat -> R) : R := prodf m (fun i => x i ^ e i).
Definition dmon (m : nat) (e : nat -> nat) (k : nat) (x : nat -> R) : R :=
  prodf m (fun i => if Nat.eqb i k then INR (e i) * x i ^ pred (e i) else x i ^ e i).
Definition lower (e : nat -> nat) (k : nat) : nat -> nat := fun i => if Nat.eqb i k then pred (e i) else e i.

Lemma prodf_pull : forall m j f, (j < m)%nat -> prodf m f = f j * prodf m (fun i => if Nat.eqb i j then 1 else f i).
Proof.
  intros m j f Hj. assert (A : prodf m (fun i => if Nat.eqb i j then f i else 1) = f j).
  { rewrite (prodf_at m j); [now rewrite Nat.eqb_refl|auto|]. intros i Hi NE. now rewrite (proj2 (Nat.eqb_neq i j)). }
  rewrite <- A, <- prodf_mult. apply prodf_ext. intros i Hi. destruct (Nat.eqb i j); ring.
Qed.
Lemma dmon_lower : forall m e k x, (k < m)%nat -> dmon m e k x = INR (e k) * mon m (lower e k) x.
Proof.
  intros m e k x Hk. unfold dmon, mon, lower. rewrite (prodf_pull m k) by auto. rewrite Nat.eqb_refl.
  rewrite (prodf_pull m k (fun i => x i ^ (if Nat.eqb i k then pred (e i) else e i))) by auto. rewrite Nat.eqb_refl, Rmult_assoc. f_equal. f_equal.
  apply prodf_ext. intros i Hi. destruct (Nat.eqb i k); auto.
Qed.
Lemma dmon_out : forall m e k x, (m <= k)%nat -> dmon m e k x = mon m e x.
Proof. intros m e k x Hk. apply prodf_ext. intros i Hi. now rewrite (proj2 (Nat.eqb_neq i k)) by lia. Qed.

(** the derivative along a path whose coordinates are differentiable *)
Lemma mon_path : forall m e (c : nat -> R -> R) (h : nat -> R) t, (forall i, (i < m)%nat -> D (c i) t (h i)) ->
  D (fun s => mon m e (fun i => c i s)) t (sumf m (fun k => h k * dmon m e k (fun i => c i t))).
Proof.
  induction m; intros e c h t H; [exact (D_const 1 t)|].
  eapply D_eq.
  - unfold mon. cbn [prodf]. apply (D_mult (fun s => prodf m (fun i => c i s ^ e i)) (fun s => c m s ^ e m)).
    + apply (IHm e c h t). intros; apply H; lia.
    + apply D_pow. apply H; lia.
  - cbn [sumf]. rewrite <- sumf_scal_r. f_equal.
    + apply sumf_ext. intros k Hk. unfold dmon. cbn [prodf]. rewrite (proj2 (Nat.eqb_neq m k)) by lia. ring.
    + unfold dmon. cbn [prodf]. rewrite Nat.eqb_refl.
      rewrite (prodf_ext m (fun i => if Nat.eqb i m then INR (e i) * c i t ^ pred (e i) else c i t ^ e i) (fun i => c i t ^ e i)); [ring|].
      intros i Hi. now rewrite (proj2 (Nat.eqb_neq i m)) by lia.
Qed.

Definition dterms (m T : nat) (a : nat -> R) (e : nat -> nat -> nat) (k : nat) (x : nat -> R) : R := sumf T (fun t => a t * dmon m (e t) k x).
Lemma D_sumf : forall n (f : nat -> R -> R) (d : nat -> R) t, (forall i, (i < n)%nat -> D (f i) t (d i)) -> D (fun s => sumf n (fun i => f i s)) t (sumf n d).
Proof. induction n; intros f d t H; cbn [sumf]; [apply D_const|]. apply D_plus; [apply IHn; intros|]; apply H; lia. Qed.
Lemma terms_path : forall m T a e (c : nat -> R -> R) (h : nat -> R) t, (forall i, (i < m)%nat -> D (c i) t (h i)) ->
  D (fun s => terms_eval m T a e (fun i => c i s)) t (sumf m (fun k => h k * dterms m T a e k (fun i => c i t))).
Proof.
  intros m T a e c h t H. unfold terms_eval, dterms.
  eapply D_eq; [apply (D_sumf T (fun q s => a q * prodf m (fun j => c j s ^ e q j))); intros q Hq; apply D_mult; [apply D_const|apply (mon_path m (e q) c h t H)]|].
  cbv beta. rewrite (sumf_ext m _ (fun k => sumf T (fun q => h k * (a q * dmon m (e q) k (fun i => c i t))))) by (intros; now rewrite sumf_scal_l).
  rewrite sumf_swap. apply sumf_ext. intros q Hq. rewrite Rmult_0_l, Rplus_0_l, <- sumf_scal_l. apply sumf_ext. intros; ring.
Qed.

(** p' is the partial derivative of p in coordinate j *)
Definition pd (j : nat) (p p' : (nat -> R) -> R) : Prop := forall x, D (fun t => p (upd x j t)) (x j) (p' x).
Lemma upd_same : forall x j, (fun i => upd x j (x j) i) = x.
Proof. intros x j. apply functional_extensionality. intros i. unfold upd. destruct (Nat.eqb_spec i j) as [->|]; auto. Qed.
Lemma upd_path : forall x j t i, D (fun s => upd x j s i) t (if Nat.eqb i j then 1 else 0).
Proof. intros x j t i. unfold upd. destruct (Nat.eqb i j); [apply D_id|apply D_const]. Qed.
Lemma sumf_ite : forall n j (f : nat -> R), (j < n)%nat -> sumf n (fun k => (if Nat.eqb k j then 1 else 0) * f k) = f j.
Proof.
  intros n j f Hj. rewrite (sumf_ext n _ (fun k => kron_delta j k * f k)); [now apply sumf_kd_l|].
  intros k Hk. unfold kron_delta. now rewrite Nat.eqb_sym.
Qed.
Lemma pd_terms : forall m T a e j, (j < m)%nat -> pd j (terms_eval m T a e) (dterms m T a e j).
Proof.
  intros m T a e j Hj x. eapply D_eq; [apply (terms_path m T a e (fun i t => upd x j t i) (fun i => if Nat.eqb i j then 1 else 0)); intros; apply upd_path|].
  rewrite upd_same. now apply sumf_ite.
Qed.
Lemma pd_unique : forall j p q q', pd j p q -> pd j p q' -> forall x, q x = q' x.
Proof. intros j p q q' H H' x. exact (uniqueness_limite _ _ _ _ (H x) (H' x)). Qed.
Lemma nsum_ext : forall m f g, (forall i, (i < m)%nat -> f i = g i) -> nsum m f = nsum m g.
Proof. induction m; intros f g H; auto. rewrite !nsum_S, (IHm f g), H by (intros; try apply H; lia). reflexivity. Qed.
Lemma nsum_lower : forall m e k, (k < m)%nat -> (nsum m (lower e k) = nsum m e - (if Nat.eqb (e k) 0 then 0 else 1))%nat.
Proof.
  induction m; intros e k Hk; [lia|]. rewrite !nsum_S. destruct (Nat.eq_dec k m) as [->|NE].
  - rewrite (nsum_ext m (lower e m) e) by (intros i Hi; unfold lower; now rewrite (proj2 (Nat.eqb_neq i m)) by lia).
    unfold lower. rewrite Nat.eqb_refl. destruct (Nat.eqb_spec (e m) 0); lia.
  - rewrite IHm by lia. unfold lower. rewrite (proj2 (Nat.eqb_neq m k)) by lia.
    assert (A := nsum_ge m e k ltac:(lia)). destruct (Nat.eqb_spec (e k) 0); lia.
Qed.
Lemma is_poly_mon : forall m e, is_poly m (nsum m e) (mon m e).
Proof. intros m e. exists 1%nat, (fun _ => 1), (fun _ => e). split; [auto|]. intros x. unfold terms_eval, mon. cbn [sumf]. ring. Qed.
Lemma is_poly_dterms : forall m T a e N j, (j < m)%nat -> (forall t, (t < T)%nat -> (nsum m (e t) <= N)%nat) -> is_poly m (pred N) (dterms m T a e j).
Proof.
  intros m T a e N j Hj H. unfold dterms. apply (is_poly_sum m (pred N) T (fun t x => a t * dmon m (e t) j x)). intros t Ht. apply is_poly_scal.
  apply (is_poly_ext m (pred N) (fun x => INR (e t j) * mon m (lower (e t) j) x)); [intros; now rewrite dmon_lower|].
  destruct (Nat.eq_dec (e t j) 0) as [Z|Z].
  - apply (is_poly_ext m (pred N) (fun _ => 0)); [|exact (is_poly_const m _ 0)]. intros x. rewrite Z. simpl. ring.
  - apply is_poly_scal. eapply is_poly_le; [|apply is_poly_mon]. rewrite nsum_lower by auto. specialize (H t Ht). destruct (Nat.eqb_spec (e t j) 0); lia.
Qed.
Lemma pd_poly : forall m N p j p', (j < m)%nat -> is_poly m N p -> pd j p p' -> is_poly m (pred N) p'.
Proof.
  intros m N p j p' Hj (T & a & e & H & E) Hp. apply (is_poly_ext m (pred N) (dterms m T a e j)); [|apply is_poly_dterms; auto].
  apply (pd_unique j (terms_eval m T a e)); [apply pd_terms; auto|]. replace (terms_eval m T a e) with p; auto. now apply functional_extensionality.
Qed.
Lemma pd_exists : forall m N p j, (j < m)%nat -> is_poly m N p -> exists p', pd j p p'.
Proof. intros m N p j Hj (T & a & e & H & E). exists (dterms m T a e j). replace p with (terms_eval m T a e); [apply pd_terms; auto|]. symmetry. now apply functional_extensionality. Qed.

(** ** integration by parts *)
Lemma ex_mon : forall m e, Ex m (mon m e) (prodf m (fun j => mom (e j))).
Proof.
  intros m e. assert (T := ex_terms m 1 (fun _ => 1) (fun _ => e)). cbn [sumf] in T. rewrite Rplus_0_l, Rmult_1_l in T.
  eapply ex_ext; [|exact T]. intros x. unfold terms_eval, mon. cbn [sumf]. ring.
Qed.
Definition raise (e : nat -> nat) (k : nat) : nat -> nat := fun i => if Nat.eqb i k then S (e i) else e i.
Lemma mon_raise : forall m e j x, (j < m)%nat -> mon m (raise e j) x = x j * mon m e x.
Proof.
  intros m e j x Hj. unfold mon, raise. rewrite (prodf_pull m j) by auto. rewrite (prodf_pull m j (fun i => x i ^ e i)) by auto. rewrite Nat.eqb_refl. cbn [pow].
  rewrite Rmult_assoc. f_equal. f_equal. apply prodf_ext. intros i Hi. destruct (Nat.eqb i j); auto.
Qed.
Lemma mom_raise : forall m e j, (j < m)%nat -> prodf m (fun i => mom (raise e j i)) = INR (e j) * prodf m (fun i => mom (lower e j i)).
Proof.
  intros m e j Hj. unfold raise, lower. rewrite (prodf_pull m j) by auto. rewrite (prodf_pull m j (fun i => mom (if Nat.eqb i j then pred (e i) else e i))) by auto.
  rewrite Nat.eqb_refl, mom_SS, Rmult_assoc. f_equal. f_equal. apply prodf_ext. intros i Hi. destruct (Nat.eqb i j); auto.
Qed.
Lemma stein : forall m N p p' j L, (j < m)%nat -> is_poly m N p -> pd j p p' -> Ex m p' L -> Ex m (fun x => x j * p x) L.
Proof.
  intros m N p p' j L Hj (T & a & e & H & E) Hp HL.
  assert (A : Ex m (fun x => x j * p x) (sumf T (fun t => a t * prodf m (fun i => mom (raise (e t) j i))))).
  { apply (ex_ext m (fun x => sumf T (fun t => a t * mon m (raise (e t) j) x))).
    - intros x. rewrite E. unfold terms_eval. rewrite <- sumf_scal_l. apply sumf_ext. intros t Ht. rewrite mon_raise by auto. unfold mon. ring.
    - apply (ex_sum m T (fun t x => a t * mon m (raise (e t) j) x)). intros t Ht. apply ex_scal, ex_mon. }
  replace L with (sumf T (fun t => a t * prodf m (fun i => mom (raise (e t) j i)))); auto.
  assert (B : Ex m p' (sumf T (fun t => a t * (INR (e t j) * prodf m (fun i => mom (lower (e t) j i)))))).
  { apply (ex_ext m (dterms m T a e j)).
    - apply (pd_unique j (terms_eval m T a e)); [apply pd_terms; auto|]. replace (terms_eval m T a e) with p; auto. now apply functional_extensionality.
    - apply (ex_sum m T (fun t x => a t * dmon m (e t) j x)). intros t Ht. apply ex_scal. eapply ex_ext; [intros x; symmetry; apply dmon_lower; auto|]. apply ex_scal, ex_mon. }
  rewrite (ex_unique _ _ _ _ HL B). apply sumf_ext. intros t Ht. now rewrite mom_raise.
Qed.
