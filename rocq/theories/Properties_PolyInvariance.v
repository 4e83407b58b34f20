(** Final theorems on what the fitted polynomial depends on: C87 *)
From Coq Require Import String Reals Lra Lia List Arith ZArith Bool FunctionalExtensionality FinFun.
From Verif Require Import Prelude Py NumArr Toy M_Misc M_RespSurf Lsq LinAlg P_Misc P_IndexSet P_Poly P_PolyTrain P_PolyFacts PolySub
  Properties_RespSurf Properties_Ridge Properties_EndToEnd Properties_Stein.
Import ListNotations.
Open Scope R_scope.

(** the weight of sample r, 1 by default *)
Definition weight_of (weights : option (nd R)) (r : nat) : R := match weights with None => 1 | Some w => w.[r, 0%nat] end.
Definition weights_fit (weights : option (nd R)) (M : nat) : Prop := match weights with None => True | Some w => shape w = [M; 1%nat] end.
(** the squared weighted residuals of p *)
Definition fit_cost (M : nat) (X f : nd R) (weights : option (nd R)) (p : (nat -> R) -> R) : R :=
  sumf M (fun r => (weight_of weights r * (f.[r, 0%nat] - p (fun j => X.[r, j]))) ^ 2).
(** p is a best fit among the polynomials of degree N *)
Definition best_fit (N M m : nat) (X f : nd R) (weights : option (nd R)) (p : (nat -> R) -> R) : Prop :=
  is_poly m N p /\ forall q, is_poly m N q -> fit_cost M X f weights p <= fit_cost M X f weights q.
(** the weighted points determine a polynomial of degree N *)
Definition unisolvent (N M m : nat) (X : nd R) (weights : option (nd R)) : Prop :=
  forall q, is_poly m N q -> (forall r, (r < M)%nat -> weight_of weights r * q (fun j => X.[r, j]) = 0) -> forall x, q x = 0.
(** the residuals of p are orthogonal to every polynomial of degree N *)
Definition orth_fit (N M m : nat) (X f : nd R) (weights : option (nd R)) (p : (nat -> R) -> R) : Prop :=
  forall q, is_poly m N q -> sumf M (fun r => weight_of weights r ^ 2 * ((f.[r, 0%nat] - p (fun j => X.[r, j])) * q (fun j => X.[r, j]))) = 0.

Lemma is_poly_minus : forall n N p q, is_poly n N p -> is_poly n N q -> is_poly n N (fun x => p x - q x).
Proof.
  intros n N p q Hp Hq. apply (is_poly_ext n N (fun x => p x + -1 * q x)); [intros; ring|]. apply is_poly_plus; auto. now apply is_poly_scal.
Qed.
Lemma best_orth : forall N M m X f weights p, best_fit N M m X f weights p -> orth_fit N M m X f weights p.
Proof.
  intros N M m X f weights p (Hp & Hmin) q Hq.
  apply (normal_eq M (fun r => weight_of weights r ^ 2) (fun r => f.[r, 0%nat] - p (fun j => X.[r, j])) (fun r => q (fun j => X.[r, j]))); [intros; apply pow2_ge_0|].
  intros t. eapply Rle_trans; [|eapply Rle_trans; [exact (Hmin (fun x => p x + - t * q x) (is_poly_plus _ _ _ _ Hp (is_poly_scal _ _ (- t) _ Hq)))|]];
    right; unfold fit_cost; apply sumf_ext; intros; ring.
Qed.
Lemma orth_best : forall N M m X f weights p, is_poly m N p -> orth_fit N M m X f weights p -> best_fit N M m X f weights p.
Proof.
  intros N M m X f weights p Hp HO. split; auto. intros q Hq. assert (Z := HO (fun x => p x - q x) (is_poly_minus _ _ _ _ Hp Hq)). cbv beta in Z.
  assert (E : fit_cost M X f weights q = fit_cost M X f weights p
     + 2 * sumf M (fun r => weight_of weights r ^ 2 * ((f.[r, 0%nat] - p (fun j => X.[r, j])) * (p (fun j => X.[r, j]) - q (fun j => X.[r, j]))))
     + sumf M (fun r => (weight_of weights r * (p (fun j => X.[r, j]) - q (fun j => X.[r, j]))) ^ 2)).
  { unfold fit_cost. rewrite <- sumf_scal_l, <- !sumf_plus. apply sumf_ext. intros; ring. }
  rewrite E, Z. assert (0 <= sumf M (fun r => (weight_of weights r * (p (fun j => X.[r, j]) - q (fun j => X.[r, j]))) ^ 2)) by (apply sumf_nonneg; intros; apply pow2_ge_0). lra.
Qed.
Lemma best_unique : forall N M m X f weights p q, unisolvent N M m X weights -> best_fit N M m X f weights p -> best_fit N M m X f weights q -> forall x, p x = q x.
Proof.
  intros N M m X f weights p q HU Hp Hq x.
  assert (P := is_poly_minus _ _ _ _ (proj1 Hp) (proj1 Hq)).
  assert (Z1 := best_orth _ _ _ _ _ _ _ Hp _ P). assert (Z2 := best_orth _ _ _ _ _ _ _ Hq _ P). cbv beta in Z1, Z2.
  assert (Z : sumf M (fun r => (weight_of weights r * (p (fun j => X.[r, j]) - q (fun j => X.[r, j]))) ^ 2) = 0).
  { rewrite (sumf_ext M _ (fun r => weight_of weights r ^ 2 * ((f.[r, 0%nat] - q (fun j => X.[r, j])) * (p (fun j => X.[r, j]) - q (fun j => X.[r, j])))
      - weight_of weights r ^ 2 * ((f.[r, 0%nat] - p (fun j => X.[r, j])) * (p (fun j => X.[r, j]) - q (fun j => X.[r, j]))))) by (intros; ring).
    rewrite sumf_minus, Z1, Z2. ring. }
  assert (A := HU _ P). apply Rminus_diag_uniq. apply A. intros r Hr.
  assert (B := sumf_nonneg_eq0 M _ (fun r _ => pow2_ge_0 _) Z r Hr). cbv beta in B. 
  destruct (Req_dec (weight_of weights r * (p (fun j => X.[r, j]) - q (fun j => X.[r, j]))) 0); auto. exfalso. apply (pow_nonzero _ 2) in H. contradiction.
Qed.

(** ** C87 *)
(** train leaves a best fit among all polynomials of degree N *)
Theorem C87_best_fit : forall lstsq N X f weights M m s,
  lstsq_contract lstsq -> shape X = [M; m] -> shape f = [M; 1%nat] -> (1 <= m)%nat -> (1 <= N)%nat -> weights_fit weights M ->
  poly_train lstsq N X f weights = Ok s ->
  best_fit N M m X f weights (poly_value s m) /\
  (unisolvent N M m X weights -> forall p, best_fit N M m X f weights p -> forall x, poly_value s m x = p x) /\
  pa_Rsqr s = xsub (Fin 1) (xdiv (Fin (fit_cost M X f weights (poly_value s m)))
    (Fin (sumf M (fun i => (weight_of weights i * f.[i, 0%nat] - sumf M (fun j => weight_of weights j * f.[j, 0%nat]) / INR M) ^ 2)))).
Proof.
  intros lstsq N X f weights M m s HL HX Hf Hm HN Hw Hs.
  destruct (poly_train_inv lstsq HL N X f weights M m HX Hf Hm HN Hw) as (L & EL & _ & Htr & _). specialize (Htr s Hs).
  assert (EV : forall x, poly_value s m x = poly_eval m L (fun c => (pa_weights s).[c, 0%nat]) x) by (apply (trained_value N X f weights M m L s Hm EL Htr)).
  assert (RC : forall u, rss M (length L) (fun r c => wt weights r * mono m (nth c L []) (fun j => X.[r, j])) (fun r => wt weights r * f.[r, 0%nat]) u
     = fit_cost M X f weights (poly_eval m L u)).
  { intros u. unfold rss, fit_cost. apply sumf_ext. intros r Hr. unfold resid, poly_eval.
    rewrite (sumf_ext (length L) _ (fun j => wt weights r * (mono m (nth j L []) (fun j0 => X.[r, j0]) * u j))) by (intros; ring). rewrite sumf_scal_l.
    change (weight_of weights r) with (wt weights r). ring. }
  assert (B : best_fit N M m X f weights (poly_value s m)).
  { split.
    - apply (is_poly_ext m N (poly_eval m L (fun c => (pa_weights s).[c, 0%nat]))); [intros; now rewrite EV|]. now apply is_poly_eval.
    - intros q (T & a & e & He & Hq). destruct (terms_collect N m L EL Hm T a e He) as (u & Hu).
      replace q with (poly_eval m L u) by (apply functional_extensionality; intros x; rewrite Hq; symmetry; apply Hu).
      replace (poly_value s m) with (poly_eval m L (fun c => (pa_weights s).[c, 0%nat])) by (apply functional_extensionality; intros x; now rewrite EV).
      rewrite <- !RC. apply (t_min _ _ _ _ _ _ _ _ Htr). }
  split; [exact B|]. split; [intros HU p Hp; exact (best_unique N M m X f weights _ p HU B Hp)|].
  rewrite (t_R _ _ _ _ _ _ _ _ Htr), RC. do 3 f_equal.
  - unfold fit_cost. apply sumf_ext. intros r Hr. now rewrite EV.
  - rewrite (var_col_sum N X f weights M m L s Hm HN EL Htr). apply sumf_ext. intros i Hi. rewrite at_mk2.
    rewrite (sumf_ext M (fun i0 => (mk2 M 1 (fun r _ => wt weights r * f.[r, 0%nat])).[i0, 0%nat]) (fun j => wt weights j * f.[j, 0%nat])) by (intros; reflexivity).
    change (weight_of weights) with (wt weights). ring.
Qed.
Print Assumptions C87_best_fit.

(** the surface is linear in the data, and a polynomial of degree N added to the
    data is added to the surface *)
Theorem C87_linear : forall lstsq N X f1 f2 f3 weights M m s1 s2 s3 k1 k2 p,
  lstsq_contract lstsq -> shape X = [M; m] -> shape f1 = [M; 1%nat] -> shape f2 = [M; 1%nat] -> shape f3 = [M; 1%nat] -> (1 <= m)%nat -> (1 <= N)%nat -> weights_fit weights M ->
  unisolvent N M m X weights -> is_poly m N p ->
  (forall r, (r < M)%nat -> f3.[r, 0%nat] = k1 * f1.[r, 0%nat] + k2 * f2.[r, 0%nat] + p (fun j => X.[r, j])) ->
  poly_train lstsq N X f1 weights = Ok s1 -> poly_train lstsq N X f2 weights = Ok s2 -> poly_train lstsq N X f3 weights = Ok s3 ->
  forall x, poly_value s3 m x = k1 * poly_value s1 m x + k2 * poly_value s2 m x + p x.
Proof.
  intros lstsq N X f1 f2 f3 weights M m s1 s2 s3 k1 k2 p HL HX H1 H2 H3 Hm HN Hw HU Hp Hf T1 T2 T3 x.
  destruct (C87_best_fit lstsq N X f1 weights M m s1 HL HX H1 Hm HN Hw T1) as (B1 & _).
  destruct (C87_best_fit lstsq N X f2 weights M m s2 HL HX H2 Hm HN Hw T2) as (B2 & _).
  destruct (C87_best_fit lstsq N X f3 weights M m s3 HL HX H3 Hm HN Hw T3) as (_ & E & _).
  apply (E HU (fun x => k1 * poly_value s1 m x + k2 * poly_value s2 m x + p x)). clear x. apply orth_best.
  - apply is_poly_plus; auto. apply is_poly_plus; apply is_poly_scal; [apply B1|apply B2].
  - intros q Hq. assert (O1 := best_orth _ _ _ _ _ _ _ B1 q Hq). assert (O2 := best_orth _ _ _ _ _ _ _ B2 q Hq).
    rewrite (sumf_ext M _ (fun r => k1 * (weight_of weights r ^ 2 * ((f1.[r, 0%nat] - poly_value s1 m (fun j => X.[r, j])) * q (fun j => X.[r, j])))
       + k2 * (weight_of weights r ^ 2 * ((f2.[r, 0%nat] - poly_value s2 m (fun j => X.[r, j])) * q (fun j => X.[r, j]))))) by (intros r Hr; rewrite (Hf r Hr); ring).
    rewrite sumf_plus, !sumf_scal_l, O1, O2. ring.
Qed.
Print Assumptions C87_linear.

(** a renumbering of 0, .., M-1 *)
Definition renumbering (M : nat) (sg : nat -> nat) : Prop :=
  (forall r, (r < M)%nat -> (sg r < M)%nat) /\ (forall r r', (r < M)%nat -> (r' < M)%nat -> sg r = sg r' -> r = r').
Lemma sumf_renumber : forall M sg g, renumbering M sg -> sumf M (fun r => g (sg r)) = sumf M g.
Proof.
  intros M sg g (H1 & H2). assert (A := sumf_reindex M sg (fun _ => 1) g H1 H2). cbv beta in A.
  rewrite (sumf_ext M (fun i => 1 * g (sg i)) (fun r => g (sg r))) in A by (intros; ring). rewrite A. apply sumf_ext. intros q Hq.
  destruct (proj1 (bInjective_bSurjective H1) H2 q Hq) as (r & Hr & <-).
  rewrite (sumf_single M r); [rewrite Nat.eqb_refl; ring|auto|]. intros i Hi NE. destruct (Nat.eqb_spec (sg i) (sg r)); auto. exfalso. apply NE. auto.
Qed.

(** the order of the samples does not matter, to the surface or to R^2 *)
Theorem C87_order : forall lstsq N X f weights X' f' weights' M m s s' sg,
  lstsq_contract lstsq -> shape X = [M; m] -> shape f = [M; 1%nat] -> shape X' = [M; m] -> shape f' = [M; 1%nat] -> (1 <= m)%nat -> (1 <= N)%nat ->
  weights_fit weights M -> weights_fit weights' M -> unisolvent N M m X weights -> renumbering M sg ->
  (forall r, (r < M)%nat -> (forall j, (j < m)%nat -> X'.[r, j] = X.[sg r, j]) /\ f'.[r, 0%nat] = f.[sg r, 0%nat] /\ weight_of weights' r = weight_of weights (sg r)) ->
  poly_train lstsq N X f weights = Ok s -> poly_train lstsq N X' f' weights' = Ok s' ->
  (forall x, poly_value s' m x = poly_value s m x) /\ pa_Rsqr s' = pa_Rsqr s.
Proof.
  intros lstsq N X f weights X' f' weights' M m s s' sg HL HX Hf HX' Hf' Hm HN Hw Hw' HU HS HP T T'.
  destruct (C87_best_fit lstsq N X f weights M m s HL HX Hf Hm HN Hw T) as (B & E & R).
  destruct (C87_best_fit lstsq N X' f' weights' M m s' HL HX' Hf' Hm HN Hw' T') as ((P' & M') & _ & R').
  assert (FC : forall q, is_poly m N q -> fit_cost M X' f' weights' q = fit_cost M X f weights q).
  { intros q Hq. unfold fit_cost. rewrite <- (sumf_renumber M sg (fun r => (weight_of weights r * (f.[r, 0%nat] - q (fun j => X.[r, j]))) ^ 2) HS).
    apply sumf_ext. intros r Hr. destruct (HP r Hr) as (A1 & A2 & A3). rewrite A2, A3. do 3 f_equal. apply (is_poly_dep m N q _ _ Hq). auto. }
  assert (EQ : forall x, poly_value s' m x = poly_value s m x).
  { intros x. symmetry. apply (E HU). split; auto. intros q Hq. rewrite <- !FC by auto. auto. }
  split; [exact EQ|]. rewrite R, R'. do 3 f_equal.
  - rewrite FC by auto. unfold fit_cost. apply sumf_ext. intros r Hr. now rewrite EQ.
  - assert (MN : sumf M (fun j => weight_of weights' j * f'.[j, 0%nat]) = sumf M (fun j => weight_of weights j * f.[j, 0%nat])).
    { rewrite <- (sumf_renumber M sg (fun j => weight_of weights j * f.[j, 0%nat]) HS). apply sumf_ext. intros r Hr. destruct (HP r Hr) as (_ & A2 & A3). now rewrite A2, A3. }
    rewrite MN. set (mu := sumf M (fun j => weight_of weights j * f.[j, 0%nat]) / INR M).
    rewrite <- (sumf_renumber M sg (fun j => (weight_of weights j * f.[j, 0%nat] - mu) ^ 2) HS). apply sumf_ext. intros r Hr. destruct (HP r Hr) as (_ & A2 & A3). now rewrite A2, A3.
Qed.
Print Assumptions C87_order.

(** nor does the scale of the weights or of the data, to R^2 *)
Theorem C87_weight_scale : forall lstsq N X f weights f' weights' M m s s' c k,
  lstsq_contract lstsq -> shape X = [M; m] -> shape f = [M; 1%nat] -> shape f' = [M; 1%nat] -> (1 <= m)%nat -> (1 <= N)%nat ->
  weights_fit weights M -> weights_fit weights' M -> unisolvent N M m X weights -> c <> 0 -> k <> 0 ->
  (forall r, (r < M)%nat -> weight_of weights' r = c * weight_of weights r /\ f'.[r, 0%nat] = k * f.[r, 0%nat]) ->
  poly_train lstsq N X f weights = Ok s -> poly_train lstsq N X f' weights' = Ok s' ->
  (forall x, poly_value s' m x = k * poly_value s m x) /\ pa_Rsqr s' = pa_Rsqr s.
Proof.
  intros lstsq N X f weights f' weights' M m s s' c k HL HX Hf Hf' Hm HN Hw Hw' HU Hc Hk HP T T'.
  destruct (C87_best_fit lstsq N X f weights M m s HL HX Hf Hm HN Hw T) as (B & E & R).
  destruct (C87_best_fit lstsq N X f' weights' M m s' HL HX Hf' Hm HN Hw' T') as ((P' & M') & _ & R').
  assert (K2 : 0 < (c * k) ^ 2) by (rewrite <- Rsqr_pow2; apply Rsqr_pos_lt; apply Rmult_integral_contrapositive; auto).
  assert (FC : forall q, fit_cost M X f' weights' (fun x => k * q x) = (c * k) ^ 2 * fit_cost M X f weights q).
  { intros q. unfold fit_cost. rewrite <- sumf_scal_l. apply sumf_ext. intros r Hr. destruct (HP r Hr) as (A1 & A2). rewrite A1, A2. ring. }
  assert (KI : forall x, / k * poly_value s' m x = poly_value s m x).
  { intros x. symmetry. apply (E HU (fun x => / k * poly_value s' m x)). split; [now apply is_poly_scal|]. intros q Hq.
    apply Rmult_le_reg_l with ((c * k) ^ 2); auto. rewrite <- !FC.
    replace (fun x => k * (/ k * poly_value s' m x)) with (poly_value s' m) by (apply functional_extensionality; intros y; field; auto). apply M'. now apply is_poly_scal. }
  assert (EQ : forall x, poly_value s' m x = k * poly_value s m x) by (intros x; rewrite <- KI; field; auto).
  split; [exact EQ|]. rewrite R, R'.
  replace (poly_value s' m) with (fun x => k * poly_value s m x) by (apply functional_extensionality; intros; now rewrite EQ). rewrite FC.
  set (F := fit_cost M X f weights (poly_value s m)).
  replace (sumf M (fun i => (weight_of weights' i * f'.[i, 0%nat] - sumf M (fun j => weight_of weights' j * f'.[j, 0%nat]) / INR M) ^ 2))
    with ((c * k) ^ 2 * sumf M (fun i => (weight_of weights i * f.[i, 0%nat] - sumf M (fun j => weight_of weights j * f.[j, 0%nat]) / INR M) ^ 2)).
  2: { rewrite <- sumf_scal_l. rewrite (sumf_ext M (fun j => weight_of weights' j * f'.[j, 0%nat]) (fun j => c * k * (weight_of weights j * f.[j, 0%nat]))).
       - apply sumf_ext. intros i Hi. destruct (HP i Hi) as (A1 & A2). rewrite A1, A2, sumf_scal_l. unfold Rdiv. ring.
       - intros j Hj. destruct (HP j Hj) as (A1 & A2). rewrite A1, A2. ring. }
  set (G := sumf M (fun i => (weight_of weights i * f.[i, 0%nat] - sumf M (fun j => weight_of weights j * f.[j, 0%nat]) / INR M) ^ 2)).
  f_equal. unfold xdiv. destruct (Req_EM_T G 0) as [Z|Z]; destruct (Req_EM_T ((c * k) ^ 2 * G) 0) as [Z'|Z'].
  - unfold xsgninf. destruct (Rlt_dec 0 F), (Rlt_dec 0 ((c * k) ^ 2 * F)); try nra; auto. destruct (Rlt_dec F 0), (Rlt_dec ((c * k) ^ 2 * F) 0); try nra; auto.
  - exfalso. apply Z'. rewrite Z. ring.
  - exfalso. apply Rmult_integral in Z'. destruct Z'; [lra|contradiction].
  - f_equal. field. split; auto.
Qed.
Print Assumptions C87_weight_scale.

(** an invertible affine change of the inputs changes nothing else *)
Lemma is_poly_affine : forall n k N p (K : nat -> nat -> R) b, is_poly n N p -> is_poly k N (fun y => p (fun a => sumf k (fun q => K a q * y q) + b a)).
Proof.
  intros n k N p K b (T & a & e & D & E).
  apply is_poly_ext with (fun y => sumf T (fun t => a t * prodf n (fun j => (sumf k (fun q => K j q * y q) + b j) ^ e t j))).
  - intros y. now rewrite E.
  - apply is_poly_sum. intros t Ht. apply is_poly_scal. apply is_poly_le with (nsum n (e t)); [apply D; auto|].
    apply (is_poly_prod k n (fun j y => (sumf k (fun q => K j q * y q) + b j) ^ e t j) (e t)).
    intros j Hj. apply is_poly_le with (e t j * 1)%nat; [lia|]. apply (is_poly_pow k 1 (fun y => sumf k (fun q => K j q * y q) + b j)).
    apply is_poly_plus; [apply is_poly_linear|apply is_poly_const].
Qed.
Theorem C87_affine : forall lstsq N X X' f weights M m s s' (A A' : nat -> nat -> R) b,
  lstsq_contract lstsq -> shape X = [M; m] -> shape X' = [M; m] -> shape f = [M; 1%nat] -> (1 <= m)%nat -> (1 <= N)%nat -> weights_fit weights M ->
  unisolvent N M m X weights ->
  (* A' is the inverse of A *)
  (forall i k, (i < m)%nat -> (k < m)%nat -> sumf m (fun j => A' i j * A j k) = if Nat.eqb i k then 1 else 0) ->
  (forall i k, (i < m)%nat -> (k < m)%nat -> sumf m (fun j => A i j * A' j k) = if Nat.eqb i k then 1 else 0) ->
  (forall r i, (r < M)%nat -> (i < m)%nat -> X'.[r, i] = sumf m (fun j => A i j * X.[r, j]) + b i) ->
  poly_train lstsq N X f weights = Ok s -> poly_train lstsq N X' f weights = Ok s' ->
  (forall x, poly_value s' m (fun i => sumf m (fun j => A i j * x j) + b i) = poly_value s m x) /\ pa_Rsqr s' = pa_Rsqr s.
Proof.
  intros lstsq N X X' f weights M m s s' A A' b HL HX HX' Hf Hm HN Hw HU I1 I2 HP T T'.
  destruct (C87_best_fit lstsq N X f weights M m s HL HX Hf Hm HN Hw T) as (B & E & RQ).
  destruct (C87_best_fit lstsq N X' f weights M m s' HL HX' Hf Hm HN Hw T') as ((P' & M') & _ & RQ').
  set (to := fun (x : nat -> R) i => sumf m (fun j => A i j * x j) + b i).
  set (back := fun (y : nat -> R) i => sumf m (fun j => A' i j * y j) + sumf m (fun j => A' i j * - b j)).
  assert (FC : forall q, is_poly m N q -> fit_cost M X' f weights q = fit_cost M X f weights (fun x => q (to x))).
  { intros q Hq. unfold fit_cost. apply sumf_ext. intros r Hr. do 3 f_equal. apply (is_poly_dep m N q _ _ Hq). intros i Hi. unfold to. rewrite HP; auto. }
  assert (BT : forall q, is_poly m N q -> forall x, q (back (to x)) = q x).
  { intros q Hq x. apply (is_poly_dep m N q _ _ Hq). intros i Hi. unfold back, to.
    rewrite (sumf_ext m (fun j => A' i j * (sumf m (fun j0 => A j j0 * x j0) + b j)) (fun j => sumf m (fun k => A' i j * A j k * x k) + A' i j * b j)).
    2: { intros j Hj. rewrite (sumf_ext m (fun k => A' i j * A j k * x k) (fun k => A' i j * (A j k * x k))) by (intros; ring). rewrite sumf_scal_l. ring. }
    rewrite sumf_plus, (sumf_swap m m (fun j k => A' i j * A j k * x k)).
    rewrite (sumf_ext m (fun j => A' i j * - b j) (fun j => -1 * (A' i j * b j))) by (intros; ring). rewrite sumf_scal_l.
    rewrite (sumf_ext m (fun k => sumf m (fun j => A' i j * A j k * x k)) (fun k => (if Nat.eqb k i then 1 else 0) * x k)).
    2: { intros k Hk. rewrite sumf_scal_r, I1 by auto. now rewrite Nat.eqb_sym. }
    rewrite (GaussPoincare.sumf_ite m i x Hi). ring. }
  assert (PT : forall q, is_poly m N q -> is_poly m N (fun x => q (to x))) by (intros q Hq; exact (is_poly_affine m m N q A b Hq)).
  assert (PB : forall q, is_poly m N q -> is_poly m N (fun x => q (back x))) by (intros q Hq; exact (is_poly_affine m m N q A' (fun i => sumf m (fun j => A' i j * - b j)) Hq)).
  assert (EQ : forall x, poly_value s' m (to x) = poly_value s m x).
  { intros x. symmetry. apply (E HU (fun x => poly_value s' m (to x))). split; [now apply PT|]. intros q Hq.
    rewrite <- FC by auto. eapply Rle_trans; [apply (M' (fun x => q (back x))); auto|]. rewrite FC by auto. right. unfold fit_cost. apply sumf_ext. intros r Hr. now rewrite BT. }
  split; [exact EQ|]. rewrite RQ, RQ'. do 3 f_equal. rewrite FC by auto. unfold fit_cost. apply sumf_ext. intros r Hr. now rewrite EQ.
Qed.
Print Assumptions C87_affine.

(** the line fitted to (0, 0), (1, 1), (2, 5) is 5 x / 2 - 1 / 2; the inputs
    10 - 3 x give the same line in the new variable *)
Definition X87 : nd R := mat_of [[0]; [1]; [2]].
Definition Y87 : nd R := mat_of [[10]; [7]; [4]].
Definition f87 : nd R := mat_of [[0]; [1]; [5]].
Lemma poly_line : forall q, is_poly 1 1 q -> exists a b, forall x, q x = a + b * x 0%nat.
Proof.
  intros q (T & a & e & He & Hq). revert q Hq. induction T; intros q Hq.
  - exists 0, 0. intros x. rewrite Hq. unfold terms_eval. cbn [sumf]. ring.
  - destruct (IHT ltac:(intros; apply He; lia) (fun x => terms_eval 1 T a e x) ltac:(reflexivity)) as (u & v & E).
    assert (K := He T ltac:(lia)). unfold nsum in K. simpl in K.
    assert (Q : forall x, q x = u + v * x 0%nat + a T * x 0%nat ^ e T 0%nat) by (intros x; rewrite Hq, <- E; unfold terms_eval; cbn [sumf prodf]; ring).
    destruct (e T 0%nat) as [|[|k]]; [exists (u + a T), v|exists u, (v + a T)|lia]; intros x; rewrite Q; cbn [pow]; ring.
Qed.
Lemma X87_points : unisolvent 1 3 1 X87 None.
Proof.
  intros q Hq H x. destruct (poly_line q Hq) as (a & b & E). assert (H0 := H 0%nat ltac:(lia)). assert (H1 := H 1%nat ltac:(lia)). rewrite E in H0, H1. cbn in H0, H1.
  rewrite E. assert (a = 0) by lra. assert (b = 0) by lra. subst. ring.
Qed.
Example C87_case : exists s s', poly_train lstsq_ref 1 X87 f87 None = Ok s /\ poly_train lstsq_ref 1 Y87 f87 None = Ok s' /\
  (forall x, poly_value s 1 x = -1 / 2 + 5 / 2 * x 0%nat) /\ (forall x, poly_value s' 1 (fun _ => 10 - 3 * x 0%nat) = -1 / 2 + 5 / 2 * x 0%nat) /\ pa_Rsqr s' = pa_Rsqr s.
Proof.
  destruct (C38_training_returns lstsq_ref 1 X87 f87 None 3 1 lstsq_ref_contract lstsq_ref_total eq_refl eq_refl ltac:(lia) ltac:(lia) I ltac:(cbn; lia)) as (s & T).
  destruct (C38_training_returns lstsq_ref 1 Y87 f87 None 3 1 lstsq_ref_contract lstsq_ref_total eq_refl eq_refl ltac:(lia) ltac:(lia) I ltac:(cbn; lia)) as (s' & T').
  exists s, s'. split; [exact T|]. split; [exact T'|].
  assert (V : forall x, poly_value s 1 x = -1 / 2 + 5 / 2 * x 0%nat).
  { destruct (C87_best_fit lstsq_ref 1 X87 f87 None 3 1 s lstsq_ref_contract eq_refl eq_refl ltac:(lia) ltac:(lia) I T) as (_ & E & _).
    apply (E X87_points (fun x => -1 / 2 + 5 / 2 * x 0%nat)). apply orth_best.
    - apply is_poly_plus; [apply is_poly_const|]. apply is_poly_scal, is_poly_var. lia.
    - intros q Hq. destruct (poly_line q Hq) as (a & b & Q). rewrite (sumf_ext 3 _ (fun r => weight_of None r ^ 2 * ((f87.[r, 0%nat] - (-1 / 2 + 5 / 2 * X87.[r, 0%nat])) * (a + b * X87.[r, 0%nat])))) by (intros; now rewrite Q).
      cbn. field. }
  split; [exact V|].
  destruct (C87_affine lstsq_ref 1 X87 Y87 f87 None 3 1 s s' (fun _ _ => -3) (fun _ _ => - / 3) (fun _ => 10) lstsq_ref_contract eq_refl eq_refl eq_refl ltac:(lia) ltac:(lia) I X87_points) as (A & B); auto.
  - intros [|i] [|k] Hi Hk; try lia. cbn. field.
  - intros [|i] [|k] Hi Hk; try lia. cbn. field.
  - intros [|[|[|r]]] [|i] Hr Hi; try lia; cbn; ring.
  - split; [|exact B]. intros x. rewrite <- V, <- A.
    destruct (C87_best_fit lstsq_ref 1 Y87 f87 None 3 1 s' lstsq_ref_contract eq_refl eq_refl ltac:(lia) ltac:(lia) I T') as ((P & _) & _).
    apply (is_poly_dep 1 1 _ _ _ P). intros i Hi. cbn. ring.
Qed.

(** with weights, R^2 compares the weighted residuals with the spread of the
    weighted data about their plain mean, which no weighted constant fits: it can
    be negative, or minus infinity *)
Definition g87 : nd R := mat_of [[1]; [2]; [4]].
Definition w87 : nd R := mat_of [[1]; [/ 2]; [/ 4]].
Theorem C87_weighted_R2_refuted : exists s, poly_train lstsq_ref 1 X87 g87 (Some w87) = Ok s /\ pa_Rsqr s = NInf.
Proof.
  destruct (C38_training_returns lstsq_ref 1 X87 g87 (Some w87) 3 1 lstsq_ref_contract lstsq_ref_total eq_refl eq_refl ltac:(lia) ltac:(lia) eq_refl ltac:(cbn; lia)) as (s & T).
  exists s. split; [exact T|].
  destruct (C87_best_fit lstsq_ref 1 X87 g87 (Some w87) 3 1 s lstsq_ref_contract eq_refl eq_refl ltac:(lia) ltac:(lia) eq_refl T) as ((P & _) & _ & RQ).
  rewrite RQ.
  assert (Z : sumf 3 (fun i => (weight_of (Some w87) i * g87.[i, 0%nat] - sumf 3 (fun j => weight_of (Some w87) j * g87.[j, 0%nat]) / INR 3) ^ 2) = 0) by (cbn; field).
  rewrite Z.
  assert (F : 0 < fit_cost 3 X87 g87 (Some w87) (poly_value s 1)).
  { destruct (poly_line _ P) as (a & b & Q). unfold fit_cost. cbn [sumf weight_of]. rewrite !Q. cbn.
    destruct (Req_dec (1 - (a + b * 0)) 0) as [E0|E0]; [destruct (Req_dec (2 - (a + b * 1)) 0) as [E1|E1]|].
    - assert (a = 1) by lra. assert (b = 1) by lra. subst. lra.
    - assert (E2 : 0 < (2 - (a + b * 1)) * (2 - (a + b * 1))) by (apply Rsqr_pos_lt; auto).
      assert (A1 := Rle_0_sqr (1 - (a + b * 0))). assert (A2 := Rle_0_sqr (4 - (a + b * 2))). unfold Rsqr in A1, A2. lra.
    - assert (E2 : 0 < (1 - (a + b * 0)) * (1 - (a + b * 0))) by (apply Rsqr_pos_lt; auto).
      assert (A1 := Rle_0_sqr (2 - (a + b * 1))). assert (A2 := Rle_0_sqr (4 - (a + b * 2))). unfold Rsqr in A1, A2. lra. }
  unfold xdiv. destruct (Req_EM_T 0 0) as [_|N]; [|contradiction]. unfold xsgninf. destruct (Rlt_dec 0 _) as [_|N]; [|contradiction]. reflexivity.
Qed.
Print Assumptions C87_weighted_R2_refuted.
