(** Final theorems on what zero eigenvalues certify: C89 *)
From Coq Require Import String Reals Lra Lia List Arith ZArith Bool FunctionalExtensionality.
From Verif Require Import Prelude Py NumArr LinAlg Lsq Sorting Spectral Det EighRef Toy M_Misc M_RespSurf M_Gradients M_Subspaces M_SimRunners M_Quadrature M_QP M_Domains M_Designs M_ASRS M_Integrals
  P_Misc P_IndexSet P_Poly P_PolyFacts P_PolyTrain P_LocalLinear P_Subspaces P_Estimators P_Partition P_Bootstrap P_SubsState P_SubsLive P_Rbf Deriv P_Domains PolySub
  GaussRules Tridiag P_Tensor P_Quadrature Cubature GaussPoincare GaussRotate GaussCond
  Properties_Subspaces Properties_SubsState Properties_RespSurf Properties_Quadrature Properties_QP Properties_Domains Properties_ASRS Properties_Integrals Properties_Integrate Properties_EndToEnd Properties_Ridge
  Properties_Cubature Properties_Poincare Properties_Stein Properties_PolyInvariance Properties_ActiveDim.
Import ListNotations.
Open Scope R_scope.

(** the point W1 t *)
Definition lift (n : nat) (V : nat -> nat -> R) (t : nat -> R) : nat -> R := fun i => sumf n (fun a => V i a * t a).
Lemma coords_lift : forall m n V t a, orthonormal m m V -> (n <= m)%nat -> (a < n)%nat -> coords m V (lift n V t) a = t a.
Proof.
  intros m n V t a HO Hn Ha. unfold coords, lift.
  rewrite (sumf_ext m _ (fun i => sumf n (fun b => t b * (V i a * V i b)))) by (intros; rewrite <- sumf_scal_l; apply sumf_ext; intros; ring).
  rewrite sumf_swap. rewrite (sumf_ext n _ (fun b => (if Nat.eqb b a then 1 else 0) * t b)); [apply sumf_ite; auto|].
  intros b Hb. rewrite sumf_scal_l, (HO a b) by lia. unfold kron_delta. rewrite Nat.eqb_sym. ring.
Qed.
Lemma lift_poly : forall m n N V f, is_poly m N f -> is_poly n N (fun t => f (lift n V t)).
Proof. intros m n N V f H. apply (is_poly_comp m n N f V H). Qed.
Lemma determined_lift : forall m n V f x, orthonormal m m V -> (n <= m)%nat -> determined_by m n V f -> f x = f (lift n V (coords m V x)).
Proof. intros m n V f x HO Hn HD. apply HD. intros a Ha. now rewrite coords_lift. Qed.

(** the mean of a function of the first n active variables *)
Lemma cmean_self : forall k n N g, is_poly n N g -> cmean n k g g.
Proof.
  induction k; intros n N g P; cbn [cmean]; [reflexivity|]. exists g. split; [|now apply (IHk n N)].
  intros x. apply (gm_ext (fun _ => g x)); [|apply gm_const]. intros t. now rewrite (poly_upd n N g) by (auto; lia).
Qed.
Lemma determined_mean : forall m n N V f L, orthonormal m m V -> (n <= m)%nat -> is_poly m N f -> determined_by m n V f ->
  Ex n (fun t => f (lift n V t)) L -> Ex m f L.
Proof.
  intros m n N V f L HO Hn Pf HD HL. destruct (ex_poly m N f Pf) as (A & EA). replace L with A; [exact EA|].
  apply (ex_unique m (fun u => f (lmap m V u))); [now apply (rotate m N)|].
  assert (T := tower (m - n) n _ _ L (cmean_self (m - n) n N _ (lift_poly m n N V f Pf)) HL). replace (n + (m - n))%nat with m in T by lia.
  eapply ex_ext; [|exact T]. intros u. cbv beta. symmetry. apply HD. intros a Ha. rewrite coords_lmap, coords_lift by (auto; lia). reflexivity.
Qed.
(** its gradient *)
Lemma determined_gradient : forall m n N V f (G : nat -> (nat -> R) -> R) x k, orthonormal m m V -> (n <= m)%nat -> is_poly m N f -> (forall i, (i < m)%nat -> pd i f (G i)) ->
  determined_by m n V f -> (k < m)%nat ->
  G k x = sumf n (fun a => sumf m (fun i => G i (lift n V (coords m V x)) * V i a) * V k a).
Proof.
  intros m n N V f G x k HO Hn Pf HG HD Hk.
  set (ek := fun i => if Nat.eqb i k then 1 else 0).
  assert (D1 := line_D m N f G x ek 0 Pf HG).
  assert (D2 := line_D m N f G (lift n V (coords m V x)) (lift n V (coords m V ek)) 0 Pf HG).
  assert (D3 : D (fun s => f (fun i => x i + s * ek i)) 0 (sumf m (fun k0 => lift n V (coords m V ek) k0 * G k0 (fun i => lift n V (coords m V x) i + 0 * lift n V (coords m V ek) i)))).
  { eapply D_ext; [exact D2|]. intros s. cbv beta. apply HD. intros a Ha.
    transitivity (coords m V x a + s * coords m V ek a).
    - unfold coords. rewrite (sumf_ext m _ (fun i => V i a * x i + s * (V i a * ek i))) by (intros; ring). rewrite sumf_plus, sumf_scal_l. reflexivity.
    - rewrite <- (coords_lift m n V (coords m V x) a HO Hn Ha), <- (coords_lift m n V (coords m V ek) a HO Hn Ha) at 1.
      unfold coords at 1 3 5. rewrite <- sumf_scal_l, <- sumf_plus. apply sumf_ext. intros; ring. }
  assert (Q := uniqueness_limite _ _ _ _ D1 D3).
  rewrite (sumf_ext m _ (fun i => (if Nat.eqb i k then 1 else 0) * G i x)) in Q.
  2: { intros i Hi. unfold ek. do 2 f_equal. apply functional_extensionality. intros j. ring. }
  rewrite sumf_ite in Q by auto. rewrite Q.
  rewrite (sumf_ext m _ (fun i => sumf n (fun a => G i (lift n V (coords m V x)) * V i a * V k a))).
  - rewrite sumf_swap. apply sumf_ext. intros a Ha. now rewrite sumf_scal_r.
  - intros i Hi. unfold lift at 1. rewrite <- sumf_scal_r. apply sumf_ext. intros a Ha.
    replace (coords m V ek a) with (V k a). 2: { unfold coords, ek. rewrite (sumf_ext m _ (fun i => (if Nat.eqb i k then 1 else 0) * V i a)) by (intros; ring). now rewrite sumf_ite. }
    replace (fun i0 => lift n V (coords m V x) i0 + 0 * lift n V (coords m V ek) i0) with (lift n V (coords m V x)) by (apply functional_extensionality; intros; ring).
    ring.
Qed.

(** ** after partition(n) *)
Lemma partition_frame : forall (Gn : gen) (U : Type) m n V (ws : world Gn U (nd R) * subspaces), s_eigenvecs (snd ws) = Some V -> shape V = [m; m] ->
  orthonormal m m (fun i k => V.[i, k]) -> (1 <= n <= m)%nat ->
  exists ws' W1 W2 d, ss_partition (IsA (Z.of_nat n)) ws = (Ok tt, ws') /\ frame (snd ws') m n V W1 W2 /\ unbounded_domain (IsA (snd ws')) = Ok d /\ d_kind d = DUnbounded /\ d_subs d = snd ws'.
Proof.
  intros Gn U m n V ws EV SV HO Hn.
  assert (NR : nrows V = m) by (unfold nrows; rewrite SV; reflexivity).
  destruct (proj2 (ss_partition_iff (IsA (Z.of_nat n)) ws)) as (ws' & EP).
  { exists (Z.of_nat n), V. split; [reflexivity|]. split; [exact EV|]. lia. }
  destruct (ss_partition_ok _ _ _ _ EP) as (n' & V' & A & B & Q1 & Q2 & _ & Q4 & Q5 & Q6). injection Q1 as <-. rewrite EV in Q2. injection Q2 as <-.
  destruct (Q6 m SV) as (_ & _ & SA & SB & CA & CB). rewrite Nat2Z.id in *.
  assert (FR : frame (snd ws') m n V A B) by (rewrite Q4; constructor; auto; lia).
  exists ws', A, B, (AVD DUnbounded (snd ws') m n None None None None). split; [exact EP|]. split; [exact FR|].
  split; [|split; reflexivity]. unfold unbounded_domain. rewrite (fr_1 _ _ _ _ _ _ FR). unfold shape2. rewrite (fr_s1 _ _ _ _ _ _ FR). reflexivity.
Qed.

(** a monomial as a list of coefficients *)
Lemma peval_zeros : forall e c x, peval (repeat 0 e ++ [c]) x = c * x ^ e.
Proof. induction e; intros c x; cbn [repeat app peval]; [simpl; ring|]. rewrite IHe. simpl. ring. Qed.
Lemma nsum_le : forall n e k, (k < n)%nat -> (e k <= nsum n e)%nat.
Proof.
  induction n; intros e k Hk; [lia|]. rewrite nsum_S. destruct (Nat.eq_dec k n) as [->|]; [lia|]. specialize (IHn e k ltac:(lia)). lia.
Qed.
Lemma prodf_first : forall n c (h : nat -> R), (1 <= n)%nat -> prodf n (fun k => (if Nat.eqb k 0 then c else 1) * h k) = c * prodf n h.
Proof.
  intros n c h Hn. induction n; [lia|]. cbn [prodf]. destruct n.
  - cbn. ring.
  - rewrite IHn by lia. rewrite (proj2 (Nat.eqb_neq (S n) 0)) by lia. ring.
Qed.

(** Gradients of a polynomial f at points that determine them, and eigenvalues
    that are 0 from the n-th on: integrate over n active variables, with p
    points in each, returns the mean of f over all m variables. *)
Theorem C89_mean : forall eigh argsort lstsq norm2 det B ch eig del (Gn : gen) (U : Type) M m n N f (G : nat -> (nat -> R) -> R) x df weights ptype nboot
    (ws ws1 : world Gn U (nd R) * subspaces) e (fn : ufun (U := U) (nd R) (nd R)) p Nq NMC,
  eigh_contract eigh -> argsort_contract argsort -> norm2_contract norm2 -> det_contract det -> eig_contract eig -> eig_total eig ->
  is_poly m N f -> (forall i, (i < m)%nat -> pd i f (G i)) ->
  shape df = [M; m] -> (forall r i, (r < M)%nat -> (i < m)%nat -> df.[r, i] = G i (fun k => x.[r, k])) ->
  weights_fit weights M -> (forall r, (r < M)%nat -> 0 <= weight_of weights r) ->
  Properties_PolyInvariance.unisolvent (pred N) M m x weights ->
  ss_compute eigh argsort lstsq norm2 det None None (Some df) weights "AS" ptype nboot ws = (Ok tt, ws1) ->
  (1 <= n <= m)%nat -> s_eigenvals (snd ws1) = Some e -> (forall k, (n <= k < m)%nat -> e.[k, 0%nat] = 0) ->
  (* a user function that evaluates f *)
  (forall x u, shape x = [1%nat; m] -> exists v u', fn x u = (Ok v, u') /\ size v = 1%nat /\ flat v 0 = f (fun i => x.[0%nat, i])) ->
  (1 <= p <= 10 ^ 24)%Z -> (p ^ Z.of_nat n <= Nq < (p + 1) ^ Z.of_nat n)%Z -> (1 <= NMC)%Z -> (N < 2 * Z.to_nat p)%nat ->
  exists ws' d w' mu, ss_partition (IsA (Z.of_nat n)) ws1 = (Ok tt, ws') /\ unbounded_domain (IsA (snd ws')) = Ok d /\
    integrate B ch eig argsort del (IsA fn) (IsA (AVM MUnbounded d)) (IsA Nq) (IsA NMC) (fst ws') = (Ok (mu, mu, mu), w') /\
    mean_nd gaussian_mean m f mu.
Proof.
  intros eigh argsort lstsq norm2 det B ch eig del Gn U M m n N f G x df weights ptype nboot ws ws1 e fn p Nq NMC HE HA HN HD HI HIT Pf HG Sd Hdf Hw Hp HU EC Hn Ee HZ Hfn Hpp HNq HMC HNp.
  destruct (C88_active_dimension eigh argsort lstsq norm2 det Gn U M m N f G x df weights ptype nboot ws ws1 HE HA HN HD Pf HG Sd Hdf Hw Hp HU EC) as (e' & V & Ee' & EV & _ & SV & HO & H88).
  rewrite Ee in Ee'. injection Ee' as <-. assert (DB := proj2 (H88 n ltac:(lia)) HZ). set (Vm := fun i k => V.[i, k]) in *.
  destruct (partition_frame Gn U m n V ws1 EV SV HO Hn) as (ws' & W1 & W2 & d & EP & FR & ED & DK & DS). rewrite <- DS in FR.
  destruct (lift_poly m n N Vm f Pf) as (T & a & ex & DEG & EX).
  set (c := fun t k => repeat 0 (ex t k) ++ [if Nat.eqb k 0 then a t else 1]).
  destruct (C46_unbounded_exact Gn U B ch eig argsort del fn (AVM MUnbounded d) Nq NMC m n V W1 W2 p T c (fst ws') FR ltac:(lia) eq_refl DK HI HIT HA Hpp HNq HMC) as (mean & w' & HM & HQ).
  - intros t k Ht Hk. unfold c. rewrite app_length, repeat_length. simpl. pose proof (nsum_le n (ex t) k Hk). specialize (DEG t Ht). lia.
  - intros x0 u Sx. destruct (Hfn x0 u Sx) as (v & u' & F1 & F2 & F3). exists v, u'. split; [exact F1|]. split; [exact F2|]. rewrite F3.
    rewrite (determined_lift m n Vm f _ HO ltac:(lia) DB), EX. unfold terms_eval. apply sumf_ext. intros t Ht.
    rewrite <- (prodf_first n (a t)) by lia. apply prodf_ext. intros k Hk. unfold c. rewrite peval_zeros. do 2 f_equal.
    unfold coords. apply sumf_ext. intros j Hj. unfold Vm. rewrite (fr_e1 _ _ _ _ _ _ FR) by auto. ring.
  - exists ws', d, w', (sumf T (fun t => prodf n (mean t))). split; [exact EP|]. split; [exact ED|]. split; [exact HQ|].
    apply (determined_mean m n N Vm f _ HO ltac:(lia) Pf DB).
    eapply ex_ext; [intros t; symmetry; apply EX|].
    replace (sumf T (fun t => prodf n (mean t))) with (sumf T (fun t => a t * prodf n (fun j => mom (ex t j)))); [apply ex_terms|].
    apply sumf_ext. intros t Ht. rewrite <- (prodf_first n (a t)) by lia. apply prodf_ext. intros k Hk.
    apply (gaussian_mean_unique (peval (c t k))); [|apply HM; auto].
    eapply gm_ext; [|apply gm_scal, mom_mean]. intros y. cbv beta. unfold c. now rewrite peval_zeros.
Qed.
Print Assumptions C89_mean.

(** Under the same conditions the surface of degree N over the n active
    variables, trained with values of f, predicts f and its gradient
    everywhere. *)
Theorem C89_predictions : forall eigh argsort lstsq norm2 det solve cholesky fminbound (Gn : gen) (U : Type) M m n N f (G : nat -> (nat -> R) -> R) x df weights ptype nboot
    (ws ws1 : world Gn U (nd R) * subspaces) e V X y P v,
  eigh_contract eigh -> argsort_contract argsort -> norm2_contract norm2 -> det_contract det -> lstsq_contract lstsq -> lstsq_total lstsq -> solve_sound solve ->
  is_poly m N f -> (1 <= N)%nat -> (forall i, (i < m)%nat -> pd i f (G i)) ->
  shape df = [M; m] -> (forall r i, (r < M)%nat -> (i < m)%nat -> df.[r, i] = G i (fun k => x.[r, k])) ->
  weights_fit weights M -> (forall r, (r < M)%nat -> 0 <= weight_of weights r) ->
  Properties_PolyInvariance.unisolvent (pred N) M m x weights ->
  ss_compute eigh argsort lstsq norm2 det None None (Some df) weights "AS" ptype nboot ws = (Ok tt, ws1) ->
  (1 <= n <= m)%nat -> s_eigenvals (snd ws1) = Some e -> s_eigenvecs (snd ws1) = Some V -> (forall k, (n <= k < m)%nat -> e.[k, 0%nat] = 0) ->
  (* P training points whose active variables determine a polynomial of degree N *)
  shape X = [P; m] -> shape y = [P; 1%nat] -> (forall r, (r < P)%nat -> y.[r, 0%nat] = f (fun i => X.[r, i])) ->
  Properties_Ridge.unisolvent n N P (fun r => coords m (fun i k => V.[i, k]) (fun i => X.[r, i])) ->
  exists ws' d s', ss_partition (IsA (Z.of_nat n)) ws1 = (Ok tt, ws') /\ unbounded_domain (IsA (snd ws')) = Ok d /\
    train_with_data solve cholesky fminbound lstsq (ASRS (RSPoly N None) (AVM MUnbounded d)) X y v = Ok s' /\
    forall Z Q, shape Z = [Q; m] -> exists F D, asrs_predict s' Z true = Ok (F, Some D) /\ shape F = [Q; 1%nat] /\ shape D = [Q; m] /\
      (forall r, (r < Q)%nat -> F.[r, 0%nat] = f (fun i => Z.[r, i])) /\
      (forall r k, (r < Q)%nat -> (k < m)%nat -> D.[r, k] = G k (fun i => Z.[r, i])).
Proof.
  intros eigh argsort lstsq norm2 det solve cholesky fminbound Gn U M m n N f G x df weights ptype nboot ws ws1 e V X y P v HE HA HN HD Cl Tl Cs Pf HN1 HG Sd Hdf Hw Hp HU EC Hn Ee EV HZ SX Sy Hy HT.
  destruct (C88_active_dimension eigh argsort lstsq norm2 det Gn U M m N f G x df weights ptype nboot ws ws1 HE HA HN HD Pf HG Sd Hdf Hw Hp HU EC) as (e' & V' & Ee' & EV' & _ & SV & HO & H88).
  rewrite Ee in Ee'. injection Ee' as <-. rewrite EV in EV'. injection EV' as <-. assert (DB := proj2 (H88 n ltac:(lia)) HZ). set (Vm := fun i k => V.[i, k]) in *.
  destruct (partition_frame Gn U m n V ws1 EV SV HO Hn) as (ws' & W1 & W2 & d & EP & FR & ED & DK & DS). rewrite <- DS in FR.
  set (b := fun a i => Vm i a).
  assert (DC : forall Z r, dirs m b Z r = coords m Vm (fun i => Z.[r, i])) by (intros; reflexivity).
  destruct (C80_ridge_predictions solve cholesky fminbound lstsq MUnbounded d m n V W1 W2 b (fun a q => if Nat.eqb q a then 1 else 0) N (fun t => f (lift n Vm t))
    (fun a t => sumf m (fun i => G i (lift n Vm t) * Vm i a)) P X y v Cl Tl Cs FR ltac:(lia)) as (s' & ET & HP); auto.
  - intros a i Ha Hi. rewrite sumf_ite by auto. unfold b, Vm. now rewrite (fr_e1 _ _ _ _ _ _ FR).
  - now apply (lift_poly m).
  - intros t h.
    assert (L := line_D m N f G (lift n Vm t) (lift n Vm h) 0 Pf HG). eapply D_eq; [eapply D_ext; [exact L|]|].
    + intros u. cbv beta. f_equal. apply functional_extensionality. intros i. unfold lift. rewrite <- sumf_scal_l, <- sumf_plus. apply sumf_ext. intros; ring.
    + cbv beta. replace (fun i => lift n Vm t i + 0 * lift n Vm h i) with (lift n Vm t) by (apply functional_extensionality; intros; ring).
      rewrite (sumf_ext m _ (fun k => sumf n (fun a => G k (lift n Vm t) * Vm k a * h a))) by (intros k Hk; unfold lift at 1; rewrite <- sumf_scal_r; apply sumf_ext; intros; ring).
      rewrite sumf_swap. apply sumf_ext. intros a Ha. now rewrite sumf_scal_r.
  - intros r Hr. rewrite Hy by auto. rewrite DC. now apply (determined_lift m n Vm f).
  - exists ws', d, s'. split; [exact EP|]. split; [exact ED|]. split; [exact ET|]. intros Z Q SZ.
    destruct (HP Z Q SZ) as (F & D & E1 & _ & SF & SD & VF & VD). exists F, D. split; [exact E1|]. split; [exact SF|]. split; [exact SD|]. split.
    + intros r Hr. rewrite VF by auto. rewrite DC. symmetry. now apply (determined_lift m n Vm f).
    + intros r k Hr Hk. rewrite VD by auto. rewrite DC. unfold b. symmetry. now apply (determined_gradient m n N Vm f G).
Qed.
Print Assumptions C89_predictions.

(** (x + y)^2 again: its mean is 2, and its value at (3, 4) is 49 *)
Lemma quad_points : forall (t : nat -> nat -> R) s, s <> 0 -> (forall r, (r < 3)%nat -> t r 0%nat = INR r * s) -> Properties_Ridge.unisolvent 1 2 3 t.
Proof.
  intros t s Hs Ht p (T & a & e & DG & E) H x.
  assert (HL : index_set 2 1 = Ok [[0]; [1]; [2]]%nat) by reflexivity.
  destruct (terms_collect 2 1 _ HL ltac:(lia) T a e DG) as (w & Hw).
  assert (Q : forall r, (r < 3)%nat -> poly_eval 1 [[0]; [1]; [2]]%nat w (t r) = 0) by (intros r Hr; rewrite <- Hw, <- E; now apply H).
  pose proof (Q 0%nat ltac:(lia)) as Q0. pose proof (Q 1%nat ltac:(lia)) as Q1. pose proof (Q 2%nat ltac:(lia)) as Q2.
  unfold poly_eval, mono in *. cbn in Q0, Q1, Q2. rewrite !Ht in Q0, Q1, Q2 by lia. simpl INR in *.
  rewrite E, Hw. unfold poly_eval, mono. cbn.
  assert (W0 : w 0%nat = 0) by lra.
  assert (A1 : s * (w 1%nat + s * w 2%nat) = 0) by lra. assert (A2 : s * (w 1%nat + 2 * s * w 2%nat) = 0) by lra.
  apply Rmult_integral in A1. apply Rmult_integral in A2. destruct A1 as [|A1]; [contradiction|]. destruct A2 as [|A2]; [contradiction|].
  assert (A3 : s * w 2%nat = 0) by lra. assert (W1 : w 1%nat = 0) by lra. apply Rmult_integral in A3. destruct A3 as [|W2]; [contradiction|].
  rewrite W0, W1, W2. ring.
Qed.
Example C89_case : exists x w df ws1 ws' d s' w' F D, gauss_hermite eigh_ref argsort_ref (NList [2; 2]%Z) = Ok (x, w) /\
  ss_compute eigh_ref argsort_ref lstsq_ref norm2_ref det_ref None None (Some df) (Some w) "AS" "EVG" 0 (toy_world (L := nd R) tt, subs_new) = (Ok tt, ws1) /\
  ss_partition (IsA 1%Z) ws1 = (Ok tt, ws') /\ unbounded_domain (IsA (snd ws')) = Ok d /\
  integrate backend_ref (fun _ => Err ValueError) eigh_ref argsort_ref (fun _ => Err ValueError)
      (IsA (pure (fun x => (x.[0%nat, 0%nat] + x.[0%nat, 1%nat]) ^ 2))) (IsA (AVM MUnbounded d)) (IsA 2%Z) (IsA 7%Z) (fst ws') = (Ok (2, 2, 2), w') /\
  train_with_data (fun _ _ => Err ValueError) (fun _ => Err ValueError) (fun _ => Err ValueError) lstsq_ref (ASRS (RSPoly 2 None) (AVM MUnbounded d))
    (mat_of [[0; 0]; [1; 1]; [2; 2]]) (mat_of [[0]; [4]; [16]]) None = Ok s' /\
  asrs_predict s' (mat_of [[3; 4]]) true = Ok (F, Some D) /\ F.[0%nat, 0%nat] = 49 /\ D.[0%nat, 0%nat] = 14 /\ D.[0%nat, 1%nat] = 14.
Proof.
  destruct (C31_gauss_hermite_tensor eigh_ref argsort_ref [2; 2]%Z eig_ref_contract eig_ref_total argsort_ref_contract ltac:(repeat constructor; lia)) as (x & w & E & _).
  set (df := mk2 (nrows x) 2 (fun r i => G88 i (fun k => x.[r, k]))).
  assert (HL : Forall (fun n => 1 <= n <= 10 ^ 24)%Z [2; 2]%Z) by (repeat constructor; lia).
  assert (HD : forall k, (k < 2)%nat -> (2 <= Z.to_nat (nth k [2; 2]%Z 0%Z))%nat) by (intros [|[|k]] Hk; simpl; lia).
  assert (HU : Properties_PolyInvariance.unisolvent 1 (nrows x) 2 x (Some w)).
  { apply (hermite_unisolvent eigh_ref argsort_ref [2; 2]%Z 1 x w eig_ref_contract eig_ref_total argsort_ref_contract HL); [|exact E]. intros k Hk. specialize (HD k Hk). lia. }
  destruct (hermite_rule eigh_ref argsort_ref [2; 2]%Z 0 x w eig_ref_contract eig_ref_total argsort_ref_contract HL) as (_ & Sw & PW & _); auto.
  { intros k Hk. specialize (HD k Hk). lia. }
  destruct (C88_gauss_hermite eigh_ref eigh_ref argsort_ref lstsq_ref norm2_ref det_ref toy_gen unit [2; 2]%Z 2 f88 G88 x w df (toy_world (L := nd R) tt, subs_new)
    eigh_ref_contract eigh_ref_total eig_ref_contract eig_ref_total argsort_ref_contract norm2_ref_contract det_ref_contract ltac:(simpl; lia) HL f88_poly HD f88_pd E eq_refl ltac:(intros; reflexivity))
    as (ws1 & e & V & EC & Ee & EV & HB).
  destruct (HB 1%nat ltac:(simpl; lia)) as (I1 & D1).
  assert (Z1 : forall k, (1 <= k < 2)%nat -> e.[k, 0%nat] = 0).
  { apply I1. exists (fun _ _ => 1). intros y y' Hy. specialize (Hy 0%nat ltac:(lia)). unfold coords in Hy. cbn [sumf List.length] in Hy.
    unfold f88. replace (y 0%nat + y 1%nat) with (y' 0%nat + y' 1%nat) by lra. reflexivity. }
  specialize (D1 Z1).
  assert (S0 : V.[0%nat, 0%nat] + V.[1%nat, 0%nat] <> 0).
  { intros S0. assert (Q := D1 (fun _ => 1) (fun _ => 0) ltac:(intros a Ha; replace a with 0%nat by lia; unfold coords; cbn [sumf List.length]; lra)). unfold f88 in Q. lra. }
  assert (HW : forall r, (r < nrows x)%nat -> 0 <= weight_of (Some w) r) by (intros r Hr; left; apply (PW r Hr)).
  destruct (C89_mean eigh_ref argsort_ref lstsq_ref norm2_ref det_ref backend_ref (fun _ => Err ValueError) eigh_ref (fun _ => Err ValueError) toy_gen unit (nrows x) 2 1 2 f88 G88 x df (Some w) "EVG" 0
    (toy_world (L := nd R) tt, subs_new) ws1 e (pure (fun x => (x.[0%nat, 0%nat] + x.[0%nat, 1%nat]) ^ 2)) 2%Z 2%Z 7%Z
    eigh_ref_contract argsort_ref_contract norm2_ref_contract det_ref_contract eig_ref_contract eig_ref_total f88_poly f88_pd eq_refl ltac:(intros; reflexivity) Sw HW HU EC ltac:(lia) Ee Z1)
    as (ws' & d & w' & mu & EP & ED & EI & MU); try lia.
  { intros x0 u Sx. do 2 eexists. split; [reflexivity|]. split; [reflexivity|]. unfold flat. cbn [at_ shape unravel]. unfold f88. ring. }
  destruct (C89_predictions eigh_ref argsort_ref lstsq_ref norm2_ref det_ref (fun _ _ => Err ValueError) (fun _ => Err ValueError) (fun _ => Err ValueError) toy_gen unit (nrows x) 2 1 2 f88 G88 x df (Some w) "EVG" 0
    (toy_world (L := nd R) tt, subs_new) ws1 e V (mat_of [[0; 0]; [1; 1]; [2; 2]]) (mat_of [[0]; [4]; [16]]) 3 None
    eigh_ref_contract argsort_ref_contract norm2_ref_contract det_ref_contract lstsq_ref_contract lstsq_ref_total ltac:(intros p q A B V0 _ _ H; discriminate)
    f88_poly ltac:(lia) f88_pd eq_refl ltac:(intros; reflexivity) Sw HW HU EC ltac:(lia) Ee EV Z1 eq_refl eq_refl)
    as (ws2 & d2 & s' & EP2 & ED2 & ET & HP).
  { intros r Hr. do 3 (destruct r as [|r]; [unfold f88; cbn; ring|]). lia. }
  { apply (quad_points _ (V.[0%nat, 0%nat] + V.[1%nat, 0%nat]) S0). intros r Hr. unfold coords. cbn [sumf]. do 3 (destruct r as [|r]; [cbn; ring|]). lia. }
  change (Z.of_nat 1) with 1%Z in *. rewrite EP in EP2. injection EP2 as <-. rewrite ED in ED2. injection ED2 as <-.
  destruct (HP (mat_of [[3; 4]]) 1%nat eq_refl) as (F & D & E1 & _ & _ & VF & VD).
  assert (M2 : mean_nd gaussian_mean 2 f88 2).
  { eapply ex_ext; [|replace 2 with (1 + 2 * (0 * 0) + 1 * 1) by ring; apply ex_lin; [apply ex_lin|]].
    2: { replace 1 with (mom 2) by apply mom_2. apply (ex_pow 2 0 2). lia. }
    2: { instantiate (1 := fun y => y 0%nat * y 1%nat). apply (stein 2 1 (fun y => y 1%nat) (fun _ => 0) 0 _ ltac:(lia) (is_poly_var 2 1 ltac:(lia))).
         - intros y. unfold upd. simpl. apply D_const.
         - rewrite Rmult_0_l. apply ex_const. }
    2: { replace 1 with (mom 2) at 1 by apply mom_2. apply (ex_pow 2 1 2). lia. }
    intros y. unfold f88. cbv beta. ring. }
  rewrite (ex_unique _ _ _ _ MU M2) in EI.
  exists x, w, df, ws1, ws', d, s', w', F, D. split; [exact E|]. split; [exact EC|]. split; [exact EP|]. split; [exact ED|]. split; [exact EI|]. split; [exact ET|]. split; [exact E1|].
  rewrite VF, !VD by lia. unfold f88, G88. cbn. repeat split; ring.
Qed.
