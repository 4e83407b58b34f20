(** Final theorems on the number of nonzero eigenvalues: C88 *)
From Coq Require Import String Reals Lra Lia List Arith ZArith Bool FunctionalExtensionality Classical.
From Verif Require Import Prelude Py NumArr Toy GaussRules M_Misc M_RespSurf M_Gradients M_Subspaces M_Quadrature
  Lsq Det EighRef Tridiag Sorting P_Tensor P_Bootstrap P_Misc P_Quadrature P_IndexSet P_Poly P_PolyFacts PolySub Spectral P_Subspaces P_SubsState P_SubsLive M_SimRunners LinAlg Cubature
  Properties_Misc Properties_Quadrature Properties_Subspaces Properties_SubsState Properties_Cubature Deriv GaussPoincare GaussRotate GaussCond Properties_Poincare Properties_Stein
  Properties_Ridge Properties_PolyInvariance.
Import ListNotations.
Open Scope R_scope.

(** f x depends on x only through the n numbers B_0.x, .., B_(n-1).x *)
Definition determined_by (m n : nat) (B : nat -> nat -> R) (f : (nat -> R) -> R) : Prop :=
  forall x x', (forall a, (a < n)%nat -> coords m B x a = coords m B x' a) -> f x = f x'.

(** ** along a line *)
Lemma line_D : forall m N f (G : nat -> (nat -> R) -> R) x h t, is_poly m N f -> (forall i, (i < m)%nat -> pd i f (G i)) ->
  D (fun s => f (fun i => x i + s * h i)) t (sumf m (fun k => h k * G k (fun i => x i + t * h i))).
Proof.
  intros m N f G x h t (T & a & e & _ & E) HG.
  apply (D_ext (fun s => terms_eval m T a e (fun i => x i + s * h i))); [|intros; apply E].
  eapply D_eq; [apply (terms_path m T a e (fun i s => x i + s * h i) h t)|].
  - intros i _. eapply D_eq; [apply D_plus; [apply D_const|apply D_mult; [apply D_id|apply D_const]]|cbv beta; ring].
  - apply sumf_ext. intros k Hk. f_equal. apply (pd_unique k f); [|auto].
    replace f with (terms_eval m T a e) by (apply functional_extensionality; intros; now rewrite E). now apply pd_terms.
Qed.
Lemma line_const : forall (g : R -> R), (forall t, D g t 0) -> g 0 = g 1.
Proof.
  intros g H. destruct (MVT_cor2 g (fun _ => 0) 0 1 ltac:(lra)) as (c & E & _); [intros; apply H|]. lra.
Qed.

(** no slope in the directions k = n, .., m-1 *)
Lemma flat_determined : forall m n N f (G : nat -> (nat -> R) -> R) V, orthonormal m m V -> (n <= m)%nat -> is_poly m N f ->
  (forall i, (i < m)%nat -> pd i f (G i)) -> (forall k x, (n <= k < m)%nat -> sumf m (fun i => V i k * G i x) = 0) -> determined_by m n V f.
Proof.
  intros m n N f G V HO Hn Pf HG HZ x x' HC.
  set (h := fun i => x' i - x i).
  assert (E : f (fun i => x i + 0 * h i) = f (fun i => x i + 1 * h i)).
  { apply (line_const (fun t => f (fun i => x i + t * h i))). intros t. eapply D_eq; [apply (line_D m N f G x h t Pf HG)|].
    set (y := fun i => x i + t * h i).
    rewrite (sumf_ext m _ (fun i => sumf m (fun k => coords m V h k * (V i k * G i y)))).
    - rewrite sumf_swap. apply sumf_zero. intros k Hk. rewrite sumf_scal_l.
      destruct (le_lt_dec n k) as [L|L]; [rewrite HZ by lia; ring|].
      replace (coords m V h k) with 0; [ring|]. specialize (HC k L). unfold coords, h in *.
      rewrite (sumf_ext m _ (fun i => V i k * x' i + -1 * (V i k * x i))) by (intros; ring). rewrite sumf_plus, sumf_scal_l. lra.
    - intros i Hi. rewrite (ortho_expand m V HO h i Hi) at 1. rewrite <- sumf_scal_r. apply sumf_ext. intros; unfold coords; ring. }
  transitivity (f (fun i => x i + 0 * h i)); [f_equal; apply functional_extensionality; intros; ring|].
  rewrite E. f_equal. apply functional_extensionality. intros i. unfold h. ring.
Qed.

(** f does not change along a direction that B does not see *)
Lemma unseen_flat : forall m n N f (G : nat -> (nat -> R) -> R) B u, is_poly m N f -> (forall i, (i < m)%nat -> pd i f (G i)) -> determined_by m n B f ->
  (forall a, (a < n)%nat -> coords m B u a = 0) -> forall x, sumf m (fun i => u i * G i x) = 0.
Proof.
  intros m n N f G B u Pf HG HB HU x.
  assert (D1 := line_D m N f G x u 0 Pf HG).
  assert (D2 : D (fun s => f (fun i => x i + s * u i)) 0 0).
  { apply (D_ext (fun _ => f x)); [apply D_const|]. intros s. apply HB. intros a Ha. unfold coords.
    rewrite (sumf_ext m _ (fun i => B i a * x i + s * (B i a * u i))) by (intros; ring). rewrite sumf_plus, sumf_scal_l.
    specialize (HU a Ha). unfold coords in HU. rewrite HU. ring. }
  rewrite (uniqueness_limite _ _ _ _ D2 D1). apply sumf_ext. intros i Hi. do 2 f_equal. apply functional_extensionality. intros; ring.
Qed.

Lemma sumf_zero_term : forall n f, sumf n f = 0 -> (forall i, (i < n)%nat -> 0 <= f i) -> forall i, (i < n)%nat -> f i = 0.
Proof.
  induction n; intros f H P i Hi; [lia|]. cbn [sumf] in H.
  assert (A : 0 <= sumf n f) by (apply sumf_nonneg; intros; apply P; lia). assert (B := P n ltac:(lia)).
  destruct (Nat.eq_dec i n) as [->|]; [lra|]. apply IHn; [lra|intros; apply P; lia|lia].
Qed.

(** ** the eigenvalues *)
Lemma active_dimension : forall eigh argsort M m N f (G : nat -> (nat -> R) -> R) x df weights e V,
  eigh_contract eigh -> argsort_contract argsort -> is_poly m N f -> (forall i, (i < m)%nat -> pd i f (G i)) ->
  shape df = [M; m] -> (forall r i, (r < M)%nat -> (i < m)%nat -> df.[r, i] = G i (fun k => x.[r, k])) ->
  shape weights = [M; 1%nat] -> (forall s, (s < M)%nat -> 0 <= weights.[s, 0%nat]) ->
  Properties_PolyInvariance.unisolvent (pred N) M m x (Some weights) ->
  active_subspace eigh argsort df weights = Ok (e, V) ->
  forall n, (n <= m)%nat ->
    ((forall k, (n <= k < m)%nat -> e.[k, 0%nat] = 0) <-> exists B, determined_by m n B f) /\
    ((forall k, (n <= k < m)%nat -> e.[k, 0%nat] = 0) -> determined_by m n (ent V) f).
Proof.
  intros eigh argsort M m N f G x df weights e V HE HA Pf HG Sd Hdf Sw Hw HU EA n Hn.
  destruct (active_subspace_spec eigh argsort HE HA M m df weights e V Sd Sw EA) as (lam & L).
  assert (P := gradC_psd M m (ent df) (fun s => weights.[s, 0%nat]) Hw).
  assert (EV := eigsorted_psd_eig _ _ _ _ _ L P). assert (HO := es_orth _ _ _ _ _ L).
  destruct (C11_eigenvalues_are_mean_squared_slopes eigh argsort M m df weights e V HE HA Sd Sw Hw EA) as (_ & _ & _ & E0 & _ & EZ).
  assert (FWD : (forall k, (n <= k < m)%nat -> e.[k, 0%nat] = 0) -> determined_by m n (ent V) f).
  { intros Z. apply (flat_determined m n N f G (ent V) HO Hn Pf HG). intros k y Hk.
    apply (HU (fun y => sumf m (fun i => ent V i k * G i y))).
    - apply is_poly_sum. intros i Hi. apply is_poly_scal. apply (pd_poly m N f i (G i) Hi Pf). auto.
    - intros r Hr. cbn [weight_of]. destruct (Rle_lt_or_eq_dec 0 _ (Hw r Hr)) as [W|W]; [|rewrite <- W; ring].
      pose proof (proj1 (EZ k ltac:(lia)) (Z k Hk) r Hr W) as S. unfold slope in S.
      rewrite (sumf_ext m _ (fun i => df.[r, i] * V.[i, k])); [rewrite S; ring|]. intros i Hi. rewrite Hdf by auto. unfold ent. ring. }
  split; [split|exact FWD].
  - intros Z. exists (ent V). now apply FWD.
  - intros (B & HB). destruct (Nat.eq_dec n m) as [->|NM]; [intros; lia|].
    assert (En : e.[n, 0%nat] = 0).
    { destruct (lin_dep n (S n) (fun i a => coords m B (fun p => ent V p i) a) ltac:(lia)) as (c & (i0 & Hi0 & Hc) & HC).
      set (u := fun p => sumf (S n) (fun i => c i * ent V p i)).
      assert (UF : forall y, sumf m (fun i => u i * G i y) = 0).
      { apply (unseen_flat m n N f G B u Pf HG HB). intros a Ha. rewrite <- (HC a Ha). unfold coords, u.
        rewrite (sumf_ext m _ (fun p => sumf (S n) (fun i => c i * (B p a * ent V p i)))) by (intros; rewrite <- sumf_scal_l; apply sumf_ext; intros; ring).
        rewrite sumf_swap. apply sumf_ext. intros i _. now rewrite sumf_scal_l. }
      assert (QU : quad m (gradC M (ent df) (fun s => weights.[s, 0%nat])) u = 0).
      { rewrite gradC_quad. apply sumf_zero. intros s Hs. replace (dot m (ent df s) u) with 0; [ring|]. symmetry. unfold dot.
        rewrite <- (UF (fun k => x.[s, k])). apply sumf_ext. intros i Hi. unfold ent. rewrite Hdf by auto. ring. }
      assert (DU : forall j, (j < m)%nat -> dot m (fun i => ent V i j) u = if le_lt_dec j n then c j else 0).
      { intros j Hj. unfold dot, u. rewrite (sumf_ext m _ (fun p => sumf (S n) (fun i => c i * (ent V p j * ent V p i)))) by (intros; rewrite <- sumf_scal_l; apply sumf_ext; intros; ring).
        rewrite sumf_swap. rewrite (sumf_ext (S n) _ (fun i => c i * kron_delta j i)) by (intros i Hi; rewrite sumf_scal_l, (HO j i Hj) by lia; reflexivity).
        destruct (le_lt_dec j n) as [Lj|Lj].
        - rewrite (sumf_ext (S n) _ (fun i => (if Nat.eqb i j then 1 else 0) * c i)); [apply sumf_ite; lia|].
          intros i Hi. unfold kron_delta. rewrite Nat.eqb_sym. ring.
        - apply sumf_zero. intros i Hi. unfold kron_delta. rewrite (proj2 (Nat.eqb_neq j i)) by lia. ring. }
      rewrite (quad_spectral m _ _ _ HO EV) in QU.
      assert (T : e.[i0, 0%nat] * (c i0 * c i0) = 0).
      { assert (T0 := sumf_zero_term m _ QU ltac:(intros j Hj; apply Rmult_le_pos; [apply E0; auto|apply Rle_0_sqr]) i0 ltac:(lia)).
        cbv beta in T0. rewrite DU in T0 by lia. destruct (le_lt_dec i0 n); [exact T0|lia]. }
      assert (e.[i0, 0%nat] = 0) by (apply Rmult_integral in T; destruct T as [T|T]; [exact T|apply Rmult_integral in T; destruct T; contradiction]).
      pose proof (es_dec _ _ _ _ _ L i0 n ltac:(lia) ltac:(lia)) as DD. cbv beta in DD. pose proof (E0 n ltac:(lia)). lra. }
    intros k Hk. pose proof (es_dec _ _ _ _ _ L n k ltac:(lia) ltac:(lia)) as DD. cbv beta in DD. pose proof (E0 k ltac:(lia)). lra.
Qed.

(** ** the Gauss-Hermite points determine polynomials *)
Lemma poly_zero_degree : forall m p x y, is_poly m 0 p -> p x = p y.
Proof.
  intros m p x y (T & a & e & H & E). rewrite !E. unfold terms_eval. apply sumf_ext. intros t Ht. f_equal. apply prodf_ext. intros i Hi.
  replace (e t i) with 0%nat; [reflexivity|]. specialize (H t Ht).
  destruct (Nat.eq_dec (e t i) 0) as [|NZ]; [auto|exfalso].
  enough (forall k, (i < k)%nat -> (e t i <= nsum k (e t))%nat) by (specialize (H0 m Hi); lia).
  intros k. induction k; intros Hk; [lia|]. rewrite nsum_S. destruct (Nat.eq_dec i k) as [->|]; [lia|]. specialize (IHk ltac:(lia)). lia.
Qed.
Lemma gauss_orth : forall m N N' p q, is_poly m N p -> is_poly m N' q -> Ex m (fun x => p x * p x) 0 -> Ex m (fun x => p x * q x) 0.
Proof.
  intros m N N' p q Hp Hq H.
  destruct (ex_poly _ _ _ (is_poly_mult _ _ _ _ _ Hp Hq)) as (a & Ha). destruct (ex_poly _ _ _ (is_poly_mult _ _ _ _ _ Hq Hq)) as (b & Hb).
  replace a with 0 in Ha; [exact Ha|]. symmetry. apply (quad_nonneg_lin0 a b). intros t.
  apply (ex_nonneg m (fun x => (p x + t * q x) * (p x + t * q x))); [intros; apply Rle_0_sqr|].
  eapply ex_ext; [|replace (2 * t * a + t * t * b) with (0 + 2 * t * a + t * t * b) by ring; apply ex_lin; [apply ex_lin; [exact H|exact Ha]|exact Hb]].
  intros; cbv beta; ring.
Qed.
Lemma gauss_definite : forall m N p, is_poly m N p -> Ex m (fun x => p x * p x) 0 -> forall x, p x = 0.
Proof.
  intros m. induction N; intros p Hp H.
  - intros x. assert (C : forall y, p y = p x) by (intros; now apply (poly_zero_degree m p)).
    assert (E : Ex m (fun x => p x * p x) (p x * p x)) by (eapply ex_ext; [|apply (ex_const m (p x * p x))]; intros y; cbv beta; now rewrite (C y)).
    pose proof (ex_unique _ _ _ _ H E). nra.
  - assert (Z : forall j p', (j < m)%nat -> pd j p p' -> forall x, p' x = 0).
    { intros j p' Hj Hd. assert (Hp' := pd_poly m (S N) p j p' Hj Hp Hd). cbn [pred] in Hp'. apply (IHN p' Hp').
      destruct (pd_exists m N p' j Hj Hp') as (p'' & Hd'). assert (Hp'' := pd_poly m N p' j p'' Hj Hp' Hd').
      destruct (ex_poly _ _ _ (is_poly_mult _ _ _ _ _ Hp' Hp')) as (a & Ha).
      assert (B := gauss_orth m _ _ p p'' Hp Hp'' H).
      assert (C := gauss_orth m _ _ p (fun x => x j * p' x) Hp (is_poly_mult _ _ _ _ _ (is_poly_var m j Hj) Hp') H).
      assert (S1 : Ex m (fun x => x j * (p x * p' x)) (a + 1 * 0)).
      { apply (stein m _ (fun x => p x * p' x) (fun x => p' x * p' x + 1 * (p x * p'' x)) j _ Hj (is_poly_mult _ _ _ _ _ Hp Hp')).
        - intros x. eapply D_eq; [apply D_mult; [apply Hd|apply Hd']|]. cbv beta. rewrite !upd_same. ring.
        - apply ex_lin; auto. }
      replace a with 0 in Ha; [exact Ha|]. enough (0 = a + 1 * 0) by lra. apply (ex_unique m (fun x => x j * (p x * p' x))); [|exact S1].
      eapply ex_ext; [|exact C]. intros; cbv beta; ring. }
    assert (C : forall x, p x = p (fun _ => 0)).
    { intros x. assert (EX : exists G : nat -> (nat -> R) -> R, forall i, (i < m)%nat -> pd i p (G i)).
      { destruct Hp as (T & a & e & _ & E). exists (dterms m T a e). intros i Hi.
        replace p with (terms_eval m T a e) by (apply functional_extensionality; intros; now rewrite E). now apply pd_terms. }
      destruct EX as (G & HG).
      assert (E : p (fun i => (fun _ => 0) i + 0 * x i) = p (fun i => (fun _ => 0) i + 1 * x i)).
      { apply (line_const (fun t => p (fun i => (fun _ => 0) i + t * x i))). intros t. eapply D_eq; [apply (line_D m (S N) p G (fun _ => 0) x t Hp HG)|].
        apply sumf_zero. intros k Hk. rewrite (Z k (G k) Hk (HG k Hk)). ring. }
      cbv beta in E. transitivity (p (fun i => 0 + 1 * x i)); [f_equal; apply functional_extensionality; intros; ring|].
      rewrite <- E. f_equal. apply functional_extensionality. intros; ring. }
    intros x. assert (E : Ex m (fun x => p x * p x) (p x * p x)).
    { eapply ex_ext; [|apply (ex_const m (p x * p x))]. intros y; cbv beta. now rewrite (C x), (C y). }
    pose proof (ex_unique _ _ _ _ H E). nra.
Qed.
Lemma hermite_unisolvent : forall eig argsort l D x w, eig_contract eig -> eig_total eig -> argsort_contract argsort -> Forall (fun n => 1 <= n <= 10 ^ 24)%Z l ->
  (forall k, (k < List.length l)%nat -> (D < Z.to_nat (nth k l 0%Z))%nat) -> gauss_hermite eig argsort (NList l) = Ok (x, w) ->
  Properties_PolyInvariance.unisolvent D (nrows x) (List.length l) x (Some w).
Proof.
  intros eig argsort l D x w HI HIT HA HL HD H q Hq HZ.
  destruct (hermite_rule eig argsort l (D + D) x w HI HIT HA HL) as (_ & _ & P & EX); auto.
  { intros k Hk. specialize (HD k Hk). lia. }
  apply (gauss_definite _ D q Hq). assert (A := EX _ (is_poly_mult _ _ _ _ _ Hq Hq)).
  rewrite sumf_zero in A; [exact A|]. intros r Hr. cbv beta. rewrite <- Rmult_assoc. pose proof (HZ r Hr) as Z0. cbn [weight_of] in Z0. rewrite Z0. ring.
Qed.

(** ** C88 *)
(** compute(df=df, weights=weights) with df the gradients of a polynomial f at
    points that determine such gradients: all but the first n eigenvalues are 0
    exactly when f is a function of n linear forms, and then it is a function of
    the first n active variables. *)
Theorem C88_active_dimension : forall eigh argsort lstsq norm2 det (Gn : gen) (U : Type) M m N f (G : nat -> (nat -> R) -> R) x df weights ptype nboot (ws ws' : world Gn U (nd R) * subspaces),
  eigh_contract eigh -> argsort_contract argsort -> norm2_contract norm2 -> det_contract det ->
  is_poly m N f -> (forall i, (i < m)%nat -> pd i f (G i)) ->
  shape df = [M; m] -> (forall r i, (r < M)%nat -> (i < m)%nat -> df.[r, i] = G i (fun k => x.[r, k])) ->
  weights_fit weights M -> (forall r, (r < M)%nat -> 0 <= weight_of weights r) ->
  Properties_PolyInvariance.unisolvent (pred N) M m x weights ->
  ss_compute eigh argsort lstsq norm2 det None None (Some df) weights "AS" ptype nboot ws = (Ok tt, ws') ->
  exists e V, s_eigenvals (snd ws') = Some e /\ s_eigenvecs (snd ws') = Some V /\ shape e = [m; 1%nat] /\ shape V = [m; m] /\
    orthonormal m m (fun i k => V.[i, k]) /\
    forall n, (n <= m)%nat ->
      ((forall k, (n <= k < m)%nat -> e.[k, 0%nat] = 0) <-> exists B, determined_by m n B f) /\
      ((forall k, (n <= k < m)%nat -> e.[k, 0%nat] = 0) -> determined_by m n (fun i k => V.[i, k]) f).
Proof.
  intros eigh argsort lstsq norm2 det Gn U M m N f G x df weights ptype nboot ws ws' HE HA HN HD Pf HG Sd Hdf Hw Hp HU EC.
  destruct (C53_compute eigh argsort lstsq norm2 det Gn U None None (Some df) weights "AS" ptype nboot ws ws' HE HA HN HD ltac:(intros a b Q; discriminate) EC)
    as (M' & m' & e & V & n & A & w1 & Sd' & HM & Ee & EV & _ & Se & SV & _).
  cbv beta iota in Sd'. rewrite Sd in Sd'. inversion Sd'; subst M' m'.
  unfold ssmethod in HM. rewrite (eq_refl : String.eqb "AS" "AS" = true) in HM. unfold mlift in HM.
  set (wt := match weights with None => mk2 M 1 (fun _ _ => / INR M) | Some w => w end) in *.
  destruct (active_subspace eigh argsort df wt) as [[e' V']|] eqn:EA; [|discriminate]. inversion HM; subst e' V'.
  exists e, V. split; [exact Ee|]. split; [exact EV|]. split; [exact Se|]. split; [exact SV|].
  assert (Sw : shape wt = [M; 1%nat]) by (unfold wt; destruct weights; [exact Hw|reflexivity]).
  split. { destruct (active_subspace_spec eigh argsort HE HA M m df wt e V Sd Sw EA) as (lam & L). exact (es_orth _ _ _ _ _ L). }
  apply (active_dimension eigh argsort M m N f G x df wt e V HE HA Pf HG Sd Hdf Sw).
  - intros s Hs. unfold wt. destruct weights as [w|]; [apply (Hp s Hs)|]. rewrite at_mk2. left. apply Rinv_0_lt_compat, lt_0_INR. lia.
  - intros q Hq HZ. apply (HU q Hq). intros r Hr. specialize (HZ r Hr). unfold wt in HZ. destruct weights as [w|]; [exact HZ|].
    cbn [weight_of] in *. rewrite at_mk2 in HZ. apply Rmult_integral in HZ. destruct HZ as [HZ|HZ]; [|rewrite HZ; ring].
    exfalso. revert HZ. apply Rinv_neq_0_compat, not_0_INR. lia.
  - exact EA.
Qed.
Print Assumptions C88_active_dimension.

(** the Gauss-Hermite points with more points than the degree in every
    direction are such points *)
Theorem C88_gauss_hermite : forall eigh eig argsort lstsq norm2 det (Gn : gen) (U : Type) l N f (G : nat -> (nat -> R) -> R) x w df (ws : world Gn U (nd R) * subspaces),
  eigh_contract eigh -> eigh_total eigh -> eig_contract eig -> eig_total eig -> argsort_contract argsort -> norm2_contract norm2 -> det_contract det ->
  let m := List.length l in
  (2 <= m)%nat -> Forall (fun n => 1 <= n <= 10 ^ 24)%Z l ->
  is_poly m N f -> (forall k, (k < m)%nat -> (N <= Z.to_nat (nth k l 0%Z))%nat) -> (forall i, (i < m)%nat -> pd i f (G i)) ->
  gauss_hermite eig argsort (NList l) = Ok (x, w) ->
  shape df = [nrows x; m] -> (forall r i, (r < nrows x)%nat -> (i < m)%nat -> df.[r, i] = G i (fun k => x.[r, k])) ->
  exists ws' e V, ss_compute eigh argsort lstsq norm2 det None None (Some df) (Some w) "AS" "EVG" 0 ws = (Ok tt, ws') /\
    s_eigenvals (snd ws') = Some e /\ s_eigenvecs (snd ws') = Some V /\
    forall n, (n <= m)%nat ->
      ((forall k, (n <= k < m)%nat -> e.[k, 0%nat] = 0) <-> exists B, determined_by m n B f) /\
      ((forall k, (n <= k < m)%nat -> e.[k, 0%nat] = 0) -> determined_by m n (fun i k => V.[i, k]) f).
Proof.
  intros eigh eig argsort lstsq norm2 det Gn U l N f G x w df ws HE HET HI HIT HA HN HD m Hm HL Pf Hdeg HG H Sd Hdf.
  assert (Hd1 : forall k, (k < m)%nat -> (pred N < Z.to_nat (nth k l 0%Z))%nat).
  { intros k Hk. specialize (Hdeg k Hk). assert (1 <= nth k l 0)%Z; [|lia].
    assert (Q := proj1 (Forall_forall _ _) HL (nth k l 0%Z) (nth_In l 0%Z Hk)). simpl in Q. lia. }
  assert (PG : forall i, (i < m)%nat -> is_poly m (pred N) (G i)) by (intros i Hi; apply (pd_poly m N f i); auto).
  destruct (C84_gaussian_subspace eigh eig argsort lstsq norm2 det Gn U l (pred N) G x w df ws HE HET HI HIT HA HN HD Hm HL Hd1 PG H Sd Hdf)
    as (ws' & e & V & EC & Ee & EV & _).
  destruct (hermite_rule eig argsort l 0 x w HI HIT HA HL) as (_ & Sw & P & _); auto.
  { intros k Hk. specialize (Hd1 k Hk). lia. }
  destruct (C88_active_dimension eigh argsort lstsq norm2 det Gn U (nrows x) m N f G x df (Some w) "EVG" 0 ws ws' HE HA HN HD Pf HG Sd Hdf Sw) as (e' & V' & Ee' & EV' & _ & _ & _ & R); auto.
  - intros r Hr. left. apply (P r Hr).
  - apply (hermite_unisolvent eig argsort l (pred N) x w HI HIT HA HL Hd1 H).
  - rewrite Ee in Ee'. rewrite EV in EV'. inversion Ee'; inversion EV'; subst e' V'. exists ws', e, V. auto.
Qed.
Print Assumptions C88_gauss_hermite.

(** f(x, y) = (x + y)^2 on two points in each direction: one nonzero
    eigenvalue, and f is a function of the first active variable *)
Definition f88 (y : nat -> R) : R := (y 0%nat + y 1%nat) * (y 0%nat + y 1%nat).
Definition G88 (i : nat) (y : nat -> R) : R := 2 * (y 0%nat + y 1%nat).
Lemma f88_poly : is_poly 2 2 f88.
Proof. unfold f88. apply (is_poly_mult 2 1 1); apply is_poly_plus; apply is_poly_var; lia. Qed.
Lemma f88_pd : forall i, (i < 2)%nat -> pd i f88 (G88 i).
Proof.
  intros [|[|i]] Hi y; try lia; unfold f88, G88, upd; simpl; (eapply D_eq; [apply D_mult; apply D_plus; first [apply D_id|apply D_const]|]; cbv beta; ring).
Qed.
Example C88_case : exists x w df ws' e V, gauss_hermite eigh_ref argsort_ref (NList [2; 2]%Z) = Ok (x, w) /\
  ss_compute eigh_ref argsort_ref lstsq_ref norm2_ref det_ref None None (Some df) (Some w) "AS" "EVG" 0 (toy_world (L := nd R) tt, subs_new) = (Ok tt, ws') /\
  s_eigenvals (snd ws') = Some e /\ s_eigenvecs (snd ws') = Some V /\ e.[0%nat, 0%nat] <> 0 /\ e.[1%nat, 0%nat] = 0 /\ determined_by 2 1 (ent V) f88.
Proof.
  destruct (C31_gauss_hermite_tensor eigh_ref argsort_ref [2; 2]%Z eig_ref_contract eig_ref_total argsort_ref_contract ltac:(repeat constructor; lia)) as (x & w & E & _).
  set (df := mk2 (nrows x) 2 (fun r i => G88 i (fun k => x.[r, k]))).
  assert (HL : Forall (fun n => 1 <= n <= 10 ^ 24)%Z [2; 2]%Z) by (repeat constructor; lia).
  assert (HD : forall k, (k < 2)%nat -> (2 <= Z.to_nat (nth k [2; 2]%Z 0%Z))%nat) by (intros [|[|k]] Hk; simpl; lia).
  destruct (C88_gauss_hermite eigh_ref eigh_ref argsort_ref lstsq_ref norm2_ref det_ref toy_gen unit [2; 2]%Z 2 f88 G88 x w df (toy_world (L := nd R) tt, subs_new)
    eigh_ref_contract eigh_ref_total eig_ref_contract eig_ref_total argsort_ref_contract norm2_ref_contract det_ref_contract ltac:(simpl; lia) HL f88_poly HD f88_pd E eq_refl ltac:(intros; reflexivity))
    as (ws' & e & V & EC & Ee & EV & HB).
  exists x, w, df, ws', e, V. split; [exact E|]. split; [exact EC|]. split; [exact Ee|]. split; [exact EV|].
  destruct (HB 1%nat ltac:(simpl; lia)) as (I1 & D1).
  assert (Z1 : forall k, (1 <= k < 2)%nat -> e.[k, 0%nat] = 0).
  { apply I1. exists (fun _ _ => 1). intros y y' Hy. specialize (Hy 0%nat ltac:(lia)). unfold coords in Hy. cbn [sumf List.length] in Hy.
    unfold f88. replace (y 0%nat + y 1%nat) with (y' 0%nat + y' 1%nat) by lra. reflexivity. }
  split; [|split; [apply Z1; lia|apply D1, Z1]].
  intros Z0. destruct (HB 0%nat ltac:(simpl; lia)) as (_ & D0).
  assert (Q := D0 ltac:(intros k Hk; simpl in Hk; destruct k as [|[|k]]; [exact Z0|apply Z1; lia|lia]) (fun _ => 1) (fun _ => 0) ltac:(intros; lia)).
  unfold f88 in Q. lra.
Qed.
