(** Final theorems for the active subspaces found from quadrature nodes: C84 *)
From Coq Require Import String Reals Lra Lia List Arith ZArith Bool.
From Verif Require Import Prelude Py NumArr Toy GaussRules M_Misc M_RespSurf M_Gradients M_Subspaces M_Quadrature
  Lsq Det EighRef Tridiag Sorting P_Tensor P_Bootstrap P_Misc P_Quadrature P_IndexSet P_Poly P_PolyFacts PolySub Spectral P_Subspaces P_SubsState P_SubsLive M_SimRunners LinAlg Cubature
  Properties_Misc Properties_Quadrature Properties_Subspaces Properties_SubsState.
Import ListNotations.
Open Scope R_scope.

Lemma uniform_mean_unique : forall f a b, uniform_mean f a -> uniform_mean f b -> a = b.
Proof. intros f a b (p & ->) (q & ->). now rewrite (RiemannInt_P5 p q). Qed.

Lemma hermite_mom : forall c, gaussian_mean (peval c) (pmom (fun k => Tpow sh k 0) c).
Proof. exact hermite_mean. Qed.
Lemma legendre_mom : forall c, uniform_mean (peval c) (pmom (fun k => Tpow sl k 0) c).
Proof. exact legendre_mean. Qed.

(** ** C84 *)
(** sums over the returned points are the means of every polynomial whose
    degree is below twice each of the numbers of points *)
Theorem C84_hermite_cubature : forall eig argsort l D g x w,
  eig_contract eig -> eig_total eig -> argsort_contract argsort -> Forall (fun n => 1 <= n <= 10 ^ 24)%Z l ->
  let m := List.length l in
  (forall k, (k < m)%nat -> (D < 2 * Z.to_nat (nth k l 0%Z))%nat) -> is_poly m D g ->
  gauss_hermite eig argsort (NList l) = Ok (x, w) ->
  exists q, shape x = [q; m] /\ shape w = [q; 1%nat] /\ (forall r, (r < q)%nat -> 0 < w.[r, 0%nat]) /\
    mean_nd gaussian_mean m g (sumf q (fun r => w.[r, 0%nat] * g (fun k => x.[r, k]))).
Proof.
  intros eig argsort l D g x w HE HT HA HL m HD HG H.
  destruct (C31_gauss_hermite_tensor eig argsort l HE HT HA) as (x' & w' & E & Sx & Sw & _ & _ & P & _ & EX).
  { eapply Forall_impl; [|exact HL]. intros n Hn. simpl in Hn. lia. }
  rewrite E in H. inversion H; subst x' w'. clear H. exists (prodn (map Z.to_nat l)).
  split; [exact Sx|]. split; [exact Sw|]. split; [exact P|].
  apply (rule_exact (fun k => Tpow sh k 0) gaussian_mean hermite_mom m _ D (fun r k => x.[r, k]) (fun r => w.[r, 0%nat])); auto.
  intros e He.
  destruct (EX ltac:(eapply Forall_impl; [|exact HL]; intros n Hn; simpl in Hn; lia) (fun k => monol (e k))) as (mu & HM & S).
  { intros k Hk. rewrite monol_length. fold m in Hk. specialize (HD k Hk). specialize (He k Hk).
    rewrite (nth_indep _ 0%nat (Z.to_nat 0)) by (now rewrite map_length). rewrite map_nth. lia. }
  fold m in S. rewrite <- (prodf_ext m mu).
  - rewrite <- S. apply sumf_ext. intros r Hr. f_equal. apply prodf_ext. intros k Hk. now rewrite monol_eval.
  - intros k Hk. eapply gaussian_mean_unique; [apply HM; exact Hk|]. rewrite <- (pmom_mono (fun k => Tpow sh k 0)). apply hermite_mom.
Qed.
Print Assumptions C84_hermite_cubature.

Theorem C84_legendre_cubature : forall eig argsort l D g x w,
  eig_contract eig -> eig_total eig -> argsort_contract argsort -> Forall (fun n => 1 <= n <= 10 ^ 12)%Z l ->
  let m := List.length l in
  (forall k, (k < m)%nat -> (D < 2 * Z.to_nat (nth k l 0%Z))%nat) -> is_poly m D g ->
  gauss_legendre eig argsort (NList l) = Ok (x, w) ->
  exists q, shape x = [q; m] /\ shape w = [q; 1%nat] /\ (forall r, (r < q)%nat -> 0 < w.[r, 0%nat]) /\
    mean_nd uniform_mean m g (sumf q (fun r => w.[r, 0%nat] * g (fun k => x.[r, k]))).
Proof.
  intros eig argsort l D g x w HE HT HA HL m HD HG H.
  destruct (C31_gauss_legendre_tensor eig argsort l HE HT HA) as (x' & w' & E & Sx & Sw & _ & _ & P & _ & EX).
  { eapply Forall_impl; [|exact HL]. intros n Hn. simpl in Hn. lia. }
  rewrite E in H. inversion H; subst x' w'. clear H. exists (prodn (map Z.to_nat l)).
  split; [exact Sx|]. split; [exact Sw|]. split; [exact P|].
  apply (rule_exact (fun k => Tpow sl k 0) uniform_mean legendre_mom m _ D (fun r k => x.[r, k]) (fun r => w.[r, 0%nat])); auto.
  intros e He.
  destruct (EX ltac:(eapply Forall_impl; [|exact HL]; intros n Hn; simpl in Hn; lia) (fun k => monol (e k))) as (mu & HM & S).
  { intros k Hk. rewrite monol_length. fold m in Hk. specialize (HD k Hk). specialize (He k Hk).
    rewrite (nth_indep _ 0%nat (Z.to_nat 0)) by (now rewrite map_length). rewrite map_nth. lia. }
  fold m in S. rewrite <- (prodf_ext m mu).
  - rewrite <- S. apply sumf_ext. intros r Hr. f_equal. apply prodf_ext. intros k Hk. now rewrite monol_eval.
  - intros k Hk. eapply uniform_mean_unique; [apply HM; exact Hk|]. rewrite <- (pmom_mono (fun k => Tpow sl k 0)). apply legendre_mom.
Qed.
Print Assumptions C84_legendre_cubature.

(** the same for the squared slopes of a vector field, and the eigenpairs
    computed from its values at the points *)
Lemma cubature_subspace : forall (mean1 : (R -> R) -> R -> Prop) eigh argsort m q D (G : nat -> (nat -> R) -> R) (x w df e V : nd R),
  (forall f a b, mean1 f a -> mean1 f b -> a = b) ->
  (forall g, is_poly m (D + D) g -> mean_nd mean1 m g (sumf q (fun r => w.[r, 0%nat] * g (fun k => x.[r, k])))) ->
  eigh_contract eigh -> argsort_contract argsort -> (forall i, (i < m)%nat -> is_poly m D (G i)) ->
  shape w = [q; 1%nat] -> (forall r, (r < q)%nat -> 0 < w.[r, 0%nat]) -> shape df = [q; m] ->
  (forall r i, (r < q)%nat -> (i < m)%nat -> df.[r, i] = G i (fun k => x.[r, k])) ->
  active_subspace eigh argsort df w = Ok (e, V) ->
  let slope2 := fun (v : nat -> R) y => sumf m (fun i => v i * G i y) * sumf m (fun i => v i * G i y) in
  shape e = [m; 1%nat] /\ shape V = [m; m] /\ orthonormal m m (ent V) /\
  (forall j, (j < m)%nat -> mean_nd mean1 m (slope2 (fun i => V.[i, j])) (e.[j, 0%nat])) /\
  (forall i j, (i < m)%nat -> (j < m)%nat -> mean_nd mean1 m (fun y => G i y * G j y) (sumf m (fun k => e.[k, 0%nat] * (V.[i, k] * V.[j, k])))) /\
  (forall k U E, (k <= m)%nat -> (forall a b, (a < k)%nat -> (b < k)%nat -> sumf m (fun i => U i a * U i b) = if Nat.eqb a b then 1 else 0) ->
     (forall a, (a < k)%nat -> mean_nd mean1 m (slope2 (fun i => U i a)) (E a)) -> sumf k E <= sumf k (fun a => e.[a, 0%nat])).
Proof.
  intros mean1 eigh argsort m q D G x w df e V UN EX HE HA HG Sw P Sd Hdf H slope2.
  assert (P0 : forall s, (s < q)%nat -> 0 <= w.[s, 0%nat]) by (intros; apply Rlt_le; auto).
  destruct (C11_eigenvalues_are_mean_squared_slopes eigh argsort q m df w e V HE HA Sd Sw P0 H) as (Se & SV & F & _).
  destruct (active_subspace_spec eigh argsort HE HA q m df w e V Sd Sw H) as (lam & L).
  assert (EV := eigsorted_psd_eig _ _ _ _ _ L (gradC_psd q m (ent df) (fun s => w.[s, 0%nat]) P0)).
  assert (SL : forall v, mean_nd mean1 m (slope2 v) (variation df w q m v)).
  { intros v. assert (PV : is_poly m D (fun y => sumf m (fun i => v i * G i y))).
    { apply (is_poly_sum m D m (fun i y => v i * G i y)). intros i Hi. apply is_poly_scal; auto. }
    replace (variation df w q m v) with (sumf q (fun r => w.[r, 0%nat] * slope2 v (fun k => x.[r, k]))); [apply EX, is_poly_mult; exact PV|].
    apply sumf_ext. intros r Hr. unfold slope2, slope.
    rewrite (sumf_ext m (fun i => df.[r, i] * v i) (fun i => v i * G i (fun k => x.[r, k]))); [reflexivity|]. intros i Hi. rewrite Hdf by auto. ring. }
  split; [exact Se|]. split; [exact SV|]. split; [apply (es_orth _ _ _ _ _ L)|]. split; [|split].
  - intros j Hj. rewrite F by auto. apply SL.
  - intros i j Hi Hj. replace (sumf m (fun k => e.[k, 0%nat] * (V.[i, k] * V.[j, k]))) with (gradC q (ent df) (fun s => w.[s, 0%nat]) i j).
    + unfold gradC, ent.
      rewrite (sumf_ext q _ (fun r => w.[r, 0%nat] * (G i (fun k => x.[r, k]) * G j (fun k => x.[r, k])))) by (intros r Hr; rewrite !Hdf by auto; ring).
      apply (EX (fun y => G i y * G j y)). apply is_poly_mult; auto.
    + rewrite (reassemble m _ (fun j => e.[j, 0%nat]) (ent V) (es_orth _ _ _ _ _ L) EV i j Hi Hj). apply sumf_ext. intros k Hk. unfold ent. ring.
  - intros k U E Hk HU HM.
    destruct (C12_first_k_eigenvectors_capture_most eigh argsort q m df w e V HE HA Sd Sw P0 H k Hk) as (_ & S1 & B & _).
    rewrite <- S1. eapply Rle_trans; [|apply (B U HU)]. apply Req_le, sumf_ext. intros a Ha. eapply mean_nd_unique; [exact UN| apply HM; auto | apply SL].
Qed.

(** compute(df=df, weights=w) with df the values of the vector field G at the
    points: E[g] below is the mean over the standard normal density *)
Theorem C84_gaussian_subspace : forall eigh eig argsort lstsq norm2 det (Gn : gen) (U : Type) l D (G : nat -> (nat -> R) -> R) x w df (ws : world Gn U (nd R) * subspaces),
  eigh_contract eigh -> eigh_total eigh -> eig_contract eig -> eig_total eig -> argsort_contract argsort -> norm2_contract norm2 -> det_contract det ->
  let m := List.length l in
  (2 <= m)%nat -> Forall (fun n => 1 <= n <= 10 ^ 24)%Z l ->
  (forall k, (k < m)%nat -> (D < Z.to_nat (nth k l 0%Z))%nat) -> (forall i, (i < m)%nat -> is_poly m D (G i)) ->
  gauss_hermite eig argsort (NList l) = Ok (x, w) ->
  shape df = [nrows x; m] -> (forall r i, (r < nrows x)%nat -> (i < m)%nat -> df.[r, i] = G i (fun k => x.[r, k])) ->
  let E := mean_nd gaussian_mean m in
  let slope2 := fun (v : nat -> R) y => sumf m (fun i => v i * G i y) * sumf m (fun i => v i * G i y) in
  exists ws' e V, ss_compute eigh argsort lstsq norm2 det None None (Some df) (Some w) "AS" "EVG" 0 ws = (Ok tt, ws') /\
    s_eigenvals (snd ws') = Some e /\ s_eigenvecs (snd ws') = Some V /\
    shape e = [m; 1%nat] /\ shape V = [m; m] /\ orthonormal m m (ent V) /\
    (forall j, (j < m)%nat -> E (slope2 (fun i => V.[i, j])) (e.[j, 0%nat])) /\
    (forall i j, (i < m)%nat -> (j < m)%nat -> E (fun y => G i y * G j y) (sumf m (fun k => e.[k, 0%nat] * (V.[i, k] * V.[j, k])))) /\
    (forall k Q mu, (k <= m)%nat -> (forall a b, (a < k)%nat -> (b < k)%nat -> sumf m (fun i => Q i a * Q i b) = if Nat.eqb a b then 1 else 0) ->
       (forall a, (a < k)%nat -> E (slope2 (fun i => Q i a)) (mu a)) -> sumf k mu <= sumf k (fun a => e.[a, 0%nat])).
Proof.
  intros eigh eig argsort lstsq norm2 det Gn U l D G x w df ws HE HET HI HIT HA HN HD m Hm HL Hdeg HG H Sd Hdf E slope2.
  destruct (C84_hermite_cubature eig argsort l 0 (fun _ => 0) x w HI HIT HA HL) as (q & Sx & Sw & P & _); auto.
  { intros k Hk. specialize (Hdeg k Hk). lia. }
  { exact (is_poly_const _ 0 0). }
  fold m in Sx. assert (NR : nrows x = q) by (unfold nrows; now rewrite Sx). rewrite NR in *.
  assert (EX : forall g, is_poly m (D + D) g -> mean_nd gaussian_mean m g (sumf q (fun r => w.[r, 0%nat] * g (fun k => x.[r, k])))).
  { intros g Hg. destruct (C84_hermite_cubature eig argsort l (D + D) g x w HI HIT HA HL) as (q' & Sx' & _ & _ & R); auto.
    - intros k Hk. specialize (Hdeg k Hk). lia.
    - fold m in Sx', R. rewrite Sx in Sx'. inversion Sx'; subst q'. exact R. }
  assert (Q1 : (1 <= q)%nat).
  { destruct q; [|lia]. exfalso. assert (A := EX (fun _ => 1) (is_poly_const m (D + D) 1)). cbn [sumf] in A.
    assert (C := mean_nd_unique gaussian_mean m (fun _ => 1) _ _ gaussian_mean_unique A (mean_const (fun k => Tpow sh k 0) gaussian_mean hermite_mom eq_refl m 1)). lra. }
  destruct (C53_gradient_method_returns eigh argsort lstsq norm2 det Gn U q m df (Some w) "EVG" 0 ws HE HA HET HN HD Q1 Hm Sd Sw (or_introl eq_refl)) as (ws' & EC).
  destruct (C53_compute eigh argsort lstsq norm2 det Gn U None None (Some df) (Some w) "AS" "EVG" 0 ws ws' HE HA HN HD ltac:(intros a b Q; discriminate) EC)
    as (M & m' & e & V & n & A & w1 & Sd' & HM & Ee & EV & _).
  unfold ssmethod in HM. rewrite (eq_refl : String.eqb "AS" "AS" = true) in HM. unfold mlift in HM.
  destruct (active_subspace eigh argsort df w) as [[e' V']|] eqn:EA; [|discriminate]. inversion HM; subst e' V'.
  exists ws', e, V. split; [exact EC|]. split; [exact Ee|]. split; [exact EV|].
  exact (cubature_subspace gaussian_mean eigh argsort m q D G x w df e V gaussian_mean_unique EX HE HA HG Sw P Sd Hdf EA).
Qed.
Print Assumptions C84_gaussian_subspace.

(** compute(df=df, weights=w) with df the values of the vector field G at the
    points: E[g] below is the mean over the uniform density on the cube *)
Theorem C84_uniform_subspace : forall eigh eig argsort lstsq norm2 det (Gn : gen) (U : Type) l D (G : nat -> (nat -> R) -> R) x w df (ws : world Gn U (nd R) * subspaces),
  eigh_contract eigh -> eigh_total eigh -> eig_contract eig -> eig_total eig -> argsort_contract argsort -> norm2_contract norm2 -> det_contract det ->
  let m := List.length l in
  (2 <= m)%nat -> Forall (fun n => 1 <= n <= 10 ^ 12)%Z l ->
  (forall k, (k < m)%nat -> (D < Z.to_nat (nth k l 0%Z))%nat) -> (forall i, (i < m)%nat -> is_poly m D (G i)) ->
  gauss_legendre eig argsort (NList l) = Ok (x, w) ->
  shape df = [nrows x; m] -> (forall r i, (r < nrows x)%nat -> (i < m)%nat -> df.[r, i] = G i (fun k => x.[r, k])) ->
  let E := mean_nd uniform_mean m in
  let slope2 := fun (v : nat -> R) y => sumf m (fun i => v i * G i y) * sumf m (fun i => v i * G i y) in
  exists ws' e V, ss_compute eigh argsort lstsq norm2 det None None (Some df) (Some w) "AS" "EVG" 0 ws = (Ok tt, ws') /\
    s_eigenvals (snd ws') = Some e /\ s_eigenvecs (snd ws') = Some V /\
    shape e = [m; 1%nat] /\ shape V = [m; m] /\ orthonormal m m (ent V) /\
    (forall j, (j < m)%nat -> E (slope2 (fun i => V.[i, j])) (e.[j, 0%nat])) /\
    (forall i j, (i < m)%nat -> (j < m)%nat -> E (fun y => G i y * G j y) (sumf m (fun k => e.[k, 0%nat] * (V.[i, k] * V.[j, k])))) /\
    (forall k Q mu, (k <= m)%nat -> (forall a b, (a < k)%nat -> (b < k)%nat -> sumf m (fun i => Q i a * Q i b) = if Nat.eqb a b then 1 else 0) ->
       (forall a, (a < k)%nat -> E (slope2 (fun i => Q i a)) (mu a)) -> sumf k mu <= sumf k (fun a => e.[a, 0%nat])).
Proof.
  intros eigh eig argsort lstsq norm2 det Gn U l D G x w df ws HE HET HI HIT HA HN HD m Hm HL Hdeg HG H Sd Hdf E slope2.
  destruct (C84_legendre_cubature eig argsort l 0 (fun _ => 0) x w HI HIT HA HL) as (q & Sx & Sw & P & _); auto.
  { intros k Hk. specialize (Hdeg k Hk). lia. }
  { exact (is_poly_const _ 0 0). }
  fold m in Sx. assert (NR : nrows x = q) by (unfold nrows; now rewrite Sx). rewrite NR in *.
  assert (EX : forall g, is_poly m (D + D) g -> mean_nd uniform_mean m g (sumf q (fun r => w.[r, 0%nat] * g (fun k => x.[r, k])))).
  { intros g Hg. destruct (C84_legendre_cubature eig argsort l (D + D) g x w HI HIT HA HL) as (q' & Sx' & _ & _ & R); auto.
    - intros k Hk. specialize (Hdeg k Hk). lia.
    - fold m in Sx', R. rewrite Sx in Sx'. inversion Sx'; subst q'. exact R. }
  assert (Q1 : (1 <= q)%nat).
  { destruct q; [|lia]. exfalso. assert (A := EX (fun _ => 1) (is_poly_const m (D + D) 1)). cbn [sumf] in A.
    assert (C := mean_nd_unique uniform_mean m (fun _ => 1) _ _ uniform_mean_unique A (mean_const (fun k => Tpow sl k 0) uniform_mean legendre_mom eq_refl m 1)). lra. }
  destruct (C53_gradient_method_returns eigh argsort lstsq norm2 det Gn U q m df (Some w) "EVG" 0 ws HE HA HET HN HD Q1 Hm Sd Sw (or_introl eq_refl)) as (ws' & EC).
  destruct (C53_compute eigh argsort lstsq norm2 det Gn U None None (Some df) (Some w) "AS" "EVG" 0 ws ws' HE HA HN HD ltac:(intros a b Q; discriminate) EC)
    as (M & m' & e & V & n & A & w1 & Sd' & HM & Ee & EV & _).
  unfold ssmethod in HM. rewrite (eq_refl : String.eqb "AS" "AS" = true) in HM. unfold mlift in HM.
  destruct (active_subspace eigh argsort df w) as [[e' V']|] eqn:EA; [|discriminate]. inversion HM; subst e' V'.
  exists ws', e, V. split; [exact EC|]. split; [exact Ee|]. split; [exact EV|].
  exact (cubature_subspace uniform_mean eigh argsort m q D G x w df e V uniform_mean_unique EX HE HA HG Sw P Sd Hdf EA).
Qed.
Print Assumptions C84_uniform_subspace.

(** f(x, y) = x^2 + x y with two points in each direction: the eigenvalues add
    up to E[(2x + y)^2] + E[x^2] = 6, whatever orthonormal eigenvectors are chosen *)
Definition G84 (i : nat) (y : nat -> R) : R := match i with O => 2 * y 0%nat + y 1%nat | _ => y 0%nat end.
Lemma G84_poly : forall i, (i < 2)%nat -> is_poly 2 1 (G84 i).
Proof.
  intros [|i] Hi; unfold G84.
  - apply is_poly_plus; [apply is_poly_scal|]; apply is_poly_var; lia.
  - apply is_poly_var; lia.
Qed.
Lemma G84_means : mean_nd gaussian_mean 2 (fun y => G84 0 y * G84 0 y) 5 /\ mean_nd gaussian_mean 2 (fun y => G84 1 y * G84 1 y) 1.
Proof.
  assert (M0 : Tpow sh 0 0 = 1) by reflexivity.
  assert (M1 : Tpow sh 1 0 = 0) by (unfold Tpow, Tap, kron_delta; simpl; ring).
  assert (M2 : Tpow sh 2 0 = 1) by (assert (S1 := sh_sq 1); unfold Tpow, Tap, kron_delta; simpl in *; nra).
  split.
  { assert (T := mean_terms (fun k => Tpow sh k 0) gaussian_mean hermite_mom 2 3 (fun t => match t with 0%nat => 4 | 1%nat => 4 | _ => 1 end)
      (fun t j => match t, j with 0%nat, 0%nat => 2%nat | 0%nat, _ => 0%nat | 1%nat, _ => 1%nat | _, 0%nat => 0%nat | _, _ => 2%nat end)).
    replace 5 with (sumf 3 (fun t => match t with 0%nat => 4 | 1%nat => 4 | _ => 1 end * prodf 2 (fun j => Tpow sh (match t, j with 0%nat, 0%nat => 2%nat | 0%nat, _ => 0%nat | 1%nat, _ => 1%nat | _, 0%nat => 0%nat | _, _ => 2%nat end) 0))).
    - eapply mean_nd_ext; [|exact T]. intros y. unfold terms_eval, G84. cbn [sumf prodf]. simpl. ring.
    - cbn [sumf prodf]. rewrite M0, M1, M2. ring. }
  { assert (T := mean_terms (fun k => Tpow sh k 0) gaussian_mean hermite_mom 2 1 (fun t => 1) (fun t j => match j with 0%nat => 2%nat | _ => 0%nat end)).
    replace 1 with (sumf 1 (fun t => 1 * prodf 2 (fun j => Tpow sh (match j with 0%nat => 2%nat | _ => 0%nat end) 0))).
    - eapply mean_nd_ext; [|exact T]. intros y. unfold terms_eval, G84. cbn [sumf prodf]. simpl. ring.
    - cbn [sumf prodf]. rewrite M0, M2. ring. }
Qed.
Example C84_case : exists x w df ws' e, gauss_hermite eigh_ref argsort_ref (NList [2; 2]%Z) = Ok (x, w) /\
  ss_compute eigh_ref argsort_ref lstsq_ref norm2_ref det_ref None None (Some df) (Some w) "AS" "EVG" 0 (toy_world (L := nd R) tt, subs_new) = (Ok tt, ws') /\
  s_eigenvals (snd ws') = Some e /\ e.[0%nat, 0%nat] + e.[1%nat, 0%nat] = 6.
Proof.
  destruct (C31_gauss_hermite_tensor eigh_ref argsort_ref [2; 2]%Z eig_ref_contract eig_ref_total argsort_ref_contract ltac:(repeat constructor; lia)) as (x & w & E & _).
  set (df := mk2 (nrows x) 2 (fun r i => G84 i (fun k => x.[r, k]))).
  destruct (C84_gaussian_subspace eigh_ref eigh_ref argsort_ref lstsq_ref norm2_ref det_ref toy_gen unit [2; 2]%Z 1 G84 x w df (toy_world (L := nd R) tt, subs_new)
    eigh_ref_contract eigh_ref_total eig_ref_contract eig_ref_total argsort_ref_contract norm2_ref_contract det_ref_contract ltac:(simpl; lia)
    ltac:(repeat constructor; lia) ltac:(intros [|[|k]] Hk; simpl in *; lia) G84_poly E eq_refl ltac:(intros; reflexivity))
    as (ws' & e & V & EC & Ee & _ & _ & _ & HO & _ & HC & _).
  exists x, w, df, ws', e. split; [exact E|]. split; [exact EC|]. split; [exact Ee|].
  assert (A := HC 0%nat 0%nat ltac:(simpl; lia) ltac:(simpl; lia)). assert (B := HC 1%nat 1%nat ltac:(simpl; lia) ltac:(simpl; lia)). cbn [List.length] in A, B.
  destruct G84_means as (A' & B').
  assert (A1 := mean_nd_unique _ _ _ _ _ gaussian_mean_unique A A'). assert (B1 := mean_nd_unique _ _ _ _ _ gaussian_mean_unique B B').
  assert (O0 := HO 0%nat 0%nat ltac:(simpl; lia) ltac:(simpl; lia)). assert (O1 := HO 1%nat 1%nat ltac:(simpl; lia) ltac:(simpl; lia)).
  rewrite kd_same in O0, O1. unfold ent in *. cbn [sumf List.length] in A1, B1, O0, O1. assert (P0 := f_equal (Rmult (e.[0%nat, 0%nat])) O0). assert (P1 := f_equal (Rmult (e.[1%nat, 0%nat])) O1). cbv beta in P0, P1. lra.
Qed.
