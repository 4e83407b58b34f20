(** Final statements about the way from a simulation to its active subspace in floating point: C113. *)
From Coq Require Import Reals Lra Lia List Arith ZArith String Bool Permutation.
From Verif Require Import Properties_Float Prelude Py NumArr LinAlg Lsq Sorting Spectral Perturb M_Misc M_SimRunners M_Gradients M_Subspaces P_Misc P_Gradients P_Subspaces M_Float M_FloatGrad
  P_Float P_FloatCode P_Stability P_FloatGrad P_FloatSub EighRef P_Partition Toy Properties_Gradients Properties_Subspaces Properties_FloatGrad Properties_FloatSub.
Import ListNotations.
Open Scope R_scope.

(** ** C113 *)
Lemma near_eigenvalues : forall m C e V lam B e' V' mu eps, psd m C -> eigsorted m C e V lam -> eigsorted m B e' V' mu -> 0 <= eps ->
  (forall y x, Rabs (bil m (fun i l => B i l - C i l) y x) <= eps * (len m y * len m x)) ->
  forall j, (j < m)%nat -> Rabs (e'.[j, 0%nat] - e.[j, 0%nat]) <= eps.
Proof.
  intros m C e V lam B e' V' mu eps P Lm S1 He S3. assert (EV := eigsorted_psd_eig _ _ _ _ _ Lm P).
  apply (weyl_abs m C (fun j => e.[j, 0%nat]) (ent V) B mu (fun j => e'.[j, 0%nat]) (ent V') eps); auto.
  - apply (es_orth _ _ _ _ _ Lm).
  - apply (es_dec _ _ _ _ _ Lm).
  - apply (eigsorted_nonneg _ _ _ _ _ Lm).
  - apply (es_orth _ _ _ _ _ S1).
  - apply (es_eig _ _ _ _ _ S1).
  - apply (es_abs _ _ _ _ _ S1).
  - apply (es_dec _ _ _ _ _ S1).
  - intros x. rewrite !quad_bil, <- bil_minus, <- len_sq. apply S3.
Qed.
Lemma near_subspace : forall m C e V lam B e' V' mu eps norm2 k P, psd m C -> symmetric m C -> eigsorted m C e V lam -> eigsorted m B e' V' mu -> 0 <= eps ->
  (forall y x, Rabs (bil m (fun i l => B i l - C i l) y x) <= eps * (len m y * len m x)) -> norm2_contract norm2 ->
  let gap := e.[(k - 1)%nat, 0%nat] - e.[k, 0%nat] in
  (1 <= k)%nat -> (k < m)%nat -> eps < gap -> shape P = [k; (m - k)%nat] ->
  (forall a b, (a < k)%nat -> (b < m - k)%nat -> P.[a, b] = sumf m (fun i => V.[i, a] * V'.[i, (k + b)%nat])) ->
  norm2 P <= eps / (gap - eps).
Proof.
  intros m C e V lam B e' V' mu eps norm2 k P PS Sy Lm S1 He S3 HN gap Hk Hkm HG SP EP.
  assert (W := near_eigenvalues m C e V lam B e' V' mu eps PS Lm S1 He S3 k Hkm).
  assert (EV := eigsorted_psd_eig _ _ _ _ _ Lm PS).
  assert (N2 := HN k (m - k)%nat P SP ltac:(lia) ltac:(lia)).
  destruct (is_norm2_bil k (m - k) (ent P) (norm2 P) ltac:(lia) N2) as (B1 & B2).
  assert (N0 : 0 <= norm2 P) by (apply N2).
  assert (W' : e'.[k, 0%nat] <= e.[k, 0%nat] + eps) by (dabs; lra).
  assert (DK : norm2 P * (e.[(k - 1)%nat, 0%nat] - e'.[k, 0%nat]) <= eps).
  { apply (davis_kahan_abs m C (fun j => e.[j, 0%nat]) (ent V) B mu (ent V') eps k (norm2 P)); auto.
    - apply (es_orth _ _ _ _ _ Lm).
    - apply (es_dec _ _ _ _ _ Lm).
    - apply (es_orth _ _ _ _ _ S1).
    - apply (es_eig _ _ _ _ _ S1).
    - intros j Hj1 Hj2. rewrite <- (es_abs _ _ _ _ _ S1 j Hj2). apply (es_dec _ _ _ _ _ S1); auto.
    - intros y x. rewrite bil_minus, Rabs_minus_sym, <- bil_minus. apply S3.
    - unfold gap in HG. cbv beta. lra.
    - intros y z. specialize (B1 y z). eapply Rle_trans; [|exact B1]. right.
      apply sumf_ext; intros a Ha. apply sumf_ext; intros b Hb. f_equal. f_equal. symmetry. apply EP; auto.
    - destruct B2 as (y & z & B3 & B4 & B5). exists y, z. split; auto. split; auto. rewrite <- B5.
      apply sumf_ext; intros a Ha. apply sumf_ext; intros b Hb. f_equal. f_equal. symmetry. apply EP; auto. }
  apply (Rmult_le_reg_r (gap - eps)); [lra|]. unfold Rdiv. rewrite Rmult_assoc, Rinv_l, Rmult_1_r by lra.
  eapply Rle_trans; [|exact DK]. apply Rmult_le_compat_l; auto. unfold gap. lra.
Qed.

Lemma len_entries : forall m x b, 0 <= b -> (forall i, (i < m)%nat -> Rabs (x i) <= b) -> len m x <= sqrt (INR m) * b.
Proof.
  intros m x b Hb Hx. apply len_le; [apply Rmult_le_pos; auto; apply sqrt_pos|].
  replace (sqrt (INR m) * b * (sqrt (INR m) * b)) with (sqrt (INR m) * sqrt (INR m) * (b * b)) by ring. rewrite sqrt_sqrt by apply pos_INR.
  rewrite <- (sumf_const m (b * b)). unfold dot. apply sumf_le. intros i Hi. specialize (Hx i Hi).
  replace (x i * x i) with (Rabs (x i) * Rabs (x i)) by (rewrite <- Rabs_mult; apply Rabs_pos_eq, Rle_0_sqr). apply Rmult_le_compat; auto; apply Rabs_pos.
Qed.

Lemma len_triang : forall m x y, len m (fun i => x i + y i) <= len m x + len m y.
Proof.
  intros m x y. assert (Px := len_nonneg m x). assert (Py := len_nonneg m y). apply len_le; [lra|].
  assert (Q : dot m (fun i => x i + y i) (fun i => x i + y i) = dot m x x + 2 * dot m x y + dot m y y).
  { unfold dot. rewrite <- sumf_scal_l, <- !sumf_plus. apply sumf_ext. intros; ring. }
  rewrite Q, <- !len_sq. assert (X := dot_len m x y). pose proof (Rle_abs (dot m x y)). lra.
Qed.

(** X: floats of size at most Xm - h; gradients of length at most L; the simulation returns floats
    within E of g; the gradients by forward differences with step h, then the active subspace,
    both in floating point, against the exact gradients df0 and their exact subspace. *)
Theorem C113_chain : forall F (G : gen) (U : Type) (f : ufun (U:=U) (nd R) (nd R)) X M m h K E L Xm d t
    (g gt : (nat -> R) -> R) (w : world G U (nd R)) (dg : nat -> nat -> R -> R) df0 eigh argsort eigh' argsort' norm2 weights e V,
  valid F -> shape X = [M; m] -> (forall i j, (i < M)%nat -> (j < m)%nat -> fmt F (X.[i, j])) -> fmt F h -> 0 < h -> 0 <= K -> 0 <= L -> 0 <= E -> (0 < m)%nat ->
  (forall i k, (i < M)%nat -> (k < m)%nat -> Rabs (X.[i, k] + h) <= Xm) -> 0 <= Xm ->
  let delta := ulp1 F * Xm in
  (forall x y, (forall j, (j < m)%nat -> x j = y j) -> g x = g y) -> (forall x y, (forall j, (j < m)%nat -> x j = y j) -> gt x = gt y) ->
  (forall x u, f x u = (Ok (ND [] (fun _ => gt (fun j => x.[0%nat, j]))), u)) ->
  (forall x, (forall j, (j < m)%nat -> fmt F (x j)) -> fmt F (gt x)) ->
  (forall i, (i < M)%nat -> Rabs (gt (fun j => X.[i, j]) - g (fun j => X.[i, j])) <= E) ->
  (forall i k, (i < M)%nat -> (k < m)%nat -> let y j := if Nat.eqb j k then rnd F (X.[i, j] + h) else X.[i, j] in Rabs (gt y - g y) <= E) ->
  (forall i k t, (i < M)%nat -> (k < m)%nat -> 0 <= t <= h + delta ->
     derivable_pt_lim (fun t => g (fun j => X.[i, j] + (if Nat.eqb j k then t else 0))) t (dg i k t)) ->
  (forall i k t, (i < M)%nat -> (k < m)%nat -> 0 <= t <= h + delta -> Rabs (dg i k t - dg i k 0) <= K * t) ->
  shape df0 = [M; m] -> (forall i k, (i < M)%nat -> (k < m)%nat -> df0.[i, k] = dg i k 0) ->
  (forall s, (s < M)%nat -> sumf m (fun i => df0.[s, i] * df0.[s, i]) <= L * L) ->
  shape weights = [M; 1%nat] -> (forall s, (s < M)%nat -> 0 <= weights.[s, 0%nat]) ->
  eigh_contract eigh -> argsort_contract argsort -> eigh_contract eigh' -> argsort_contract argsort' -> eigh_total eigh' -> norm2_contract norm2 ->
  (forall i j, (i < m)%nat -> (j < m)%nat -> Permutation (dleaves (t i j)) (seq 0 M) /\ (ddepth (t i j) <= d)%nat) ->
  active_subspace eigh argsort df0 weights = Ok (e, V) ->
  let A := (K * ((h + delta) * (h + delta)) / 2 + 2 * E + delta * L) / h in
  let b := sqrt (INR m) * ((1 + ulp1 F) ^ 2 * A + ((1 + ulp1 F) ^ 2 - 1) * L + eta F) in
  let S := sumf M (fun s => weights.[s, 0%nat]) in
  let eps := b * (2 * L + b) * S +
    (((1 + ulp1 F) ^ (d + 1) - 1) * ((L + b) * (L + b)) * S + INR m * ((1 + ulp1 F) ^ d * INR M * (1 + (L + b)) * eta F)) in
  exists D w' e' V', finite_difference_gradients_fl F X (IsA f) h w = (Ok D, w') /\ active_subspace_fl eigh' argsort' F t D weights = Ok (e', V') /\
    (forall j, (j < m)%nat -> Rabs (e'.[j, 0%nat] - e.[j, 0%nat]) <= eps) /\
    forall k P, let gap := e.[(k - 1)%nat, 0%nat] - e.[k, 0%nat] in
      (1 <= k)%nat -> (k < m)%nat -> eps < gap -> shape P = [k; (m - k)%nat] ->
      (forall a b, (a < k)%nat -> (b < m - k)%nat -> P.[a, b] = sumf m (fun i => V.[i, a] * V'.[i, (k + b)%nat])) ->
      norm2 P <= eps / (gap - eps).
Proof.
  intros F G U f X M m h K E L Xm d t g gt w dg df0 eigh argsort eigh' argsort' norm2 weights e V Vf HX FX Fh Hh HK HL HE0 Hm HXm HXm0 delta Hg Hgt Hf Fg Ge0 Ge1 HD HLip
    S0 E0 BL Sw Hw HE HA HE' HA' HT HN Ht H A b S eps.
  assert (Hu := ulp1_pos F). assert (He := eta_pos F).
  assert (De : forall i k, (i < M)%nat -> (k < m)%nat -> ulp1 F * Rabs (X.[i, k] + h) <= delta) by (intros; apply Rmult_le_compat_l; [lra|auto]).
  assert (De0 : 0 <= delta) by (apply Rmult_le_pos; lra).
  destruct (C111_finite_differences F G U f X M m h K E g gt w dg Vf HX FX Fh Hh HK Hg Hgt Hf Fg Ge0 Ge1) as (D & w' & D1 & D2 & D3).
  { intros i k s Hi Hk Hs. apply HD; auto. specialize (De i k Hi Hk). lra. }
  { intros i k s Hi Hk Hs. apply HLip; auto. specialize (De i k Hi Hk). lra. }
  assert (G1' : 1 <= (1 + ulp1 F) ^ 2) by apply G1.
  assert (A0 : 0 <= A).
  { unfold A. apply Rmult_le_pos; [|left; now apply Rinv_0_lt_compat]. assert (0 <= K * ((h + delta) * (h + delta))) by (apply Rmult_le_pos; auto; apply Rle_0_sqr).
    assert (0 <= delta * L) by now apply Rmult_le_pos. lra. }
  set (b0 := (1 + ulp1 F) ^ 2 * A + ((1 + ulp1 F) ^ 2 - 1) * L + eta F) in *.
  assert (B0 : 0 <= b0).
  { unfold b0. assert (0 <= (1 + ulp1 F) ^ 2 * A) by (apply Rmult_le_pos; lra). assert (0 <= ((1 + ulp1 F) ^ 2 - 1) * L) by (apply Rmult_le_pos; lra). lra. }
  assert (Bb : 0 <= b) by (apply Rmult_le_pos; auto; apply sqrt_pos).
  assert (DL : forall s i, (s < M)%nat -> (i < m)%nat -> Rabs (dg s i 0) <= L).
  { intros s i Hs Hi. rewrite <- E0 by auto. exact (entry_le M m df0 L HL BL s i Hs Hi). }
  assert (DB : forall s, (s < M)%nat -> len m (fun i => D.[s, i] - df0.[s, i]) <= b).
  { intros s Hs. apply len_entries; auto. intros i Hi. rewrite E0 by auto. destruct (D3 s i Hs Hi) as (_ & Q). cbv zeta in Q.
    eapply Rle_trans; [exact Q|]. unfold b0. specialize (DL s i Hs Hi). specialize (De s i Hs Hi). assert (P1 := Rabs_pos (dg s i 0)).
    assert (P2 : 0 <= ulp1 F * Rabs (X.[s, i] + h)) by (apply Rmult_le_pos; [lra|apply Rabs_pos]).
    set (dl := ulp1 F * Rabs (X.[s, i] + h)) in *. set (q := Rabs (dg s i 0)) in *.
    assert (Q1 : dl * q <= delta * L) by (apply Rmult_le_compat; auto).
    assert (Q2 : (h + dl) * (h + dl) <= (h + delta) * (h + delta)) by (apply Rmult_le_compat; lra).
    assert (Q3 : (K * ((h + dl) * (h + dl)) / 2 + 2 * E + dl * q) / h <= A).
    { unfold A. apply Rmult_le_compat_r; [left; now apply Rinv_0_lt_compat|]. apply (Rmult_le_compat_l K) in Q2; auto. lra. }
    apply (Rmult_le_compat_l ((1 + ulp1 F) ^ 2)) in Q3; [|lra]. assert (((1 + ulp1 F) ^ 2 - 1) * q <= ((1 + ulp1 F) ^ 2 - 1) * L) by (apply Rmult_le_compat_l; lra). lra. }
  assert (LD : forall s, (s < M)%nat -> len m (fun i => D.[s, i]) <= L + b).
  { intros s Hs. rewrite (len_ext m _ (fun i => df0.[s, i] + (D.[s, i] - df0.[s, i]))) by (intros; ring).
    eapply Rle_trans; [apply len_triang|]. apply Rplus_le_compat; [apply len_le; auto; exact (BL s Hs)|auto]. }
  assert (BLD : forall s, (s < M)%nat -> sumf m (fun i => D.[s, i] * D.[s, i]) <= (L + b) * (L + b)).
  { intros s Hs. change (dot m (fun i => D.[s, i]) (fun i => D.[s, i]) <= (L + b) * (L + b)). rewrite <- len_sq. apply Rmult_le_compat; auto; apply len_nonneg. }
  destruct (C112_returns eigh' argsort' F t M m D weights HE' HA' HT Hm D2 Sw) as (e' & V' & H' & _).
  exists D, w', e', V'. split; auto. split; auto.
  destruct (computed eigh' argsort' HE' HA' F t M m d D weights e' V' (L + b) Vf D2 Sw Hw ltac:(lra) BLD Ht H') as (B & mu & S1 & _ & S3).
  assert (Ep := eps_nonneg F M m d weights (L + b) Hw ltac:(lra)). cbv zeta in Ep.
  destruct (active_subspace_spec eigh argsort HE HA M m df0 weights e V S0 Sw H) as (lam & Lm).
  assert (PS := gradC_psd M m (ent df0) (fun s => weights.[s, 0%nat]) Hw).
  assert (PB := gradC_perturb M m (ent df0) (ent D) (fun s => weights.[s, 0%nat]) b L Bb HL Hw (fun s Hs => len_le m _ L HL (BL s Hs)) DB).
  assert (S0' : 0 <= S) by (apply sumf_nonneg; auto).
  assert (Ep1 : 0 <= b * (2 * L + b) * S) by (apply Rmult_le_pos; auto; apply Rmult_le_pos; lra).
  assert (EE : 0 <= eps) by (unfold eps; fold S in Ep; lra).
  assert (TOT : forall y x, Rabs (bil m (fun i l => B i l - gradC M (ent df0) (fun s => weights.[s, 0%nat]) i l) y x) <= eps * (len m y * len m x)).
  { intros y x. specialize (S3 y x). specialize (PB y x). rewrite bil_minus in *. fold S in S3, PB. unfold eps.
    set (p := bil m B y x) in *. set (q := bil m (gradC M (ent D) (fun s => weights.[s, 0%nat])) y x) in *. set (r := bil m (gradC M (ent df0) (fun s => weights.[s, 0%nat])) y x) in *.
    replace (p - r) with ((p - q) + (q - r)) by ring. eapply Rle_trans; [apply Rabs_triang|]. lra. }
  split; [exact (near_eigenvalues m _ e V lam B e' V' mu eps PS Lm S1 EE TOT)|].
  intros k P. apply (near_subspace m _ e V lam B e' V' mu eps norm2 k P PS); auto.
  intros i l Hi Hl. apply (gradC_sym M _ _ m); auto.
Qed.
Print Assumptions C113_chain.

(** f(x) = (3 x0^2 + 4 x1^2)/2 at (1, 1) and (2, 2), whose gradients are those of C12_case, with the step
    2^-20 in binary64; the simulation returns the value rounded. *)
Definition g113 (x : nat -> R) : R := (3 * (x 0%nat * x 0%nat) + 4 * (x 1%nat * x 1%nat)) / 2.
Definition f113 : ufun (U:=unit) (nd R) (nd R) := fun x u => (Ok (ND [] (fun _ => rnd binary64 (g113 (fun j => x.[0%nat, j])))), u).
Definition X113 : nd R := mat_of [[1; 1]; [2; 2]].
Definition t113 : nat -> nat -> dtree := fun _ _ => Fma (Prod 0) 1.
Definition dg113 (i k : nat) (t : R) : R := (if Nat.eqb k 0 then 3 else 4) * ((if Nat.eqb i 0 then 1 else 2) + t).

Example C113_case : exists e V D w' e' V', active_subspace eigh_ref argsort_ref df11 w11 = Ok (e, V) /\
  finite_difference_gradients_fl binary64 X113 (IsA f113) (bpow (-20)) (toy_world (L:=nd R) tt) = (Ok D, w') /\
  active_subspace_fl eigh_ref argsort_ref binary64 t113 D w11 = Ok (e', V') /\
  Rabs (e'.[0%nat, 0%nat] - 125 / 2) <= / 1000 /\
  norm2_ref (mk2 1 1 (fun _ _ => sumf 2 (fun i => V.[i, 0%nat] * V'.[i, 1%nat]))) < / 10000.
Proof.
  destruct C12_case as (e & V & H & E0 & E1). exists e, V.
  set (u := ulp1 binary64). assert (Eu : u = / 9007199254740992) by (unfold u, ulp1; simpl f_prec; rewrite pow2m by lia; reflexivity).
  assert (Ee : 0 < eta binary64 <= u) by (split; [apply eta_pos|apply (Heta binary64 valid64)]).
  set (h := bpow (-20)). assert (Eh : h = / 1048576) by (unfold h; change (-20)%Z with (- (20))%Z; rewrite pow2m by lia; reflexivity).
  assert (Fh : fmt binary64 h) by (apply fmt_pow; [exact valid64|simpl; lia]).
  assert (FX : forall i j, (i < 2)%nat -> (j < 2)%nat -> fmt binary64 (X113.[i, j]) /\ 1 <= X113.[i, j] <= 2 /\ X113.[i, j] = if Nat.eqb i 0 then 1 else 2).
  { intros [|[|i]] [|[|j]] Hi Hj; try lia; (split; [apply fmt_Z; reflexivity|cbn; lra]). }
  assert (MV : forall i j, (i < 2)%nat -> (j < 2)%nat -> 0 <= rnd binary64 (X113.[i, j] + h) <= 3).
  { intros i j Hi Hj. destruct (FX i j Hi Hj) as (_ & B & _). split; [apply rnd_nonneg; lra|]. rewrite <- (fmt_fix binary64 valid64 3) by (apply fmt_Z; reflexivity).
    apply rnd_mono; [exact valid64|lra]. }
  assert (SQ : forall x : nat -> R, 0 <= x 0%nat <= 3 -> 0 <= x 1%nat <= 3 -> Rabs (rnd binary64 (g113 x) - g113 x) <= 33 * u).
  { intros x H0 H1. eapply Rle_trans; [apply (rnd_err binary64)|]. fold u. unfold g113. assert (0 <= x 0%nat * x 0%nat <= 9) by nra. assert (0 <= x 1%nat * x 1%nat <= 9) by nra.
    rewrite Rabs_pos_eq by lra. assert (u * ((3 * (x 0%nat * x 0%nat) + 4 * (x 1%nat * x 1%nat)) / 2) <= u * 32) by (apply Rmult_le_compat_l; lra). lra. }
  assert (BL : forall s, (s < 2)%nat -> sumf 2 (fun i => df11.[s, i] * df11.[s, i]) <= 10 * 10) by (intros [|[|s]] Hs; try lia; cbn; lra).
  assert (Ht : forall i j : nat, (i < 2)%nat -> (j < 2)%nat -> Permutation (dleaves (t113 i j)) (seq 0 2) /\ (ddepth (t113 i j) <= 2)%nat).
  { intros i j _ _. split; [reflexivity|cbn; lia]. }
  destruct (C113_chain binary64 toy_gen unit f113 X113 2 2 h 4 (33 * u) 10 3 2 t113 g113 (fun x => rnd binary64 (g113 x)) (toy_world tt) dg113 df11
     eigh_ref argsort_ref eigh_ref argsort_ref norm2_ref w11 e V valid64 eq_refl) as (D & w' & e' & V' & H1 & H2 & H3 & H4);
    auto using w11_nonneg, eigh_ref_contract, argsort_ref_contract, eigh_ref_total, norm2_ref_contract; try lra; try lia.
  - intros i j Hi Hj. now apply FX.
  - intros i k Hi Hk. destruct (FX i k Hi Hk) as (_ & B & _). rewrite Rabs_pos_eq; lra.
  - intros x y Q. unfold g113. now rewrite !Q by lia.
  - intros x y Q. unfold g113. now rewrite !Q by lia.
  - intros. apply rnd_fmt. exact valid64.
  - intros i Hi. cbv beta. apply SQ; [destruct (FX i 0%nat Hi) as (_ & B & _)|destruct (FX i 1%nat Hi) as (_ & B & _)]; try lia; lra.
  - intros i k Hi Hk y. cbv beta. apply SQ; unfold y; (destruct (Nat.eqb _ k); [apply MV; lia|]); [destruct (FX i 0%nat Hi) as (_ & B & _)|destruct (FX i 1%nat Hi) as (_ & B & _)]; try lia; lra.
  - intros i k t Hi Hk _. unfold g113, dg113.
    destruct (FX i 0%nat Hi ltac:(lia)) as (_ & _ & B1). destruct (FX i 1%nat Hi ltac:(lia)) as (_ & _ & B2). rewrite B1, B2.
    set (c := if Nat.eqb i 0 then 1 else 2).
    destruct k as [|[|k]]; try lia; cbn [Nat.eqb].
    + apply (derivable_pt_lim_ext (fun t => 3 / 2 * ((c + t) * (c + t)) + 2 * (c * c))).
      * intros s. field.
      * replace (3 * (c + t)) with (3 / 2 * ((0 + 1) * (c + t) + (c + t) * (0 + 1)) + 0) by field.
        apply (derivable_pt_lim_plus (fun t => 3 / 2 * ((c + t) * (c + t))) (fun _ => 2 * (c * c))); [|apply derivable_pt_lim_const].
        apply (derivable_pt_lim_scal (fun t => (c + t) * (c + t))).
        apply (derivable_pt_lim_mult (fun t => c + t) (fun t => c + t)); apply (derivable_pt_lim_plus (fun _ => c) (fun t => t)); (apply derivable_pt_lim_const || apply derivable_pt_lim_id).
    + apply (derivable_pt_lim_ext (fun t => 2 * ((c + t) * (c + t)) + 3 / 2 * (c * c))).
      * intros s. field.
      * replace (4 * (c + t)) with (2 * ((0 + 1) * (c + t) + (c + t) * (0 + 1)) + 0) by field.
        apply (derivable_pt_lim_plus (fun t => 2 * ((c + t) * (c + t))) (fun _ => 3 / 2 * (c * c))); [|apply derivable_pt_lim_const].
        apply (derivable_pt_lim_scal (fun t => (c + t) * (c + t))).
        apply (derivable_pt_lim_mult (fun t => c + t) (fun t => c + t)); apply (derivable_pt_lim_plus (fun _ => c) (fun t => t)); (apply derivable_pt_lim_const || apply derivable_pt_lim_id).
  - intros i k t Hi Hk [T0 _]. unfold dg113. destruct (Nat.eqb k 0).
    + match goal with |- Rabs ?a <= _ => replace a with (3 * t) by ring end. rewrite Rabs_pos_eq; lra.
    + match goal with |- Rabs ?a <= _ => replace a with (4 * t) by ring end. rewrite Rabs_pos_eq; lra.
  - intros [|[|i]] [|[|k]] Hi Hk; try lia; unfold dg113; cbn; lra.
  - exists D, w', e', V'. split; auto. split; auto. split; auto.
    revert H3 H4. fold u.
    set (A := (4 * ((h + u * 3) * (h + u * 3)) / 2 + 2 * (33 * u) + u * 3 * 10) / h).
    replace (sumf 2 (fun s => w11.[s, 0%nat])) with 1 by (cbn; lra). replace (INR 2) with 2 by (cbn; lra).
    set (b := sqrt 2 * ((1 + u) ^ 2 * A + ((1 + u) ^ 2 - 1) * 10 + eta binary64)).
    set (eps := b * (2 * 10 + b) * 1 + (((1 + u) ^ (2 + 1) - 1) * ((10 + b) * (10 + b)) * 1 + 2 * ((1 + u) ^ 2 * 2 * (1 + (10 + b)) * eta binary64))).
    assert (B : 0 <= eps <= / 1000).
    { assert (A1 : 0 <= A <= / 400000) by (unfold A; rewrite Eh, Eu; split; lra).
      assert (U1 : 1 <= (1 + u) ^ 2 <= 1 + 3 * u) by (rewrite Eu; cbn; lra). assert (U2 : 1 <= (1 + u) ^ (2 + 1) <= 1 + 4 * u) by (rewrite Eu; cbn; lra).
      assert (R : 0 <= sqrt 2 <= 3 / 2) by (split; [apply sqrt_pos|]; rewrite <- (sqrt_square (3 / 2)) by lra; apply sqrt_le_1_alt; lra).
      assert (B1 : 0 <= (1 + u) ^ 2 * A + ((1 + u) ^ 2 - 1) * 10 + eta binary64 <= / 300000).
      { clearbody A. clear - A1 U1 Ee Eu. assert (0 <= u <= / 1000000000000000) by (rewrite Eu; lra). nra. }
      assert (B2 : 0 <= b <= / 200000) by (unfold b; split; [apply Rmult_le_pos; lra|]; replace (/ 200000) with (3 / 2 * / 300000) by field; apply Rmult_le_compat; lra).
      unfold eps. clearbody b. clear A A1 B1. assert (U0 : 0 <= u <= / 1000000000000000) by (rewrite Eu; lra). set (p := (1 + u) ^ 2) in *. set (q := (1 + u) ^ (2 + 1)) in *. set (r := eta binary64) in *. clearbody p q r. clear - B2 U0 U1 U2 Ee.
      assert (0 <= b * (2 * 10 + b) <= / 200000 * 21) by (split; [apply Rmult_le_pos; lra|apply Rmult_le_compat; lra]).
      assert (0 <= (10 + b) * (10 + b) <= 11 * 11) by (split; [apply Rmult_le_pos; lra|apply Rmult_le_compat; lra]).
      assert (0 <= (q - 1) * ((10 + b) * (10 + b)) <= / 100000000000000 * (11 * 11)) by (split; [apply Rmult_le_pos; lra|apply Rmult_le_compat; lra]).
      assert (0 <= p * 2 * (1 + (10 + b)) <= 3 * 12) by (split; [apply Rmult_le_pos; lra|apply Rmult_le_compat; lra]).
      assert (0 <= p * 2 * (1 + (10 + b)) * r <= 3 * 12 * / 1000000000000000) by (split; [apply Rmult_le_pos; lra|apply Rmult_le_compat; lra]).
      lra. }
    clearbody eps. intros H3 H4. split; [rewrite <- E0; eapply Rle_trans; [apply H3; lia|lra]|].
    specialize (H4 1%nat (mk2 1 1 (fun _ _ => sumf 2 (fun i => V.[i, 0%nat] * V'.[i, 1%nat])))). cbv zeta in H4.
    change (1 - 1)%nat with 0%nat in H4. rewrite E0, E1 in H4.
    eapply Rle_lt_trans; [apply H4; auto; try lra; try lia|].
    + intros a c Ha Hc. replace a with 0%nat by lia. replace c with 0%nat by lia. reflexivity.
    + apply (Rmult_lt_reg_r (125 / 2 - 0 - eps)); [lra|]. unfold Rdiv at 1. rewrite Rmult_assoc, Rinv_l by lra. lra.
Qed.
