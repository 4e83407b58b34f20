(** Final statement about the gradients of the Gaussian kernel in floating
    point: C117, continued. *)
From Coq Require Import Reals Lra Lia List Arith ZArith Bool Permutation.
From Verif Require Import Prelude Py NumArr LinAlg Lsq M_Misc M_RespSurf M_Float M_FloatInt M_FloatPoly M_FloatRbf M_FloatRbfGrad P_Misc P_Poly P_Rbf P_Float P_FloatCode P_FloatInt P_FloatPoly P_IndexSet Toy Properties_Float Properties_FloatInt Properties_FloatPoly Properties_FloatRbf.
Import ListNotations.
Open Scope R_scope.

(** [near_to] with what its rules ask for *)
Definition nearm (g h q p A : R) : Prop := 1 <= g <= h /\ Rabs p <= A /\ 1 <= A /\ near_to g h q p A.
Lemma nearm_exact : forall p A, Rabs p <= A -> 1 <= A -> nearm 1 1 p p A.
Proof. intros p A H1 H2. split; [lra|]. split; auto. split; auto. unfold near_to. rewrite Rminus_eq_0, Rabs_R0. lra. Qed.
Lemma nearm_mult : forall g1 h1 q1 p1 A1 g2 h2 q2 p2 A2, nearm g1 h1 q1 p1 A1 -> nearm g2 h2 q2 p2 A2 -> nearm (g1 * g2) (h1 * h2) (q1 * q2) (p1 * p2) (A1 * A2).
Proof.
  intros g1 h1 q1 p1 A1 g2 h2 q2 p2 A2 (G1 & P1 & L1 & N1) (G2 & P2 & L2 & N2).
  split; [split; [apply ge1_mult; lra|apply Rmult_le_compat; lra]|]. split; [rewrite Rabs_mult; apply Rmult_le_compat; auto; apply Rabs_pos|]. split; [now apply ge1_mult|]. now apply near_to_mult.
Qed.
Lemma nearm_rnd : forall F g h q p A, nearm g h q p A -> nearm ((1 + ulp1 F) * g) ((1 + ulp1 F + eta F) * h) (rnd F q) p A.
Proof.
  intros F g h q p A (G & P & L & N). assert (U := ulp1_pos F). assert (E := eta_pos F).
  split; [split; [apply ge1_mult; lra|apply Rmult_le_compat; lra]|]. split; auto. split; auto. now apply near_to_rnd.
Qed.

(** terms outside the sum do not matter *)
Lemma dfl_ext : forall F t b b' w w', (forall j, In j (dleaves t) -> b j = b' j /\ w j = w' j) -> dfl F t b w = dfl F t b' w'.
Proof.
  induction t as [j|t IH j|l IHl r IHr]; intros b b' w w' Hb; cbn [dfl dleaves] in *.
  - destruct (Hb j (or_introl eq_refl)) as [-> ->]. reflexivity.
  - rewrite (IH b b' w w') by (intros; apply Hb, in_or_app; auto). destruct (Hb j ltac:(apply in_or_app; right; left; reflexivity)) as [-> ->]. reflexivity.
  - rewrite (IHl b b' w w'), (IHr b b' w w') by (intros; apply Hb, in_or_app; auto). reflexivity.
Qed.
Lemma row_dot_ext : forall F dord r q b b' w w', dots_all (dord r) -> (forall j, (j < q)%nat -> b j = b' j /\ w j = w' j) -> row_dot_fl F dord r q b w = row_dot_fl F dord r q b' w'.
Proof.
  intros F dord r q b b' w w' HD H. destruct q as [|q]; [reflexivity|]. unfold row_dot_fl. apply dfl_ext. intros j Hj. apply H.
  apply (Permutation_in j (HD (S q) ltac:(lia))) in Hj. apply in_seq in Hj. lia.
Qed.

Lemma exp_neg_unit : forall z, z <= 0 -> 0 < exp z <= 1.
Proof. intros z [Hz| ->]; (split; [apply exp_pos|]); [rewrite <- exp_0; left; now apply exp_increasing|rewrite exp_0; lra]. Qed.

(** The entry for coordinate k is [b K]: b the derivative of the exponent, K the
    kernel.  b errs by [delta], K by [q], and their product is rounded once. *)
Theorem C117_kernel_gradient : forall F d ex eord e X1 X2 sigma ell M n m, valid F -> 0 <= d -> exp_close F d ex -> (forall a, dots_all (eord a)) ->
  shape X1 = [M; m] -> shape X2 = [n; m] -> size ell = m ->
  (forall a k, (a < M)%nat -> (k < m)%nat -> fmt F (X1.[a, k])) -> (forall i k, (i < n)%nat -> (k < m)%nat -> fmt F (X2.[i, k])) -> (forall k, (k < m)%nat -> 0 < ell.[k, 0%nat]) ->
  (forall a, (a < M)%nat -> (ddepth (eord a m) <= e)%nat) -> (1 + ulp1 F) ^ (e + 4) < 2 ->
  exists G G', grad_exponential_squared X1 X2 sigma ell = Ok G /\ grad_exponential_squared_fl F ex eord X1 X2 sigma ell = Ok G' /\ shape G = [M; n; m] /\ shape G' = [M; n; m] /\
    forall a i k, (a < M)%nat -> (i < n)%nat -> (k < m)%nat -> fmt F (G'.[a, i, k]) /\
      let c := 1 + ulp1 F in
      let x j := X1.[a, j] in
      let y j := X2.[i, j] in
      let l j := ell.[j, 0%nat] in
      let K := exp (- sumf m (fun j => (x j - y j) * (x j - y j) * / l j)) in
      let q := kernel_err F d e m (spread m x y l) in
      let b := sigma * (2 * / l k * (x k - y k)) in
      let delta := (c ^ 5 - 1) * Rabs b + ((c + eta F) ^ 5 - c ^ 5) * (2 * Rmax 1 (Rabs sigma) * Rmax 1 (/ l k) * Rmax 1 (Rabs (x k - y k))) in
      G.[a, i, k] = b * K /\ Rabs (G'.[a, i, k] - G.[a, i, k]) <= c * ((Rabs b + delta) * q + delta * K) + ulp1 F * (Rabs b * K) + eta F.
Proof.
  intros F d ex eord e X1 X2 sigma ell M n m V D HE HD S1 S2 SL F1 F2 HL He HG.
  assert (U := ulp1_pos F). assert (P := eta_pos F).
  destruct (grad_exponential_squared_ok X1 X2 sigma ell M n m S1 S2 SL) as (G & EG & SG & VG).
  assert (EG' : exists G', grad_exponential_squared_fl F ex eord X1 X2 sigma ell = Ok G' /\ shape G' = [M; n; m] /\ forall a i k, (k < m)%nat ->
    G'.[a, i, k] = rnd F (rnd F (sigma * rnd F (rnd F (-2 * rnd F (-1 / ell.[k, 0%nat])) * rnd F (X1.[a, k] - X2.[i, k]))) *
      ex (row_dot_fl F eord a m (fun j => rnd F (rnd F (X1.[a, j] - X2.[i, j]) * rnd F (X1.[a, j] - X2.[i, j]))) (fun j => rnd F (-1 / ell.[j, 0%nat]))))).
  { unfold grad_exponential_squared_fl, shape2. rewrite S1, S2. cbn [rbind]. unfold bdim. rewrite Nat.eqb_refl. cbv beta iota zeta. rewrite SL, Nat.eqb_refl. cbn [negb]. rewrite andb_false_r.
    assert (E : (negb (Nat.eqb n 0 || Nat.eqb m 0) && Nat.eqb m 0)%bool = false) by (destruct (Nat.eqb n 0), (Nat.eqb m 0); reflexivity). rewrite E.
    eexists. split; [reflexivity|]. split; [reflexivity|]. intros a i k Hk. rewrite at_mk3, !(bidx_ok m k) by auto.
    match goal with |- rnd F (?u * ex ?z) = rnd F (_ * ex ?z') => assert (EA : z = z'); [|rewrite EA; lazymatch goal with |- ?a = ?a => reflexivity end] end.
    apply row_dot_ext; [auto|]. intros j Hj. now rewrite !(bidx_ok m j). }
  destruct EG' as (G' & EG' & SG' & VG'). exists G, G'. split; [exact EG|]. split; [exact EG'|]. split; [exact SG|]. split; [exact SG'|].
  intros a i k Ha Hi Hk. rewrite VG' by auto. split; [apply rnd_fmt; auto|]. intros c x y l K q b delta.
  fold (x k) (y k) (l k). set (A := row_dot_fl F eord a m _ _).
  assert (EB : G.[a, i, k] = b * K).
  { rewrite VG by auto. unfold dgauss, gauss, b, K. fold (x k) (y k) (l k).
    replace (sumf m (fun j => (X1.[a, j] - X2.[i, j]) * (X1.[a, j] - X2.[i, j]) * (-1 / ell.[j, 0%nat]))) with (- sumf m (fun j => (x j - y j) * (x j - y j) * / l j)).
    - field. generalize (HL k Hk). unfold l. lra.
    - rewrite <- (Rmult_1_l (sumf m (fun k => _ * / _))), <- Ropp_mult_distr_l_reverse, <- sumf_scal_l. apply sumf_ext. intros j Hj. unfold x, y, l. field. generalize (HL j Hj). lra. }
  split; [exact EB|]. rewrite EB. clear EB EG SG VG EG' SG' VG' G G'.
  destruct (exponent_err F eord a m x y l e V (HD a) (He a Ha)) as (T0 & A0 & AE); [intros j Hj; unfold x, y, l; auto|]. cbv beta zeta in AE. fold A in A0, AE.
  set (t := sumf m (fun j => (x j - y j) * (x j - y j) * / l j)) in *. 
  assert (FA : fmt F A) by (apply row_dot_fmt; auto). destruct (HE A FA A0) as [FE EE].
  assert (KQ : Rabs (ex A - K) <= q).
  { set (tau := under F e m (spread m x y l)) in *. set (g := (1 + ulp1 F) ^ (e + 4) - 1) in *.
    assert (G0 : 0 <= g < 1) by (split; [unfold g; generalize (pow_R1_Rle (1 + ulp1 F) (e + 4) ltac:(lra)); lra|unfold g; lra]).
    assert (TA : 0 <= tau).
    { unfold tau, under. apply Rmult_le_pos; [apply pow_le; lra|]. apply Rplus_le_le_0_compat; [|apply Rmult_le_pos; [apply pos_INR|lra]].
      apply Rmult_le_pos; [apply Rmult_le_pos; [|apply pow_le; lra]|].
      - assert (Q : (1 + ulp1 F) ^ 2 <= (1 + ulp1 F + eta F) ^ 2) by (apply pow_incr; lra). lra.
      - apply sumf_nonneg. intros j Hj. apply Rmult_le_pos; [apply pow_le; generalize (Rmax_l 1 (Rabs (x j - y j))); lra|]. generalize (Rmax_l 1 (/ l j)). lra. }
    assert (XN := exp_near A t g tau T0 G0 TA AE).
    assert (EA : 0 < exp A <= 1) by (apply exp_neg_unit; exact A0).
    assert (DP : d * exp A <= d) by (rewrite <- (Rmult_1_r d) at 2; apply Rmult_le_compat_l; lra).
    replace (ex A - K) with ((ex A - exp A) + (exp A - K)) by ring. apply Rle_trans with (1 := Rabs_triang _ _). unfold q, kernel_err. fold g tau. unfold K. lra. }
  assert (K0 : 0 < K) by apply exp_pos. clearbody K. clear AE EE FA A0 T0 FE.
  assert (Lk := HL k Hk). fold (l k) in Lk.
  assert (NL : nearm (c * 1) ((c + eta F) * 1) (rnd F (-1 / l k)) (-1 / l k) (Rmax 1 (/ l k))).
  { apply nearm_rnd, nearm_exact; [|apply Rmax_l]. replace (-1 / l k) with (- / l k) by (field; lra). rewrite Rabs_Ropp, Rabs_pos_eq by (left; now apply Rinv_0_lt_compat). apply Rmax_r. }
  assert (N2 : nearm 1 1 (-2) (-2) 2) by (apply nearm_exact; [rewrite Rabs_left by lra; lra|lra]).
  assert (NB : nearm c (c + eta F) (rnd F (x k - y k)) (x k - y k) (Rmax 1 (Rabs (x k - y k)))).
  { split; [unfold c; lra|]. split; [apply Rmax_r|]. split; [apply Rmax_l|]. unfold near_to. assert (R := rnd_err_sub F V (x k) (y k) (F1 a k Ha Hk) (F2 i k Hi Hk)).
    assert (0 <= eta F * Rmax 1 (Rabs (x k - y k))) by (apply Rmult_le_pos; [lra|generalize (Rmax_l 1 (Rabs (x k - y k))); lra]). unfold c. lra. }
  assert (NS : nearm 1 1 sigma sigma (Rmax 1 (Rabs sigma))) by (apply nearm_exact; [apply Rmax_r|apply Rmax_l]).
  assert (N := nearm_rnd F _ _ _ _ _ (nearm_mult _ _ _ _ _ _ _ _ _ _ NS (nearm_rnd F _ _ _ _ _ (nearm_mult _ _ _ _ _ _ _ _ _ _ (nearm_rnd F _ _ _ _ _ (nearm_mult _ _ _ _ _ _ _ _ _ _ N2 NL)) NB)))).
  fold c in N. destruct N as (_ & _ & _ & N). unfold near_to in N.
  set (z := rnd F (sigma * _)) in *.
  assert (ZB : Rabs (z - b) <= delta).
  { replace (sigma * (-2 * (-1 / l k) * (x k - y k))) with b in N by (unfold b; field; lra). eapply Rle_trans; [exact N|]. right. unfold delta. ring. }
  clearbody z. clear N NS NB N2 NL.
  assert (DL : 0 <= delta) by (eapply Rle_trans; [apply Rabs_pos|exact ZB]). assert (Q0 : 0 <= q) by (eapply Rle_trans; [apply Rabs_pos|exact KQ]). clearbody delta q b A. assert (B0 := Rabs_pos b).
  assert (ZA : Rabs z <= Rabs b + delta) by (replace z with (b + (z - b)) by ring; apply Rle_trans with (1 := Rabs_triang _ _); lra).
  assert (W : Rabs (z * ex A - b * K) <= (Rabs b + delta) * q + delta * K).
  { replace (z * ex A - b * K) with (z * (ex A - K) + (z - b) * K) by ring. apply Rle_trans with (1 := Rabs_triang _ _). rewrite !Rabs_mult, (Rabs_pos_eq K) by lra.
    apply Rplus_le_compat; apply Rmult_le_compat; auto; try apply Rabs_pos; lra. }
  set (w := (Rabs b + delta) * q + delta * K) in *.
  assert (WA : Rabs (z * ex A) <= Rabs b * K + w).
  { replace (z * ex A) with (b * K + (z * ex A - b * K)) by ring. apply Rle_trans with (1 := Rabs_triang _ _). rewrite (Rabs_mult b), (Rabs_pos_eq K) by lra. lra. }
  assert (R := rnd_err F (z * ex A)). assert (R2 : ulp1 F * Rabs (z * ex A) <= ulp1 F * (Rabs b * K + w)) by (apply Rmult_le_compat_l; lra).
  replace (rnd F (z * ex A) - b * K) with ((rnd F (z * ex A) - z * ex A) + (z * ex A - b * K)) by ring. apply Rle_trans with (1 := Rabs_triang _ _). unfold c. lra.
Qed.
Print Assumptions C117_kernel_gradient.

(** binary64, exponentials to the nearest float, one centre at 1/2, the slope at 0 *)
Example C117_kernel_gradient_case : exists G G', grad_exponential_squared (mat_of [[1/2]]) (mat_of [[0]]) 1 (mat_of [[1/4]]) = Ok G /\
  grad_exponential_squared_fl binary64 (fun x => rnd binary64 (exp x)) (fun _ => dcomb) (mat_of [[1/2]]) (mat_of [[0]]) 1 (mat_of [[1/4]]) = Ok G' /\
  G.[0%nat, 0%nat, 0%nat] = 4 * exp (-1) /\ Rabs (G'.[0%nat, 0%nat, 0%nat] - G.[0%nat, 0%nat, 0%nat]) <= 300 * bpow (-53).
Proof.
  assert (V := valid64). assert (KE := kernel_err_117).
  assert (U0 : 0 < ulp1 binary64) by apply ulp1_pos. assert (U1 : ulp1 binary64 <= / 1000000).
  { change (ulp1 binary64) with (bpow (-53)). apply Rle_trans with (bpow (-20)); [apply bpow_le; lia|]. change (-20)%Z with (- (20))%Z. unfold bpow. simpl. lra. }
  assert (B1 : forall z, bpow (z + 1) = 2 * bpow z) by (intros; apply bpow_S). assert (E1 : bpow (-1) = / 2) by (assert (Q := bpow_0); change 0%Z with (-1 + 1)%Z in Q; rewrite !B1 in Q; lra).
  destruct (C117_kernel_gradient binary64 (ulp1 binary64) (fun x => rnd binary64 (exp x)) (fun _ => dcomb) 1 (mat_of [[1/2]]) (mat_of [[0]]) 1 (mat_of [[1/4]]) 1 1 1 V ltac:(lra) (rnd_exp_close _ V)) as (G & G' & Q1 & Q2 & _ & _ & Q).
  - intros _; exact dcomb_all.
  - reflexivity.
  - reflexivity.
  - reflexivity.
  - intros a k Ha Hk. replace a with 0%nat by lia. replace k with 0%nat by lia. cbn. apply (fmt_by _ 1 (-1)); [rewrite E1; lra|reflexivity|reflexivity].
  - intros a k Ha Hk. replace a with 0%nat by lia. replace k with 0%nat by lia. cbn. apply fmt_0; auto.
  - intros k Hk. replace k with 0%nat by lia. cbn. lra.
  - intros a Ha. cbn. lia.
  - replace ((1 + ulp1 binary64) ^ (1 + 4)) with ((1 + ulp1 binary64) ^ 2 * (1 + ulp1 binary64) ^ 2 * (1 + ulp1 binary64)) by (change (1 + 4)%nat with 5%nat; ring).
    assert (A1 : 0 <= (1 + ulp1 binary64) ^ 2 <= 11 / 10) by (simpl pow; nra). assert (A2 : 0 <= (1 + ulp1 binary64) ^ 2 * (1 + ulp1 binary64) ^ 2 <= (11 / 10) * (11 / 10)) by (split; [apply Rmult_le_pos; lra|apply Rmult_le_compat; lra]).
    apply Rle_lt_trans with ((11 / 10) * (11 / 10) * (11 / 10)); [apply Rmult_le_compat; lra|lra].
  - exists G, G'. split; [exact Q1|]. split; [exact Q2|]. destruct (Q 0%nat 0%nat 0%nat ltac:(lia) ltac:(lia) ltac:(lia)) as [_ H]. clear Q Q1 Q2. cbv beta zeta in H.
    change ((mat_of [[1/2]]).[0%nat, 0%nat]) with (1 / 2) in H. change ((mat_of [[0]]).[0%nat, 0%nat]) with 0 in H. change ((mat_of [[1/4]]).[0%nat, 0%nat]) with (1 / 4) in H.
    assert (S0 : spread 1 (fun j => (mat_of [[1/2]]).[0%nat, j]) (fun j => (mat_of [[0]]).[0%nat, j]) (fun k => (mat_of [[1/4]]).[k, 0%nat]) = 4).
    { unfold spread. cbn [sumf]. cbn. replace (1 / 2 - 0) with (1 / 2) by lra. rewrite Rabs_pos_eq, (Rmax_left 1 (1 / 2)), (Rmax_right 1 (/ (1 / 4))) by lra. field. }
    rewrite S0 in H. match type of H with context [sumf 1 ?h] => replace (sumf 1 h) with 1 in H by (cbn [sumf]; cbn; field) end.
    replace (1 * (2 * / (1 / 4) * (1 / 2 - 0))) with 4 in H by field. replace (1 / 2 - 0) with (1 / 2) in H by lra.
    rewrite (Rabs_pos_eq 4), (Rabs_pos_eq (1 / 2)), (Rabs_pos_eq 1), (Rmax_left 1 1), (Rmax_left 1 (1 / 2)), (Rmax_right 1 (/ (1 / 4))) in H by lra.
    change (- (1)) with (-1) in H. destruct H as [HG H]. split; [exact HG|]. rewrite HG in *. clear HG. change (bpow (-53)) with (ulp1 binary64).
    set (n := eta binary64) in *. assert (N0 : 0 < n) by apply eta_pos. assert (N1 : n <= ulp1 binary64).
    { unfold n, eta. change (ulp1 binary64) with (bpow (-53)). simpl f_emin. assert (bpow (-1074) <= bpow (-53)) by (apply bpow_le; lia). generalize (bpow_pos (-1074)). lra. }
    assert (X1 : 0 < exp (-1) <= 1) by (apply exp_neg_unit; lra).
    set (q := kernel_err _ _ _ _ _) in *. set (K := exp (-1)) in *. set (u := ulp1 binary64) in *. clearbody q K u n. clear B1 E1 V S0.
    assert (P5 : forall z, 0 <= z <= / 100000 -> 1 <= (1 + z) ^ 5 <= 1 + 6 * z).
    { intros z [z0 z1]. split; [apply pow_R1_Rle; lra|]. assert (z * z <= z * / 100000) by (apply Rmult_le_compat_l; lra). assert (0 <= z * z) by nra.
      replace ((1 + z) ^ 5) with (1 + 5 * z + 10 * (z * z) + z * z * (10 * z + 5 * (z * z) + z * (z * z))) by ring.
      assert (z * (z * z) <= z * 1) by (apply Rmult_le_compat_l; lra). assert (z * z * (10 * z + 5 * (z * z) + z * (z * z)) <= z * z * 1) by (apply Rmult_le_compat_l; lra). lra. }
    assert (A1 := P5 u ltac:(lra)). assert (A2 := P5 (u + n) ltac:(lra)). replace (1 + (u + n)) with (1 + u + n) in A2 by ring.
    replace (2 * 1 * / (1 / 4) * 1) with 8 in H by field.
    set (c5 := (1 + u) ^ 5) in *. set (h5 := (1 + u + n) ^ 5) in *. clearbody c5 h5.
    set (dl := (c5 - 1) * 4 + (h5 - c5) * 8) in *. assert (DL : - (48 * u) <= dl <= 96 * u) by (unfold dl; lra). 
    assert (Q0 : q <= 40 * u) by exact KE. clearbody dl.
    assert (W1 : (4 + dl) * q <= (41 / 10) * (40 * u)).
    { apply Rle_trans with ((4 + dl) * (40 * u)); [apply Rmult_le_compat_l; lra|apply Rmult_le_compat_r; lra]. }
    assert (W2 : dl * K <= 96 * u) by (apply Rle_trans with (96 * u * K); [apply Rmult_le_compat_r; lra|rewrite <- (Rmult_1_r (96 * u)) at 2; apply Rmult_le_compat_l; lra]).
    assert (W3 : (1 + u) * ((4 + dl) * q + dl * K) <= (1 + u) * (260 * u)) by (apply Rmult_le_compat_l; lra).
    assert (W4 : u * (4 * K) <= u * 4) by (apply Rmult_le_compat_l; lra). assert (u * u <= u * / 1000000) by (apply Rmult_le_compat_l; lra). lra.
Qed.

(** The gradients of the radial basis surface. *)
Lemma grad_basis_near : forall F d pw pord X m al k r, valid F -> 0 <= d -> pow_close F d pw -> adds_all pord -> (1 <= m)%nat -> (forall j, (j < m)%nat -> fmt F (X.[r, j])) ->
  let c := 1 + ulp1 F in
  let deg := INR (nth k al 0%nat) in
  Rabs ((if Nat.eqb (nth k al 0%nat) 0 then 0 else rnd F (deg * power_prod_fl F pw pord X m (dec_at k al) r)) - dmono m al k (fun j => X.[r, j])) <=
    (c * gain F d m - 1) * (deg * msize m (fun j => X.[r, j]) (dec_at k al)) + c * (gain_under F d m - gain F d m) * (deg * mmajor m (fun j => X.[r, j]) (dec_at k al)) + eta F /\
  Rabs (dmono m al k (fun j => X.[r, j])) = deg * msize m (fun j => X.[r, j]) (dec_at k al).
Proof.
  intros F d pw pord X m al k r V D HP HO Hm FX c deg. assert (U := ulp1_pos F). assert (Pe := eta_pos F). assert (GH : 1 <= gain F d m <= gain_under F d m) by (apply (Gp_Hp F d m D)).
  assert (PP := power_prod_near F d pw pord X m (dec_at k al) r D HP HO Hm FX). set (g := gain F d m) in *. set (h := gain_under F d m) in *.
  assert (D0 : 0 <= deg) by apply pos_INR.
  set (a := power_prod_fl F pw pord X m (dec_at k al) r) in *. set (p := power_prod X m (dec_at k al) r) in *. set (MS := msize m (fun j => X.[r, j]) (dec_at k al)) in *. set (MM := mmajor m (fun j => X.[r, j]) (dec_at k al)) in *.
  assert (Ap : Rabs p = MS) by (unfold p, MS, power_prod, msize; rewrite prodf_abs; apply prodf_ext; intros; symmetry; apply RPow_abs).
  assert (Ed : dmono m al k (fun j => X.[r, j]) = deg * p) by (unfold dmono, deg; destruct (Nat.eqb_spec (nth k al 0%nat) 0) as [->|_]; [cbn [INR]; ring|reflexivity]).
  rewrite Ed. split; [|rewrite Rabs_mult, (Rabs_pos_eq deg), Ap by auto; reflexivity].
  destruct (Nat.eqb_spec (nth k al 0%nat) 0) as [Z|Z].
  - assert (Ez : deg = 0) by (unfold deg; now rewrite Z). rewrite Ez, !Rmult_0_l, Rminus_0_r, Rabs_R0. lra.
  - assert (R := rnd_err F (deg * a)).
    assert (Q1 : Rabs (deg * a - deg * p) <= deg * ((g - 1) * MS + (h - g) * MM)).
    { replace (deg * a - deg * p) with (deg * (a - p)) by ring. rewrite Rabs_mult, (Rabs_pos_eq deg) by auto. apply Rmult_le_compat_l; auto. }
    assert (Q2 : Rabs (deg * a) <= deg * MS + deg * ((g - 1) * MS + (h - g) * MM)).
    { replace (deg * a) with (deg * p + (deg * a - deg * p)) by ring. apply Rle_trans with (1 := Rabs_triang _ _). rewrite Rabs_mult, (Rabs_pos_eq deg), Ap by auto. lra. }
    assert (Q3 : ulp1 F * Rabs (deg * a) <= ulp1 F * (deg * MS + deg * ((g - 1) * MS + (h - g) * MM))) by (apply Rmult_le_compat_l; lra).
    replace (rnd F (deg * a) - deg * p) with ((rnd F (deg * a) - deg * a) + (deg * a - deg * p)) by ring. apply Rle_trans with (1 := Rabs_triang _ _).
    unfold c. lra.
Qed.

(** the bound of [C117_kernel_gradient] with sigma = 1 *)
Definition slope (x y l : nat -> R) (k : nat) : R := 2 * / l k * (x k - y k).
Definition slope_err (F : format) (d : R) (e m : nat) (x y l : nat -> R) (k : nat) : R :=
  let c := 1 + ulp1 F in
  let K := exp (- sumf m (fun j => (x j - y j) * (x j - y j) * / l j)) in
  let q := kernel_err F d e m (spread m x y l) in
  let b := slope x y l k in
  let delta := (c ^ 5 - 1) * Rabs b + ((c + eta F) ^ 5 - c ^ 5) * (2 * Rmax 1 (/ l k) * Rmax 1 (Rabs (x k - y k))) in
  c * ((Rabs b + delta) * q + delta * K) + ulp1 F * (Rabs b * K) + eta F.

Theorem C117_gradient : forall F d dx ex pw pord eord kord dord e ek ed s X M m T, valid F -> 0 <= d -> pow_close F d pw -> 0 <= dx -> exp_close F dx ex -> adds_all pord ->
  (forall r, dots_all (eord r)) -> (forall r, dots_all (kord r)) -> (forall r, dots_all (dord r)) -> shape X = [M; m] -> (1 <= m)%nat -> rbf_shape s T m ->
  (forall r j, (r < M)%nat -> (j < m)%nat -> fmt F (X.[r, j])) -> (forall a j, (a < T)%nat -> (j < m)%nat -> fmt F ((rb_X s).[a, j])) -> (forall k, (k < m)%nat -> 0 < (rb_ell s).[k, 0%nat]) ->
  (forall a, (a < T)%nat -> (ddepth (eord a m) <= e)%nat) -> (forall r, (r < M)%nat -> (ddepth (kord r T) <= ek /\ ddepth (dord r (binom (rb_N s + m) m)) <= ed)%nat) -> (1 + ulp1 F) ^ (e + 4) < 2 ->
  exists II f df df', index_set (rb_N s) m = Ok II /\ rbf_predict s X true = Ok (f, Some df) /\ rbf_gradient_fl F ex eord pw pord kord dord s X = Ok df' /\ shape df = [M; m] /\ shape df' = [M; m] /\
    forall r k, (r < M)%nat -> (k < m)%nat -> fmt F (df'.[r, k]) /\
      let c := 1 + ulp1 F in
      let x j := X.[r, j] in
      let l j := (rb_ell s).[j, 0%nat] in
      let y a j := (rb_X s).[a, j] in
      let v a := Rabs ((rb_rw s).[a, 0%nat]) in
      let w i := Rabs ((rb_pw s).[i, 0%nat]) in
      let n := List.length II in
      let deg i := INR (nth k (nth i II []) 0%nat) in
      let E1 := (c ^ ek - 1) * sumf T (fun a => v a * (Rabs (slope (y a) x l k) * exp (- sumf m (fun j => (y a j - x j) * (y a j - x j) * / l j)))) +
                c ^ ek * (sumf T (fun a => v a * slope_err F dx e m (y a) x l k) + INR T * eta F) in
      let E2 := (c ^ (ed + 1) * gain F d m - 1) * sumf n (fun i => w i * (deg i * msize m x (dec_at k (nth i II [])))) +
                c ^ ed * (c * (gain_under F d m - gain F d m) * sumf n (fun i => w i * (deg i * mmajor m x (dec_at k (nth i II [])))) + (sumf n w + INR n) * eta F) in
      Rabs (df'.[r, k] - df.[r, k]) <= c * (E1 + E2) + ulp1 F * Rabs (df.[r, k]).
Proof.
  intros F d dx ex pw pord eord kord dord e ek ed s X M m T V D HP DX HE HO HDe HDk HDd HX Hm HS FX FY HL He1 He HG.
  destruct (rbf_predict_ok s X M m T true HX Hm HS) as (II & f & EI & Sf & Vf & df & Ef & Sdf & Vdf). destruct HS as (S1 & S2 & S3 & S4).
  assert (LN := index_set_length (rb_N s) m Hm II EI). set (n := List.length II) in *. rewrite <- LN in S4, He.
  destruct (C117_kernel_gradient F dx ex eord e (rb_X s) X 1 (rb_ell s) T M m V DX HE HDe S1 HX S2 FY FX HL He1 HG) as (G & G' & EG & EG' & SG & SG' & QG).
  set (B := mk3 M n m (fun r i k => let ind := nth i II [] in let indk := nth k ind 0%nat in if Nat.eqb indk 0 then 0 else rnd F (INR indk * power_prod_fl F pw pord X m (dec_at k ind) r))).
  assert (EB : grad_polynomial_bases_fl F pw pord X (rb_N s) = Ok B) by (unfold grad_polynomial_bases_fl, shape2; rewrite HX; cbn [rbind]; rewrite EI; reflexivity).
  set (df' := mk2 M m (fun r k => rnd F (row_dot_fl F kord r T (fun a => G'.[a, r, k]) (fun a => (rb_rw s).[a, 0%nat]) + row_dot_fl F dord r n (fun i => B.[r, i, k]) (fun i => (rb_pw s).[i, 0%nat])))).
  assert (NG : nrows G' = T) by (unfold nrows; now rewrite SG').
  exists II, f, df, df'. split; [exact EI|]. split; [exact Ef|]. split.
  { unfold rbf_gradient_fl. rewrite (process_inputs_eq _ X M m HX). cbn [rbind]. rewrite EG'. cbn [rbind]. rewrite EB. cbn [rbind].
    rewrite (nrows_shape2 _ _ _ _ S3), (ncols_shape2 _ _ _ _ S3), (nrows_shape2 _ _ _ _ S4), (ncols_shape2 _ _ _ _ S4), NG. change (ncols B) with n. rewrite !Nat.eqb_refl. reflexivity. }
  split; [exact Sdf|]. split; [reflexivity|]. intros r k Hr Hk. destruct (He r Hr) as (He2 & He3). split; [unfold df'; rewrite at_mk2; apply rnd_fmt; auto|].
  intros c x l y v w n0 deg E1 E2. subst n0. assert (U := ulp1_pos F). unfold df'. rewrite at_mk2.
  set (D1 := row_dot_fl F kord r T _ _). set (D2 := row_dot_fl F dord r n _ _).
  set (k0 := fun a => slope (y a) x l k * exp (- sumf m (fun j => (y a j - x j) * (y a j - x j) * / l j))).
  assert (KE : forall a, (a < T)%nat -> Rabs (G'.[a, r, k] - k0 a) <= slope_err F dx e m (y a) x l k).
  { intros a Ha. destruct (QG a r k Ha Hr Hk) as (_ & Q1 & Q2). cbv zeta in Q1, Q2. rewrite Q1 in Q2. rewrite !Rmult_1_l, Rabs_R1, (Rmax_left 1 1), Rmult_1_r in Q2 by lra. exact Q2. }
  assert (R1 := row_dot_err F kord r T (fun a => G'.[a, r, k]) k0 (fun i => (rb_rw s).[i, 0%nat]) (fun a => slope_err F dx e m (y a) x l k) ek V (HDk r) He2 KE).
  assert (PP : forall i, (i < n)%nat -> Rabs (B.[r, i, k] - dmono m (nth i II []) k x) <= (c * gain F d m - 1) * (deg i * msize m x (dec_at k (nth i II []))) + c * (gain_under F d m - gain F d m) * (deg i * mmajor m x (dec_at k (nth i II []))) + eta F).
  { intros i Hi. unfold B. rewrite at_mk3. apply (grad_basis_near F d pw pord X m (nth i II []) k r V D HP HO Hm). auto. }
  assert (R2 := row_dot_err F dord r n (fun i => B.[r, i, k]) (fun i => dmono m (nth i II []) k x) (fun i => (rb_pw s).[i, 0%nat]) _ ed V (HDd r) He3 PP).
  cbv beta zeta in R1, R2. fold c D1 in R1. fold c D2 in R2.
  assert (EF : df.[r, k] = sumf T (fun i => k0 i * (rb_rw s).[i, 0%nat]) + sumf n (fun i => dmono m (nth i II []) k x * (rb_pw s).[i, 0%nat])).
  { rewrite (Vdf r k Hk). unfold rbf_deval, poly_deval. f_equal. apply sumf_ext. intros a Ha. f_equal.
    destruct (QG a r k Ha Hr Hk) as (_ & Q1 & _). cbv zeta in Q1. destruct (grad_exponential_squared_ok (rb_X s) X 1 (rb_ell s) T M m S1 HX S2) as (G2 & EG2 & _ & VG2). rewrite EG in EG2. injection EG2 as <-.
    rewrite (VG2 a r k Hk), !Rmult_1_l in Q1. exact Q1. }
  set (f1 := sumf T (fun i => k0 i * (rb_rw s).[i, 0%nat])) in *. set (f2 := sumf n (fun i => dmono m (nth i II []) k x * (rb_pw s).[i, 0%nat])) in *.
  assert (B1 : Rabs (D1 - f1) <= E1).
  { eapply Rle_trans; [exact R1|]. right. unfold E1. f_equal; [f_equal|f_equal; f_equal]; apply sumf_ext; intros a Ha; [|unfold v; ring]. unfold k0. rewrite Rabs_mult, (Rabs_pos_eq (exp _)) by (left; apply exp_pos). unfold v. ring. }
  assert (B2 : Rabs (D2 - f2) <= E2).
  { eapply Rle_trans; [exact R2|]. set (g := gain F d m). set (h := gain_under F d m).
    rewrite (sumf_ext n (fun i => Rabs (dmono m (nth i II []) k x) * Rabs ((rb_pw s).[i, 0%nat])) (fun i => w i * (deg i * msize m x (dec_at k (nth i II []))))).
    2: { intros i _. destruct (grad_basis_near F d pw pord X m (nth i II []) k r V D HP HO Hm) as [_ Q]; [auto|]. fold x in Q. rewrite Q. unfold w, deg. ring. }
    rewrite (sumf_ext n (fun i => ((c * g - 1) * (deg i * msize m x (dec_at k (nth i II []))) + c * (h - g) * (deg i * mmajor m x (dec_at k (nth i II []))) + eta F) * Rabs ((rb_pw s).[i, 0%nat]))
      (fun i => (c * g - 1) * (w i * (deg i * msize m x (dec_at k (nth i II [])))) + c * (h - g) * (w i * (deg i * mmajor m x (dec_at k (nth i II [])))) + eta F * w i)) by (intros; unfold w; ring).
    rewrite !sumf_plus, !sumf_scal_l. right. unfold E2. fold g h n. rewrite pow_add, pow_1. ring. }
  assert (FD1 : fmt F D1) by (apply row_dot_fmt; auto). assert (FD2 : fmt F D2) by (apply row_dot_fmt; auto).
  assert (RE := rnd_err_add F D1 D2 FD1 FD2). rewrite EF.
  assert (BS : Rabs (D1 + D2 - (f1 + f2)) <= E1 + E2) by (replace (D1 + D2 - (f1 + f2)) with ((D1 - f1) + (D2 - f2)) by ring; apply Rle_trans with (1 := Rabs_triang _ _); lra).
  assert (BD : Rabs (D1 + D2) <= Rabs (f1 + f2) + (E1 + E2)) by (replace (D1 + D2) with ((f1 + f2) + (D1 + D2 - (f1 + f2))) by ring; apply Rle_trans with (1 := Rabs_triang _ _); lra).
  replace (rnd F (D1 + D2) - (f1 + f2)) with ((rnd F (D1 + D2) - (D1 + D2)) + (D1 + D2 - (f1 + f2))) by ring. apply Rle_trans with (1 := Rabs_triang _ _).
  assert (X1 : ulp1 F * Rabs (D1 + D2) <= ulp1 F * (Rabs (f1 + f2) + (E1 + E2))) by (apply Rmult_le_compat_l; lra). unfold c. lra.
Qed.
Print Assumptions C117_gradient.

(** the surface of [C117_case] again: its slope at 0 *)
Example C117_gradient_case : exists f df df', rbf_predict s117 (mat_of [[0]]) true = Ok (f, Some df) /\
  rbf_gradient_fl binary64 (fun x => rnd binary64 (exp x)) (fun _ => dcomb) (fun x k => rnd binary64 (x ^ k)) comb (fun _ => dcomb) (fun _ => dcomb) s117 (mat_of [[0]]) = Ok df' /\
  df.[0%nat, 0%nat] = 12 * exp (-1) - 16 * exp (-4) + 1 / 4 /\ Rabs (df'.[0%nat, 0%nat] - df.[0%nat, 0%nat]) <= 3000 * bpow (-53).
Proof.
  assert (V := valid64). assert (KE := kernel_err_117).
  assert (U0 : 0 < ulp1 binary64) by apply ulp1_pos. assert (U1 : ulp1 binary64 <= / 1000000).
  { change (ulp1 binary64) with (bpow (-53)). apply Rle_trans with (bpow (-20)); [apply bpow_le; lia|]. change (-20)%Z with (- (20))%Z. unfold bpow. simpl. lra. }
  assert (B1 : forall z, bpow (z + 1) = 2 * bpow z) by (intros; apply bpow_S). assert (E1 : bpow (-1) = / 2) by (assert (Q := bpow_0); change 0%Z with (-1 + 1)%Z in Q; rewrite !B1 in Q; lra).
  destruct (C117_gradient binary64 (ulp1 binary64) (ulp1 binary64) (fun x => rnd binary64 (exp x)) (fun x k => rnd binary64 (x ^ k)) comb (fun _ => dcomb) (fun _ => dcomb) (fun _ => dcomb) 1 2 2 s117 (mat_of [[0]]) 1 1 2 V ltac:(lra) (rnd_pow_close _ V) ltac:(lra) (rnd_exp_close _ V) comb_all) as (II & f & df & df' & Q1 & Q2 & Q3 & _ & _ & Q).
  - intros _; exact dcomb_all.
  - intros _; exact dcomb_all.
  - intros _; exact dcomb_all.
  - reflexivity.
  - lia.
  - repeat split.
  - intros r j Hr Hj. replace r with 0%nat by lia. replace j with 0%nat by lia. cbn. apply fmt_0; auto.
  - intros r j Hr Hj. replace j with 0%nat by lia. destruct r as [|[|r]]; [| |lia]; cbn.
    + apply (fmt_by _ 1 (-1)); [rewrite E1; lra|reflexivity|reflexivity].
    + apply fmt_1; auto.
  - intros k Hk. replace k with 0%nat by lia. cbn. lra.
  - intros a Ha. cbn. lia.
  - intros r Hr. cbn. lia.
  - replace ((1 + ulp1 binary64) ^ (1 + 4)) with ((1 + ulp1 binary64) ^ 2 * (1 + ulp1 binary64) ^ 2 * (1 + ulp1 binary64)) by (change (1 + 4)%nat with 5%nat; ring).
    assert (A1 : 0 <= (1 + ulp1 binary64) ^ 2 <= 11 / 10) by (simpl pow; nra). assert (A2 : 0 <= (1 + ulp1 binary64) ^ 2 * (1 + ulp1 binary64) ^ 2 <= (11 / 10) * (11 / 10)) by (split; [apply Rmult_le_pos; lra|apply Rmult_le_compat; lra]).
    apply Rle_lt_trans with ((11 / 10) * (11 / 10) * (11 / 10)); [apply Rmult_le_compat; lra|lra].
  - assert (EI : II = [[0]; [1]]%nat) by (injection Q1 as <-; reflexivity). subst II. exists f, df, df'. split; [exact Q2|]. split; [exact Q3|].
    assert (EF : df.[0%nat, 0%nat] = 12 * exp (-1) - 16 * exp (-4) + 1 / 4).
    { destruct (rbf_predict_ok s117 (mat_of [[0]]) 1 1 2 true eq_refl ltac:(lia)) as (L & f2 & EL & _ & _ & d2 & Ef & _ & Vd). { repeat split. }
      assert (L = [[0]; [1]]%nat) by (injection EL as <-; reflexivity). subst L. rewrite Q2 in Ef. injection Ef as _ <-. rewrite (Vd 0%nat 0%nat ltac:(lia)).
      unfold rbf_deval, poly_deval, dgauss, gauss, dmono, mono. cbn [sumf]. cbn.
      match goal with |- context [exp ?a] => replace a with (-1) by field end. match goal with |- context [exp (0 + (1 - 0) * ?z)] => replace (0 + (1 - 0) * z) with (-4) by field | |- context [exp (0 + ?z)] => replace (0 + z) with (-4) by field end. field. }
    split; [exact EF|]. destruct (Q 0%nat 0%nat ltac:(lia) ltac:(lia)) as [_ H]. clear Q Q1 Q2 Q3. cbv beta zeta in H. rewrite EF in *. clear EF.
    assert (X1 : 0 < exp (-1) <= 1) by (apply exp_neg_unit; lra). assert (X4 : 0 < exp (-4) <= 1) by (apply exp_neg_unit; lra).
    set (n := eta binary64) in *. assert (N0 : 0 < n) by apply eta_pos. assert (N1 : n <= ulp1 binary64).
    { unfold n, eta. change (ulp1 binary64) with (bpow (-53)). simpl f_emin. assert (bpow (-1074) <= bpow (-53)) by (apply bpow_le; lia). generalize (bpow_pos (-1074)). lra. }
    assert (P5 : forall z, 0 <= z <= / 100000 -> 1 <= (1 + z) ^ 5 <= 1 + 6 * z).
    { intros z [z0 z1]. split; [apply pow_R1_Rle; lra|]. assert (z * z <= z * / 100000) by (apply Rmult_le_compat_l; lra). assert (0 <= z * z) by nra.
      replace ((1 + z) ^ 5) with (1 + 5 * z + 10 * (z * z) + z * z * (10 * z + 5 * (z * z) + z * (z * z))) by ring.
      assert (z * (z * z) <= z * 1) by (apply Rmult_le_compat_l; lra). assert (z * z * (10 * z + 5 * (z * z) + z * (z * z)) <= z * z * 1) by (apply Rmult_le_compat_l; lra). lra. }
    assert (A1 := P5 (ulp1 binary64) ltac:(lra)). assert (A2 := P5 (ulp1 binary64 + n) ltac:(lra)). replace (1 + (ulp1 binary64 + n)) with (1 + ulp1 binary64 + n) in A2 by ring. clear P5.
    (* both centres: slope at most 8, majorant 8 *)
    assert (SE : forall (x y l : nat -> R) b, slope x y l 0 = b -> 4 <= b <= 8 -> spread 1 x y l = 4 -> Rmax 1 (/ l 0%nat) = 4 -> Rmax 1 (Rabs (x 0%nat - y 0%nat)) = 1 -> 0 < exp (- sumf 1 (fun j => (x j - y j) * (x j - y j) * / l j)) <= 1 ->
       slope_err binary64 (ulp1 binary64) 1 1 x y l 0 <= 480 * ulp1 binary64).
    { intros x y l b Hb B8 Hs Hl Hx HK. unfold slope_err. cbv zeta. rewrite Hb, Hs, Hl, Hx, (Rabs_pos_eq b) by lra. fold n.
      set (K := exp (- sumf 1 _)) in *. set (q := kernel_err _ _ _ _ _) in *. set (u := ulp1 binary64) in *. clearbody q K u n. clear - U0 U1 KE N0 N1 A1 A2 B8 HK.
      set (c5 := (1 + u) ^ 5) in *. set (h5 := (1 + u + n) ^ 5) in *. clearbody c5 h5.
      assert (C8 : 0 <= (c5 - 1) * b <= 6 * u * 8) by (split; [apply Rmult_le_pos; lra|apply Rmult_le_compat; lra]).
      replace (2 * 4 * 1) with 8 by ring.
      set (dl := (c5 - 1) * b + (h5 - c5) * 8) in *. assert (DL : - (48 * u) <= dl <= 144 * u) by (unfold dl; lra). clearbody dl.
      assert (W1 : (b + dl) * q <= (81 / 10) * (40 * u)) by (apply Rle_trans with ((b + dl) * (40 * u)); [apply Rmult_le_compat_l; lra|apply Rmult_le_compat_r; lra]).
      assert (W2 : dl * K <= 144 * u) by (apply Rle_trans with (144 * u * K); [apply Rmult_le_compat_r; lra|rewrite <- (Rmult_1_r (144 * u)) at 2; apply Rmult_le_compat_l; lra]).
      assert (W3 : (1 + u) * ((b + dl) * q + dl * K) <= (1 + u) * (468 * u)) by (apply Rmult_le_compat_l; lra).
      assert (W4 : u * (b * K) <= u * 8) by (apply Rmult_le_compat_l; [lra|]; rewrite <- (Rmult_1_r 8); apply Rmult_le_compat; lra). assert (u * u <= u * / 1000000) by (apply Rmult_le_compat_l; lra). lra. }
    assert (Y0 : slope_err binary64 (ulp1 binary64) 1 1 (fun j => (rb_X s117).[0%nat, j]) (fun j => (mat_of [[0]]).[0%nat, j]) (fun j => (rb_ell s117).[j, 0%nat]) 0 <= 480 * ulp1 binary64).
    { apply (SE _ _ _ 4); [unfold slope; cbn; field|lra|unfold spread; cbn [sumf]; cbn|cbn; rewrite Rmax_right by lra; field|cbn|].
      - replace (1 / 2 - 0) with (1 / 2) by lra. rewrite Rabs_pos_eq, (Rmax_left 1 (1 / 2)), (Rmax_right 1 (/ (1 / 4))) by lra. field.
      - replace (1 / 2 - 0) with (1 / 2) by lra. rewrite Rabs_pos_eq, (Rmax_left 1 (1 / 2)) by lra. reflexivity.
      - cbn [sumf]. cbn. match goal with |- context [exp ?z] => replace z with (-1) by field end. lra. }
    assert (Y1 : slope_err binary64 (ulp1 binary64) 1 1 (fun j => (rb_X s117).[1%nat, j]) (fun j => (mat_of [[0]]).[0%nat, j]) (fun j => (rb_ell s117).[j, 0%nat]) 0 <= 480 * ulp1 binary64).
    { apply (SE _ _ _ 8); [unfold slope; cbn; field|lra|unfold spread; cbn [sumf]; cbn|cbn; rewrite Rmax_right by lra; field|cbn|].
      - replace (1 - 0) with 1 by lra. rewrite Rabs_pos_eq, (Rmax_left 1 1), (Rmax_right 1 (/ (1 / 4))) by lra. field.
      - replace (1 - 0) with 1 by lra. rewrite Rabs_pos_eq, (Rmax_left 1 1) by lra. reflexivity.
      - cbn [sumf]. cbn. match goal with |- context [exp ?z] => replace z with (-4) by field end. lra. }
    clear SE A1 A2 KE B1 E1. set (y0 := slope_err _ _ _ _ (fun j => (rb_X s117).[0%nat, j]) _ _ _) in *. set (y1 := slope_err _ _ _ _ (fun j => (rb_X s117).[1%nat, j]) _ _ _) in *.
    match type of H with context [sumf 2 ?h] => replace (sumf 2 h) with (12 * exp (-1) + 16 * exp (-4)) in H end.
    2: { cbn [sumf]. unfold slope. cbn. rewrite (Rabs_pos_eq 3), (Rabs_left (-2)) by lra. rewrite !(Rabs_pos_eq (2 * _ * _)) by lra.
         match goal with |- _ = 0 + 3 * (_ * exp ?a) + _ * (_ * exp ?b) => replace a with (-1) by field; replace b with (-4) by field end. field. }
    match type of H with context [sumf 2 ?h] => replace (sumf 2 h) with (3 * y0 + 2 * y1) in H end.
    2: { cbn [sumf]. fold y0 y1. change ((rb_rw s117).[0%nat, 0%nat]) with 3. change ((rb_rw s117).[1%nat, 0%nat]) with (-2). rewrite (Rabs_pos_eq 3), (Rabs_left (-2)) by lra. ring. }
    match type of H with context [sumf ?q ?h] => replace (sumf q h) with (1 / 4) in H end.
    2: { unfold msize. cbn [List.length sumf prodf]. cbn. rewrite (Rabs_pos_eq (1 / 4)) by lra. ring. }
    match type of H with context [sumf ?q ?h] => replace (sumf q h) with (1 / 4) in H end.
    2: { unfold mmajor. cbn [List.length sumf prodf]. cbn. rewrite (Rabs_pos_eq (1 / 4)), (Rmax_left 1 1) by lra. ring. }
    match type of H with context [sumf ?q ?h] => replace (sumf q h) with (3 / 4) in H end.
    2: { cbn [List.length sumf]. cbn. rewrite (Rabs_pos_eq (1 / 4)), (Rabs_pos_eq (1 / 2)) by lra. field. }
    change (INR (List.length _)) with (INR 2) in H. replace (INR 2) with 2 in H by (simpl; ring).
    unfold gain, gain_under in H. fold n in H. change (1 - 1)%nat with 0%nat in H. change (2 + 1)%nat with 3%nat in H. rewrite !pow_O, !pow_1, !Rmult_1_l in H.
    change (bpow (-53)) with (ulp1 binary64). clear V. clearbody y0 y1 n. set (u := ulp1 binary64) in *. clearbody u.
    assert (UU : 0 <= u * u <= u * / 1000000) by (split; [nra|apply Rmult_le_compat_l; lra]). 
    assert (C2 : 1 <= (1 + u) ^ 2 <= 1 + 3 * u) by (simpl pow; lra). replace ((1 + u) ^ 3) with ((1 + u) ^ 2 * (1 + u)) in H by ring. set (c2 := (1 + u) ^ 2) in *. clearbody c2.
    set (a := exp (-1)) in *. set (b := exp (-4)) in *. clearbody a b.
    assert (W1 : (c2 - 1) * (12 * a + 16 * b) <= 3 * u * 28) by (apply Rle_trans with (3 * u * (12 * a + 16 * b)); [apply Rmult_le_compat_r; lra|apply Rmult_le_compat_l; lra]).
    assert (W2 : c2 * (3 * y0 + 2 * y1 + 2 * n) <= c2 * (2402 * u)) by (apply Rmult_le_compat_l; lra).
    assert (W3 : c2 * (2402 * u) <= 101 / 100 * (2402 * u)) by (apply Rmult_le_compat_r; lra).
    assert (W4 : 1 <= c2 * (1 + u) <= 1 + 5 * u) by (split; [apply ge1_mult; lra|apply Rle_trans with ((1 + 3 * u) * (1 + u)); [apply Rmult_le_compat_r; lra|lra]]).
    assert (W6 : c2 * (1 + u) * (1 + u) <= 1 + 7 * u) by (apply Rle_trans with ((1 + 5 * u) * (1 + u)); [apply Rmult_le_compat_r; lra|lra]).
    assert (W7 : 0 <= (1 + u) * (1 + u + n - (1 + u)) * (1 / 4) <= n) by (replace ((1 + u) * (1 + u + n - (1 + u)) * (1 / 4)) with ((1 + u) * (1 / 4) * n) by ring; split; [apply Rmult_le_pos; lra|rewrite <- (Rmult_1_l n) at 2; apply Rmult_le_compat_r; lra]).
    set (w7 := (1 + u) * (1 + u + n - (1 + u)) * (1 / 4)) in *.
    assert (W5 : c2 * (w7 + (3 / 4 + 2) * n) <= 101 / 100 * (4 * u)) by (apply Rmult_le_compat; lra).
    set (E1 := (c2 - 1) * (12 * a + 16 * b) + c2 * (3 * y0 + 2 * y1 + 2 * n)) in *. set (E2 := (c2 * (1 + u) * (1 + u) - 1) * (1 / 4) + c2 * (w7 + (3 / 4 + 2) * n)) in *.
    assert (Z1 : E1 <= 2520 * u) by (unfold E1; lra). assert (Z2 : E2 <= 7 * u) by (unfold E2; lra).
    assert (Z3 : (1 + u) * (E1 + E2) <= (1 + u) * (2530 * u)) by (apply Rmult_le_compat_l; lra).
    assert (Z4 : Rabs (12 * a - 16 * b + 1 / 4) <= 20) by (apply Rabs_le; lra). assert (Z5 : u * Rabs (12 * a - 16 * b + 1 / 4) <= u * 20) by (apply Rmult_le_compat_l; lra). lra.
Qed.
