(** Final statements about the Gaussian kernel and the radial basis surface in
    floating point: C117. *)
From Coq Require Import Reals Lra Lia List Arith ZArith Bool Permutation.
From Verif Require Import Prelude Py NumArr LinAlg Lsq M_Misc M_RespSurf M_Float M_FloatInt M_FloatPoly M_FloatRbf P_Misc P_Poly P_Rbf P_Float P_FloatCode P_FloatInt P_FloatPoly P_IndexSet Toy Properties_Float Properties_FloatInt Properties_FloatPoly.
Import ListNotations.
Open Scope R_scope.

(** ** C117 *)
(** np.exp below 0: a float with relative error at most d, or an underflow *)
Definition exp_close (F : format) (d : R) (ex : R -> R) : Prop :=
  forall x, fmt F x -> x <= 0 -> fmt F (ex x) /\ Rabs (ex x - exp x) <= d * exp x + eta F.

Lemma row_dot_err2 : forall F dord r q a w p E e, valid F -> dots_all (dord r) -> (ddepth (dord r q) <= e)%nat -> (forall i, (i < q)%nat -> Rabs (a i * w i - p i) <= E i) ->
  let c := 1 + ulp1 F in
  Rabs (row_dot_fl F dord r q a w - sumf q p) <= (c ^ e - 1) * sumf q (fun i => Rabs (p i)) + c ^ e * (sumf q E + INR q * eta F).
Proof.
  intros F dord r q a w p E e V HD He HE c. assert (U := ulp1_pos F). assert (P := eta_pos F).
  destruct (Nat.eq_dec q 0) as [->|Hq]. { cbn [row_dot_fl sumf INR]. rewrite Rminus_0_r, Rabs_R0. right; ring. }
  assert (PL := HD q ltac:(lia)). replace (row_dot_fl F dord r q a w) with (dfl F (dord r q) a w) by (destruct q; [lia|reflexivity]).
  assert (DE := dfl_err F V (dord r q) a w). cbv zeta in DE. rewrite !(sumr_perm_seq _ _ _ PL), (Permutation_length PL), seq_length in DE.
  fold c in DE. assert (G : c ^ ddepth (dord r q) <= c ^ e) by (apply Rle_pow; auto; unfold c; lra). assert (G0 : 1 <= c ^ ddepth (dord r q)) by (apply pow_R1_Rle; unfold c; lra).
  set (g0 := c ^ ddepth (dord r q)) in *. set (g := c ^ e) in *.
  set (S1 := sumf q (fun i => a i * w i)) in *. set (A1 := sumf q (fun i => Rabs (a i * w i))) in *. set (A2 := sumf q (fun i => Rabs (p i))). set (A3 := sumf q E).
  assert (X1 : Rabs (S1 - sumf q p) <= A3).
  { unfold S1. rewrite <- sumf_minus. eapply Rle_trans; [apply sumf_abs|]. apply sumf_le. intros i Hi. now apply HE. }
  assert (X2 : 0 <= A1 <= A2 + A3).
  { split; [apply sumf_nonneg; intros; apply Rabs_pos|]. unfold A1, A2, A3. rewrite <- sumf_plus. apply sumf_le. intros i Hi.
    replace (a i * w i) with (p i + (a i * w i - p i)) by ring. apply Rle_trans with (1 := Rabs_triang _ _). generalize (HE i Hi). lra. }
  assert (Q0 : 0 <= INR q) by apply pos_INR.
  replace (dfl F (dord r q) a w - sumf q p) with ((dfl F (dord r q) a w - S1) + (S1 - sumf q p)) by ring. apply Rle_trans with (1 := Rabs_triang _ _).
  assert (Y1 : (g0 - 1) * A1 <= (g - 1) * (A2 + A3)) by (apply Rmult_le_compat; lra).
  assert (Y2 : g0 * INR q * eta F <= g * INR q * eta F) by (apply Rmult_le_compat_r; [lra|]; apply Rmult_le_compat_r; auto).
  lra.
Qed.

Lemma dfl_opp : forall F t x w, dfl F t x (fun i => - w i) = - dfl F t x w.
Proof.
  intros F. induction t as [i|t IH i|l IHl r IHr]; intros x w; cbn [dfl]; rewrite <- rnd_opp; f_equal; rewrite ?IH, ?IHl, ?IHr; ring.
Qed.

(** what underflow can add to the exponent of m terms, added in depth e; T is
    the sum of max(1, |x - y|)^2 max(1, 1/ell) *)
Definition under (F : format) (e m : nat) (T : R) : R :=
  let c := 1 + ulp1 F in c ^ e * (((c + eta F) ^ 2 - c ^ 2) * c ^ 2 * T + INR m * eta F).
Definition spread (m : nat) (x y ell : nat -> R) : R := sumf m (fun k => (Rmax 1 (Rabs (x k - y k))) ^ 2 * Rmax 1 (/ ell k)).

Lemma exponent_err : forall F eord a m x y ell e, valid F -> dots_all (eord a) -> (ddepth (eord a m) <= e)%nat ->
  (forall k, (k < m)%nat -> fmt F (x k) /\ fmt F (y k) /\ 0 < ell k) ->
  let c := 1 + ulp1 F in
  let A := row_dot_fl F eord a m (fun k => rnd F (rnd F (x k - y k) * rnd F (x k - y k))) (fun k => rnd F (-1 / ell k)) in
  let t := sumf m (fun k => (x k - y k) * (x k - y k) * / ell k) in
  0 <= t /\ A <= 0 /\ Rabs (A - - t) <= (c ^ (e + 4) - 1) * t + under F e m (spread m x y ell).
Proof.
  intros F eord a m x y ell e V HD He H c A t. assert (U := ulp1_pos F). assert (P := eta_pos F). set (n := eta F) in *.
  assert (T0 : forall k, (k < m)%nat -> 0 <= (x k - y k) * (x k - y k) * / ell k).
  { intros k Hk. apply Rmult_le_pos; [apply (Rle_0_sqr (x k - y k))|]. left. apply Rinv_0_lt_compat. apply H; auto. }
  split; [apply sumf_nonneg; auto|]. split.
  - unfold A. destruct (Nat.eq_dec m 0) as [->|Hm]; [cbn [row_dot_fl]; lra|]. set (b := fun k => rnd F (rnd F (x k - y k) * rnd F (x k - y k))).
    assert (E : forall k, rnd F (-1 / ell k) = - rnd F (/ ell k)) by (intros k; rewrite <- rnd_opp; f_equal; unfold Rdiv; ring).
    unfold row_dot_fl. destruct m as [|m']; [lia|]. set (m := S m') in *.
    assert (PL := HD m ltac:(lia)).
    assert (EQ : dfl F (eord a m) b (fun k => rnd F (-1 / ell k)) = - dfl F (eord a m) b (fun k => rnd F (/ ell k))).
    { rewrite <- dfl_opp. f_equal. apply FunctionalExtensionality.functional_extensionality. exact E. }
    rewrite EQ. assert (N := dfl_nonneg F V (eord a m) b (fun k => rnd F (/ ell k))). cbv beta in N.
    apply Ropp_le_cancel. rewrite Ropp_0, Ropp_involutive. apply N. intros i Hi. apply (Permutation_in i PL) in Hi. apply in_seq in Hi.
    apply Rmult_le_pos; apply rnd_nonneg; auto; [apply (Rle_0_sqr (rnd F (x i - y i)))|]. left. apply Rinv_0_lt_compat. apply H. lia.
  - set (p := fun k => (x k - y k) * (x k - y k) * (-1 / ell k)).
    set (g := c * (c * c) * (c * 1)). set (h := (c + n) * (c * c) * ((c + n) * 1)). set (AA := fun k => (Rmax 1 (Rabs (x k - y k))) ^ 2 * Rmax 1 (/ ell k)).
    assert (EP : forall k, (k < m)%nat -> Rabs (p k) = (x k - y k) * (x k - y k) * / ell k).
    { intros k Hk. unfold p. replace ((x k - y k) * (x k - y k) * (-1 / ell k)) with (- ((x k - y k) * (x k - y k) * / ell k)) by (field; generalize (proj2 (proj2 (H k Hk))); lra). rewrite Rabs_Ropp. apply Rabs_pos_eq. auto. }
    assert (N : forall k, (k < m)%nat -> Rabs (rnd F (rnd F (x k - y k) * rnd F (x k - y k)) * rnd F (-1 / ell k) - p k) <= (g - 1) * Rabs (p k) + (h - g) * AA k).
    { intros k Hk. destruct (H k Hk) as (Fx & Fy & L). set (A1 := Rmax 1 (Rabs (x k - y k))). assert (M1 : 1 <= A1) by apply Rmax_l. assert (M2 : Rabs (x k - y k) <= A1) by apply Rmax_r.
      set (A2 := Rmax 1 (/ ell k)). assert (M3 : 1 <= A2) by apply Rmax_l. assert (M4 : Rabs (-1 / ell k) <= A2).
      { replace (-1 / ell k) with (- (/ ell k)) by (field; lra). rewrite Rabs_Ropp, Rabs_pos_eq by (left; now apply Rinv_0_lt_compat). apply Rmax_r. }
      assert (C1 : 1 <= c <= c) by (unfold c; lra).
      assert (N1 : near_to c c (rnd F (x k - y k)) (x k - y k) A1) by (unfold near_to; assert (Q := rnd_err_sub F V (x k) (y k) Fx Fy); unfold c; lra).
      assert (N2 := near_to_mult _ _ _ _ _ _ _ _ _ _ C1 C1 M2 M2 N1 N1).
      assert (CC : 1 <= c * c <= c * c) by (split; [apply ge1_mult; lra|lra]).
      assert (M5 : Rabs ((x k - y k) * (x k - y k)) <= A1 * A1) by (rewrite Rabs_mult; apply Rmult_le_compat; auto; apply Rabs_pos).
      assert (N3 := near_to_rnd F _ _ _ _ _ CC M5 (ge1_mult _ _ M1 M1) N2). fold c n in N3.
      assert (N4 : near_to 1 1 (-1 / ell k) (-1 / ell k) A2) by (unfold near_to; rewrite Rminus_eq_0, Rabs_R0; right; ring).
      assert (C11 : 1 <= 1 <= 1) by lra. assert (N5 := near_to_rnd F _ _ _ _ _ C11 M4 M3 N4). fold c n in N5.
      assert (C3 : 1 <= c * (c * c) <= (c + n) * (c * c)) by (split; [apply ge1_mult; lra|apply Rmult_le_compat_r; lra]). assert (C4 : 1 <= c * 1 <= (c + n) * 1) by lra.
      assert (Q := near_to_mult _ _ _ _ _ _ _ _ _ _ C3 C4 M5 M4 N3 N5).
      unfold near_to in Q. fold g h (p k) in Q. replace (A1 * A1 * A2) with (AA k) in Q by (unfold AA; fold A1 A2; ring). exact Q. }
    assert (R := row_dot_err2 F eord a m _ _ p (fun k => (g - 1) * Rabs (p k) + (h - g) * AA k) e V HD He N). cbv zeta in R. fold A c n in R.
    replace (sumf m p) with (- t) in R by (unfold t, p; rewrite <- (Rmult_1_l (sumf m _)), <- Ropp_mult_distr_l_reverse, <- sumf_scal_l; apply sumf_ext; intros k Hk; field; generalize (proj2 (proj2 (H k Hk))); lra).
    rewrite sumf_plus, !sumf_scal_l in R. rewrite (sumf_ext m (fun i => Rabs (p i)) (fun k => (x k - y k) * (x k - y k) * / ell k)) in R by exact EP. fold t in R.
    eapply Rle_trans; [exact R|]. right. unfold under, spread. fold c n AA. rewrite pow_add. unfold g, h. ring.
Qed.

(** e^x - e^y and t e^-t *)
Lemma exp_diff : forall a b, a <= b -> exp b - exp a <= (b - a) * exp b.
Proof. intros a b H. replace (exp a) with (exp b * exp (a - b)) by (rewrite <- exp_plus; f_equal; ring). generalize (exp_ineq1_le (a - b)) (exp_pos b). nra. Qed.
Lemma t_exp_t : forall t, t * exp (- t) <= exp (- 1).
Proof.
  intros t. replace (exp (-1)) with (exp (t - 1) * exp (- t)) by (rewrite <- exp_plus; f_equal; ring).
  apply Rmult_le_compat_r; [left; apply exp_pos|]. generalize (exp_ineq1_le (t - 1)). lra.
Qed.
Lemma exp_near : forall A t d tau, 0 <= t -> 0 <= d < 1 -> 0 <= tau -> Rabs (A - - t) <= d * t + tau ->
  Rabs (exp A - exp (- t)) <= exp tau * (d / (1 - d) * exp (- 1) + tau).
Proof.
  intros A t d tau T D Ht H. set (s := (1 - d) * t).
  assert (S0 : 0 <= s) by (apply Rmult_le_pos; lra).
  assert (B : forall x, - t - (d * t + tau) <= x <= - t + (d * t + tau) -> exp x <= exp tau * exp (- s)).
  { intros x Hx. rewrite <- exp_plus. destruct (Req_dec x (tau + - s)) as [->|Ne]; [lra|]. left. apply exp_increasing. unfold s in *. lra. }
  assert (Q : (d * t + tau) * (exp tau * exp (- s)) <= exp tau * (d / (1 - d) * exp (- 1) + tau)).
  { replace ((d * t + tau) * (exp tau * exp (- s))) with (exp tau * (d / (1 - d) * (s * exp (- s)) + tau * exp (- s))) by (unfold s; field; lra).
    apply Rmult_le_compat_l; [left; apply exp_pos|]. apply Rplus_le_compat.
    - apply Rmult_le_compat_l; [apply Rmult_le_pos; [lra|left; apply Rinv_0_lt_compat; lra]|apply t_exp_t].
    - rewrite <- (Rmult_1_r tau) at 2. apply Rmult_le_compat_l; auto. rewrite <- exp_0. destruct (Req_dec s 0) as [->|Ne]; [rewrite Ropp_0; lra|]. left. apply exp_increasing. lra. }
  assert (DT : 0 <= d * t) by (apply Rmult_le_pos; lra).
  apply Rle_trans with (2 := Q). assert (HA : - (d * t + tau) <= A - - t <= d * t + tau) by (revert H; unfold Rabs; destruct (Rcase_abs _); lra).
  assert (E0 := exp_pos tau). assert (E1 := exp_pos (- s)). assert (E2 : 0 < exp tau * exp (- s)) by nra.
  destruct (Rle_dec A (- t)) as [L|L].
  - rewrite Rabs_minus_sym, Rabs_pos_eq.
    + apply Rle_trans with (1 := exp_diff _ _ L). apply Rmult_le_compat; try lra; [left; apply exp_pos|]. apply B. lra.
    + destruct (Req_dec A (- t)) as [->|Ne]; [lra|]. assert (exp A < exp (- t)) by (apply exp_increasing; lra). lra.
  - assert (L' : - t <= A) by lra. rewrite Rabs_pos_eq.
    + apply Rle_trans with (1 := exp_diff _ _ L'). apply Rmult_le_compat; try lra; [left; apply exp_pos|]. apply B. lra.
    + assert (exp (- t) < exp A) by (apply exp_increasing; lra). lra.
Qed.

(** the error of a kernel value, whatever the distance of the two points *)
Definition kernel_err (F : format) (d : R) (e m : nat) (T : R) : R :=
  let g := (1 + ulp1 F) ^ (e + 4) - 1 in
  exp (under F e m T) * (g / (1 - g) * exp (- 1) + under F e m T) + d + eta F.

Theorem C117_kernel : forall F d ex eord e X1 X2 sigma ell M n m, valid F -> 0 <= d -> exp_close F d ex -> (forall a, dots_all (eord a)) ->
  shape X1 = [M; m] -> shape X2 = [n; m] -> size ell = m ->
  (forall a k, (a < M)%nat -> (k < m)%nat -> fmt F (X1.[a, k])) -> (forall i k, (i < n)%nat -> (k < m)%nat -> fmt F (X2.[i, k])) -> (forall k, (k < m)%nat -> 0 < ell.[k, 0%nat]) ->
  (forall a, (a < M)%nat -> (ddepth (eord a m) <= e)%nat) -> (1 + ulp1 F) ^ (e + 4) < 2 ->
  exists K K', exponential_squared X1 X2 sigma ell = Ok K /\ exponential_squared_fl F ex eord X1 X2 sigma ell = Ok K' /\ shape K = [M; n] /\ shape K' = [M; n] /\
    forall a i, (a < M)%nat -> (i < n)%nat -> fmt F (K'.[a, i]) /\
      K.[a, i] = sigma * exp (- sumf m (fun k => (X1.[a, k] - X2.[i, k]) * (X1.[a, k] - X2.[i, k]) * / ell.[k, 0%nat])) /\
      let q := kernel_err F d e m (spread m (fun k => X1.[a, k]) (fun k => X2.[i, k]) (fun k => ell.[k, 0%nat])) in
      Rabs (K'.[a, i] - K.[a, i]) <= Rabs sigma * (q + ulp1 F * (1 + q)) + eta F /\ (sigma = 1 -> Rabs (K'.[a, i] - K.[a, i]) <= q).
Proof.
  intros F d ex eord e X1 X2 sigma ell M n m V D HE HD S1 S2 SL F1 F2 HL He HG.
  assert (U := ulp1_pos F). assert (P := eta_pos F).
  set (A := fun a i => row_dot_fl F eord a m (fun k => rnd F (rnd F (X1.[a, k] - X2.[i, k]) * rnd F (X1.[a, k] - X2.[i, k]))) (fun k => rnd F (-1 / ell.[k, 0%nat]))).
  assert (E' : exponential_squared_fl F ex eord X1 X2 sigma ell = Ok (mk2 M n (fun a i => rnd F (sigma * ex (A a i))))).
  { unfold exponential_squared_fl, shape2. rewrite S1, S2. cbn [rbind]. unfold bdim. rewrite SL, !Nat.eqb_refl. cbn [negb]. rewrite andb_false_r. unfold bidx. destruct (Nat.eqb_spec m 1) as [->|_]; [|cbv beta zeta delta [A row_dot_fl]; lazymatch goal with |- ?a = ?a => reflexivity end].
    apply (f_equal (fun f => Ok (mk2 M n f))). apply FunctionalExtensionality.functional_extensionality. intros a. apply FunctionalExtensionality.functional_extensionality. intros i. apply (f_equal (fun z => rnd F (sigma * ex z))). unfold A, row_dot_fl.
    assert (PL := HD a 1%nat ltac:(lia)). 
    assert (DX : forall t b b' w w', (forall j, In j (dleaves t) -> b j = b' j /\ w j = w' j) -> dfl F t b w = dfl F t b' w').
    { induction t as [j|t IH j|l IHl r IHr]; intros b b' w w' Hb; cbn [dfl dleaves] in *.
      - destruct (Hb j (or_introl eq_refl)) as [-> ->]. reflexivity.
      - rewrite (IH b b' w w') by (intros; apply Hb, in_or_app; auto). destruct (Hb j ltac:(apply in_or_app; right; left; reflexivity)) as [-> ->]. reflexivity.
      - rewrite (IHl b b' w w'), (IHr b b' w w') by (intros; apply Hb, in_or_app; auto). reflexivity. }
    apply DX. intros j Hj. apply (Permutation_in j PL) in Hj. destruct Hj as [<-|[]]. auto. }
  exists (mk2 M n (fun a i => sigma * gauss m (fun k => ell.[k, 0%nat]) (fun k => X1.[a, k]) (fun k => X2.[i, k]))), (mk2 M n (fun a i => rnd F (sigma * ex (A a i)))).
  split; [now apply exponential_squared_ok|]. split; [exact E'|]. split; [reflexivity|]. split; [reflexivity|].
  intros a i Ha Hi. rewrite !at_mk2. split; [apply rnd_fmt; auto|].
  set (t := sumf m (fun k => (X1.[a, k] - X2.[i, k]) * (X1.[a, k] - X2.[i, k]) * / ell.[k, 0%nat])).
  assert (EG : gauss m (fun k => ell.[k, 0%nat]) (fun k => X1.[a, k]) (fun k => X2.[i, k]) = exp (- t)).
  { unfold gauss, t. f_equal. rewrite <- (Rmult_1_l (sumf m (fun k => _ * / _))), <- Ropp_mult_distr_l_reverse, <- sumf_scal_l. apply sumf_ext. intros k Hk. field. generalize (HL k Hk). lra. }
  rewrite EG. split; [reflexivity|].
  destruct (exponent_err F eord a m (fun k => X1.[a, k]) (fun k => X2.[i, k]) (fun k => ell.[k, 0%nat]) e V (HD a) (He a Ha)) as (T0 & A0 & AE); [intros k Hk; auto|].
  cbv beta zeta in AE. fold t in T0, AE. fold (A a i) in A0, AE.
  set (q := kernel_err F d e m (spread m (fun k => X1.[a, k]) (fun k => X2.[i, k]) (fun k => ell.[k, 0%nat]))). cbv zeta.
  assert (FA : fmt F (A a i)) by (apply row_dot_fmt; auto).
  destruct (HE (A a i) FA A0) as [FE EE].
  set (tau := under F e m (spread m (fun k => X1.[a, k]) (fun k => X2.[i, k]) (fun k => ell.[k, 0%nat]))) in *. set (g := (1 + ulp1 F) ^ (e + 4) - 1) in *.
  assert (G0 : 0 <= g < 1) by (split; [unfold g; generalize (pow_R1_Rle (1 + ulp1 F) (e + 4) ltac:(lra)); lra|unfold g; lra]).
  assert (TA : 0 <= tau).
  { unfold tau, under. apply Rmult_le_pos; [apply pow_le; lra|]. apply Rplus_le_le_0_compat; [|apply Rmult_le_pos; [apply pos_INR|lra]].
    apply Rmult_le_pos; [apply Rmult_le_pos; [|apply pow_le; lra]|].
    - assert (Q : (1 + ulp1 F) ^ 2 <= (1 + ulp1 F + eta F) ^ 2) by (apply pow_incr; lra). lra.
    - apply sumf_nonneg. intros k Hk. apply Rmult_le_pos; [apply pow_le; generalize (Rmax_l 1 (Rabs (X1.[a, k] - X2.[i, k]))); lra|]. generalize (Rmax_l 1 (/ ell.[k, 0%nat])). lra. }
  assert (XN := exp_near (A a i) t g tau T0 G0 TA AE).
  assert (EA : 0 < exp (A a i) <= 1) by (split; [apply exp_pos|]; rewrite <- exp_0; destruct (Req_dec (A a i) 0) as [->|Ne]; [lra|left; apply exp_increasing; lra]).
  assert (ET : 0 < exp (- t) <= 1) by (split; [apply exp_pos|]; rewrite <- exp_0; destruct (Req_dec t 0) as [->|Ne]; [rewrite Ropp_0; lra|left; apply exp_increasing; lra]).
  assert (DP : d * exp (A a i) <= d) by (rewrite <- (Rmult_1_r d) at 2; apply Rmult_le_compat_l; lra).
  assert (KQ : Rabs (ex (A a i) - exp (- t)) <= q).
  { replace (ex (A a i) - exp (- t)) with ((ex (A a i) - exp (A a i)) + (exp (A a i) - exp (- t))) by ring. apply Rle_trans with (1 := Rabs_triang _ _). unfold q, kernel_err. fold g tau. lra. }
  split.
  - assert (R := rnd_err F (sigma * ex (A a i))). replace (rnd F (sigma * ex (A a i)) - sigma * exp (- t)) with ((rnd F (sigma * ex (A a i)) - sigma * ex (A a i)) + sigma * (ex (A a i) - exp (- t))) by ring.
    apply Rle_trans with (1 := Rabs_triang _ _). rewrite (Rabs_mult sigma (ex (A a i) - _)). rewrite Rabs_mult in R. assert (S0 := Rabs_pos sigma).
    assert (B : Rabs (ex (A a i)) <= 1 + q) by (replace (ex (A a i)) with (exp (- t) + (ex (A a i) - exp (- t))) by ring; apply Rle_trans with (1 := Rabs_triang _ _); rewrite (Rabs_pos_eq (exp (- t))); lra).
    assert (X : ulp1 F * (Rabs sigma * Rabs (ex (A a i))) <= ulp1 F * (Rabs sigma * (1 + q))) by (apply Rmult_le_compat_l; [lra|]; apply Rmult_le_compat_l; auto).
    assert (Y : Rabs sigma * Rabs (ex (A a i) - exp (- t)) <= Rabs sigma * q) by (apply Rmult_le_compat_l; auto). lra.
  - intros ->. rewrite !Rmult_1_l, (fmt_fix F V _ FE). exact KQ.
Qed.
Print Assumptions C117_kernel.

(** The values of the radial basis surface: the two sums err by E1 and E2, and
    their sum is rounded once. *)
Theorem C117_predict : forall F d dx ex pw pord eord kord dord e ek ed s X M m T, valid F -> 0 <= d -> pow_close F d pw -> 0 <= dx -> exp_close F dx ex -> adds_all pord ->
  (forall r, dots_all (eord r)) -> (forall r, dots_all (kord r)) -> (forall r, dots_all (dord r)) -> shape X = [M; m] -> (1 <= m)%nat -> rbf_shape s T m ->
  (forall r j, (r < M)%nat -> (j < m)%nat -> fmt F (X.[r, j])) -> (forall a j, (a < T)%nat -> (j < m)%nat -> fmt F ((rb_X s).[a, j])) -> (forall k, (k < m)%nat -> 0 < (rb_ell s).[k, 0%nat]) ->
  (forall r, (r < M)%nat -> (ddepth (eord r m) <= e /\ ddepth (kord r T) <= ek /\ ddepth (dord r (binom (rb_N s + m) m)) <= ed)%nat) -> (1 + ulp1 F) ^ (e + 4) < 2 ->
  exists II f f', index_set (rb_N s) m = Ok II /\ rbf_predict s X false = Ok (f, None) /\ rbf_predict_fl F ex eord pw pord kord dord s X = Ok f' /\ shape f = [M; 1%nat] /\ shape f' = [M; 1%nat] /\
    forall r, (r < M)%nat -> fmt F (f'.[r, 0%nat]) /\
      let c := 1 + ulp1 F in
      let x j := X.[r, j] in
      let l k := (rb_ell s).[k, 0%nat] in
      let y a j := (rb_X s).[a, j] in
      let v a := Rabs ((rb_rw s).[a, 0%nat]) in
      let w i := Rabs ((rb_pw s).[i, 0%nat]) in
      let n := List.length II in
      let E1 := (c ^ ek - 1) * sumf T (fun a => v a * exp (- sumf m (fun k => (x k - y a k) * (x k - y a k) * / l k))) +
                c ^ ek * (sumf T (fun a => v a * kernel_err F dx e m (spread m x (y a) l)) + INR T * eta F) in
      let E2 := (c ^ ed * gain F d m - 1) * sumf n (fun i => w i * msize m x (nth i II [])) +
                c ^ ed * ((gain_under F d m - gain F d m) * sumf n (fun i => w i * mmajor m x (nth i II [])) + INR n * eta F) in
      Rabs (f'.[r, 0%nat] - f.[r, 0%nat]) <= c * (E1 + E2) + ulp1 F * Rabs (f.[r, 0%nat]).
Proof.
  intros F d dx ex pw pord eord kord dord e ek ed s X M m T V D HP DX HE HO HDe HDk HDd HX Hm HS FX FY HL He HG.
  destruct (rbf_predict_ok s X M m T false HX Hm HS) as (II & f & EI & Sf & Vf & Dd & Ef & _). destruct HS as (S1 & S2 & S3 & S4).
  assert (LN := index_set_length (rb_N s) m Hm II EI). set (n := List.length II) in *. rewrite <- LN in S4, He.
  destruct (C117_kernel F dx ex eord e X (rb_X s) 1 (rb_ell s) M T m V DX HE HDe HX S1 S2 FX FY HL (fun r Hr => proj1 (He r Hr)) HG) as (K & K' & EK & EK' & SK & SK' & QK).
  set (B := mk2 M n (fun r i => power_prod_fl F pw pord X m (nth i II []) r)).
  assert (EB : polynomial_bases_fl F pw pord X (rb_N s) = Ok (B, II)) by (unfold polynomial_bases_fl, shape2; rewrite HX; cbn [rbind]; rewrite EI; reflexivity).
  set (f' := mk2 M 1 (fun r _ => rnd F (row_dot_fl F kord r T (fun i => K'.[r, i]) (fun i => (rb_rw s).[i, 0%nat]) + row_dot_fl F dord r n (fun i => B.[r, i]) (fun i => (rb_pw s).[i, 0%nat])))).
  exists II, f, f'. split; [exact EI|]. split; [exact Ef|]. split.
  { unfold rbf_predict_fl. rewrite (process_inputs_eq _ X M m HX). cbn [rbind]. rewrite EK'. cbn [rbind]. rewrite EB. cbn [rbind].
    rewrite (nrows_shape2 _ _ _ _ S3), (ncols_shape2 _ _ _ _ S3), (nrows_shape2 _ _ _ _ S4), (ncols_shape2 _ _ _ _ S4), (ncols_shape2 _ _ _ _ SK'). change (ncols B) with n. rewrite !Nat.eqb_refl. reflexivity. }
  split; [exact Sf|]. split; [reflexivity|]. intros r Hr. destruct (He r Hr) as (_ & He2 & He3). split; [unfold f'; rewrite at_mk2; apply rnd_fmt; auto|].
  intros c x l y v w n0 E1 E2. subst n0. assert (U := ulp1_pos F). unfold f'. rewrite at_mk2.
  set (D1 := row_dot_fl F kord r T _ _). set (D2 := row_dot_fl F dord r n _ _).
  set (k0 := fun a => exp (- sumf m (fun k => (x k - y a k) * (x k - y a k) * / l k))).
  assert (KE : forall a, (a < T)%nat -> K.[r, a] = k0 a /\ Rabs (K'.[r, a] - k0 a) <= kernel_err F dx e m (spread m x (y a) l)).
  { intros a Ha. destruct (QK r a Hr Ha) as (_ & Q1 & Q2). rewrite Rmult_1_l in Q1. fold (x) in Q1. split; [exact Q1|]. destruct Q2 as [_ Q2]. specialize (Q2 eq_refl). rewrite Q1 in Q2. exact Q2. }
  assert (R1 := row_dot_err F kord r T (fun i => K'.[r, i]) k0 (fun i => (rb_rw s).[i, 0%nat]) (fun a => kernel_err F dx e m (spread m x (y a) l)) ek V (HDk r) He2 (fun a Ha => proj2 (KE a Ha))).
  assert (PP : forall i, (i < n)%nat -> Rabs (B.[r, i] - power_prod X m (nth i II []) r) <= (gain F d m - 1) * msize m x (nth i II []) + (gain_under F d m - gain F d m) * mmajor m x (nth i II [])).
  { intros i Hi. unfold B. rewrite at_mk2. apply power_prod_near; auto. }
  assert (R2 := row_dot_err F dord r n (fun i => B.[r, i]) (fun i => power_prod X m (nth i II []) r) (fun i => (rb_pw s).[i, 0%nat]) _ ed V (HDd r) He3 PP).
  cbv beta zeta in R1, R2. fold c D1 in R1. fold c D2 in R2.
  assert (EF : f.[r, 0%nat] = sumf T (fun i => k0 i * (rb_rw s).[i, 0%nat]) + sumf n (fun i => power_prod X m (nth i II []) r * (rb_pw s).[i, 0%nat])).
  { rewrite (Vf r Hr). unfold rbf_eval, poly_eval. f_equal. apply sumf_ext. intros a Ha. f_equal. unfold gauss, k0. f_equal. fold (l).
    rewrite <- (Rmult_1_l (sumf m (fun k => _ * / _))), <- Ropp_mult_distr_l_reverse, <- sumf_scal_l. apply sumf_ext. intros k Hk. unfold x, y, l. field. generalize (HL k Hk). lra. }
  set (f1 := sumf T (fun i => k0 i * (rb_rw s).[i, 0%nat])) in *. set (f2 := sumf n (fun i => power_prod X m (nth i II []) r * (rb_pw s).[i, 0%nat])) in *.
  assert (B1 : Rabs (D1 - f1) <= E1).
  { eapply Rle_trans; [exact R1|]. right. unfold E1. f_equal; [f_equal|f_equal; f_equal]; apply sumf_ext; intros a Ha; [|unfold v; ring]. rewrite (Rabs_pos_eq (k0 a)) by (left; apply exp_pos). unfold v, k0. ring. }
  assert (B2 : Rabs (D2 - f2) <= E2).
  { eapply Rle_trans; [exact R2|]. set (g := gain F d m). set (h := gain_under F d m).
    rewrite (sumf_ext n (fun i => Rabs (power_prod X m (nth i II []) r) * Rabs ((rb_pw s).[i, 0%nat])) (fun i => w i * msize m x (nth i II []))).
    2: { intros i _. unfold w, power_prod, msize. rewrite prodf_abs, (prodf_ext m _ (fun j => Rabs (x j) ^ nth j (nth i II []) 0%nat)) by (intros; unfold x; symmetry; apply RPow_abs). ring. }
    rewrite (sumf_ext n (fun i => ((g - 1) * msize m x (nth i II []) + (h - g) * mmajor m x (nth i II [])) * Rabs ((rb_pw s).[i, 0%nat])) (fun i => (g - 1) * (w i * msize m x (nth i II [])) + (h - g) * (w i * mmajor m x (nth i II [])))) by (intros; unfold w; ring).
    rewrite sumf_plus, !sumf_scal_l. right. unfold E2. fold g h n. ring. }
  assert (FD1 : fmt F D1) by (apply row_dot_fmt; auto). assert (FD2 : fmt F D2) by (apply row_dot_fmt; auto).
  assert (RE := rnd_err_add F D1 D2 FD1 FD2). rewrite EF.
  assert (BS : Rabs (D1 + D2 - (f1 + f2)) <= E1 + E2) by (replace (D1 + D2 - (f1 + f2)) with ((D1 - f1) + (D2 - f2)) by ring; apply Rle_trans with (1 := Rabs_triang _ _); lra).
  assert (BD : Rabs (D1 + D2) <= Rabs (f1 + f2) + (E1 + E2)) by (replace (D1 + D2) with ((f1 + f2) + (D1 + D2 - (f1 + f2))) by ring; apply Rle_trans with (1 := Rabs_triang _ _); lra).
  replace (rnd F (D1 + D2) - (f1 + f2)) with ((rnd F (D1 + D2) - (D1 + D2)) + (D1 + D2 - (f1 + f2))) by ring. apply Rle_trans with (1 := Rabs_triang _ _).
  assert (X1 : ulp1 F * Rabs (D1 + D2) <= ulp1 F * (Rabs (f1 + f2) + (E1 + E2))) by (apply Rmult_le_compat_l; lra). unfold c. lra.
Qed.
Print Assumptions C117_predict.

(** the nearest floats to the exponentials *)
Lemma rnd_exp_close : forall F, valid F -> exp_close F (ulp1 F) (fun x => rnd F (exp x)).
Proof. intros F V x _ _. split; [apply rnd_fmt; auto|]. assert (R := rnd_err F (exp x)). rewrite (Rabs_pos_eq (exp x)) in R by (left; apply exp_pos). exact R. Qed.

(** Two different points at distance 2^-30 with length scale 1, in binary64 with
    exponentials to the nearest float: the kernel matrix is positive definite,
    the computed one has only ones and is singular. *)
Theorem C117_distinct_points_refuted : exists X K K', shape X = [2; 1]%nat /\ fmt binary64 (X.[0%nat, 0%nat]) /\ fmt binary64 (X.[1%nat, 0%nat]) /\ X.[0%nat, 0%nat] <> X.[1%nat, 0%nat] /\
  exponential_squared X X 1 (mat_of [[1]]) = Ok K /\ exponential_squared_fl binary64 (fun x => rnd binary64 (exp x)) (fun _ => dcomb) X X 1 (mat_of [[1]]) = Ok K' /\
  0 < K.[0%nat, 0%nat] * K.[1%nat, 1%nat] - K.[0%nat, 1%nat] * K.[1%nat, 0%nat] /\
  forall i j, (i < 2)%nat -> (j < 2)%nat -> K'.[i, j] = 1.
Proof.
  assert (V := valid64). set (t := bpow (-30)). assert (T0 : 0 < t) by apply bpow_pos. assert (T60 : bpow (-60) = t * t) by (unfold t; rewrite <- bpow_add; reflexivity).
  assert (Ft : fmt binary64 t) by (apply (fmt_by _ 1 (-30)); [unfold t; ring|reflexivity|reflexivity]).
  assert (Ftt : fmt binary64 (t * t)) by (rewrite <- T60; apply (fmt_by _ 1 (-60)); [ring|reflexivity|reflexivity]).
  assert (F1 : rnd binary64 1 = 1) by (apply rnd_1; auto).
  assert (RE : rnd binary64 (exp (- (t * t))) = 1).
  { assert (L : rnd binary64 (1 - bpow (-60)) = 1).
    { rewrite (rnd_rat binary64 _ (2 ^ 60 - 1) 128 (-53) (2 ^ 53)); try (simpl; lia).
      - rewrite <- bpow_IZR, <- bpow_add by lia. reflexivity.
      - rewrite minus_IZR, <- bpow_IZR by lia. replace 128 with (bpow 7) by (rewrite bpow_IZR by lia; reflexivity). assert (B7 := bpow_neq 7).
        replace (bpow (-53)) with (bpow 7 * bpow (-60)) by (rewrite <- bpow_add; reflexivity). replace ((bpow 60 - 1) / bpow 7 * (bpow 7 * bpow (-60))) with (bpow 60 * bpow (-60) - bpow (-60)) by (field; exact B7).
        rewrite <- bpow_add. simpl Z.add. rewrite bpow_0. ring. }
    assert (M1 := rnd_mono binary64 V (1 - bpow (-60)) (exp (- (t * t)))). assert (M2 := rnd_mono binary64 V (exp (- (t * t))) 1).
    rewrite L in M1. rewrite F1 in M2. apply Rle_antisym; [apply M2|apply M1].
    - rewrite <- exp_0. left. apply exp_increasing. nra.
    - rewrite T60. generalize (exp_ineq1_le (- (t * t))). lra. }
  clear T60. clearbody t. set (X := mat_of [[0]; [t]]).
  exists X. do 2 eexists. split; [reflexivity|]. split; [apply fmt_0; auto|]. split; [exact Ft|]. split; [cbn; lra|]. split; [reflexivity|]. split; [reflexivity|]. split.
  - rewrite !at_mk2. cbn [sumf]. cbn. rewrite !Rmult_1_l.
    replace (0 + (0 - 0) * (0 - 0) * (-1 / 1)) with 0 by field. replace (0 + (t - t) * (t - t) * (-1 / 1)) with 0 by field. replace (0 + (0 - t) * (0 - t) * (-1 / 1)) with (- (t * t)) by field. replace (0 + (t - 0) * (t - 0) * (-1 / 1)) with (- (t * t)) by field.
    rewrite exp_0. assert (exp (- (t * t)) < 1) by (rewrite <- exp_0; apply exp_increasing; nra). assert (P := exp_pos (- (t * t))). nra.
  - assert (RM : rnd binary64 (-1 / 1) = -1) by (replace (-1 / 1) with (- (1)) by field; rewrite rnd_opp, F1; reflexivity).
    assert (R0 : rnd binary64 0 = 0) by apply rnd_0.
    intros i j Hi Hj. rewrite at_mk2. unfold row_dot_fl. destruct i as [|[|i]]; [| |lia]; (destruct j as [|[|j]]; [| |lia]); cbn; rewrite Rmult_1_l, RM.
    + rewrite Rminus_0_r, R0, Rmult_0_l, R0, Rmult_0_l, R0, exp_0, !F1. reflexivity.
    + replace (0 - t) with (- t) by ring. rewrite rnd_opp, (fmt_fix _ V t Ft). replace (- t * - t) with (t * t) by ring. rewrite (fmt_fix _ V _ Ftt). replace (t * t * -1) with (- (t * t)) by ring. rewrite rnd_opp, (fmt_fix _ V _ Ftt), RE. exact F1.
    + replace (t - 0) with t by ring. rewrite (fmt_fix _ V t Ft), (fmt_fix _ V _ Ftt). replace (t * t * -1) with (- (t * t)) by ring. rewrite rnd_opp, (fmt_fix _ V _ Ftt), RE. exact F1.
    + rewrite Rminus_eq_0, R0, Rmult_0_l, R0, Rmult_0_l, R0, exp_0, !F1. reflexivity.
Qed.
Print Assumptions C117_distinct_points_refuted.

(** Binary64 with exponentials and powers to the nearest float, two centres on
    the line, weights 3 and -2, and the polynomial 1/2 + x/4. *)
Definition s117 : rbf := {| rb_N := 1; rb_X := mat_of [[1/2]; [1]]; rb_f := mat_of [[0]; [0]]; rb_K := mat_of [[0]]; rb_ell := mat_of [[1/4]]; rb_Rsqr := Fin 1;
  rb_rw := mat_of [[3]; [-2]]; rb_pw := mat_of [[1/2]; [1/4]] |}.
Lemma kernel_err_117 : kernel_err binary64 (ulp1 binary64) 1 1 4 <= 40 * ulp1 binary64.
Proof.
  unfold kernel_err, under. set (u := ulp1 binary64). assert (U : bpow (-53) = u) by reflexivity. assert (U0 : 0 < u) by apply ulp1_pos. assert (U1 : u <= / 1000000).
  { rewrite <- U. apply Rle_trans with (bpow (-20)); [apply bpow_le; lia|]. change (-20)%Z with (- (20))%Z. unfold bpow. simpl. lra. }
  set (n := eta binary64). assert (N0 : 0 < n) by apply eta_pos. assert (N1 : n <= u).
  { unfold n, eta. rewrite <- U. simpl f_emin. assert (bpow (-1074) <= bpow (-53)) by (apply bpow_le; lia). generalize (bpow_pos (-1074)). lra. }
  clearbody u n. clear U. change (INR 1) with 1.
  assert (UU : 0 <= u * u <= u * / 1000000) by (split; [nra|apply Rmult_le_compat_l; lra]). assert (NN : 0 <= n * n <= n * / 1000000) by (split; [nra|apply Rmult_le_compat_l; lra]). assert (UN : 0 <= u * n <= n * / 1000000) by (split; [nra|rewrite (Rmult_comm u); apply Rmult_le_compat_l; lra]).
  assert (C2 : 1 <= (1 + u) ^ 2 <= 1 + 3 * u) by (simpl pow; lra).
  assert (T : 0 <= (1 + u) ^ 1 * (((1 + u + n) ^ 2 - (1 + u) ^ 2) * (1 + u) ^ 2 * 4 + 1 * n) <= 11 * u).
  { assert (D : 0 <= (1 + u + n) ^ 2 - (1 + u) ^ 2 <= 21 / 10 * n) by (simpl pow; lra). rewrite pow_1.
    assert (D2 : 0 <= ((1 + u + n) ^ 2 - (1 + u) ^ 2) * (1 + u) ^ 2 <= (21 / 10 * n) * (11 / 10)) by (split; [apply Rmult_le_pos; lra|apply Rmult_le_compat; lra]).
    set (z := ((1 + u + n) ^ 2 - (1 + u) ^ 2) * (1 + u) ^ 2) in *. split; [apply Rmult_le_pos; lra|].
    apply Rle_trans with (1001 / 1000 * (1025 / 100 * n)); [apply Rmult_le_compat; lra|lra]. }
  set (t := (1 + u) ^ 1 * _) in *. clearbody t.
  assert (G : 0 <= (1 + u) ^ (1 + 4) - 1 <= 6 * u).
  { replace ((1 + u) ^ (1 + 4)) with ((1 + u) ^ 2 * (1 + u) ^ 2 * (1 + u)) by (change (1 + 4)%nat with 5%nat; ring). split.
    - assert (1 * 1 <= (1 + u) ^ 2 * (1 + u) ^ 2) by (apply Rmult_le_compat; lra). assert (1 * 1 <= (1 + u) ^ 2 * (1 + u) ^ 2 * (1 + u)) by (apply Rmult_le_compat; lra). lra.
    - replace ((1 + u) ^ 2 * (1 + u) ^ 2 * (1 + u)) with (1 + 5 * u + 10 * (u * u) + u * u * (10 * u + 5 * (u * u) + u * (u * u))) by ring.
      assert (u * (u * u) <= u * 1) by (apply Rmult_le_compat_l; lra). assert (u * u * (10 * u + 5 * (u * u) + u * (u * u)) <= u * u * 1) by (apply Rmult_le_compat_l; lra). lra. }
  set (g := (1 + u) ^ (1 + 4) - 1) in *. clearbody g.
  assert (G1 : 0 <= g / (1 - g) <= 7 * u).
  { split; [apply Rmult_le_pos; [lra|left; apply Rinv_0_lt_compat; lra]|]. apply Rmult_le_reg_r with (1 - g); [lra|]. unfold Rdiv. rewrite Rmult_assoc, Rinv_l, Rmult_1_r by lra.
    apply Rle_trans with (7 * u * (9 / 10)); [lra|apply Rmult_le_compat_l; lra]. }
  assert (X1 : 0 < exp (-1) <= 1) by (split; [apply exp_pos|rewrite <- exp_0; left; apply exp_increasing; lra]).
  assert (X2 : exp t <= 2).
  { assert (Q := exp_ineq1_le (- t)). rewrite exp_Ropp in Q. assert (P := exp_pos t). apply Rmult_le_reg_r with (/ exp t); [now apply Rinv_0_lt_compat|]. rewrite Rinv_r by lra. lra. }
  assert (Y : 0 <= g / (1 - g) * exp (-1) <= 7 * u) by (split; [apply Rmult_le_pos; lra|rewrite <- (Rmult_1_r (7 * u)); apply Rmult_le_compat; lra]).
  assert (Z : exp t * (g / (1 - g) * exp (-1) + t) <= 2 * (18 * u)) by (apply Rmult_le_compat; [left; apply exp_pos| | |]; lra). lra.
Qed.

Example C117_case : exists f f', rbf_predict s117 (mat_of [[0]]) false = Ok (f, None) /\
  rbf_predict_fl binary64 (fun x => rnd binary64 (exp x)) (fun _ => dcomb) (fun x k => rnd binary64 (x ^ k)) comb (fun _ => dcomb) (fun _ => dcomb) s117 (mat_of [[0]]) = Ok f' /\
  f.[0%nat, 0%nat] = 3 * exp (-1) - 2 * exp (-4) + 1 / 2 /\ Rabs (f'.[0%nat, 0%nat] - f.[0%nat, 0%nat]) <= 300 * bpow (-53).
Proof.
  assert (V := valid64). assert (KE := kernel_err_117).
  assert (U0 : 0 < ulp1 binary64) by apply ulp1_pos. assert (U1 : ulp1 binary64 <= / 1000000).
  { change (ulp1 binary64) with (bpow (-53)). apply Rle_trans with (bpow (-20)); [apply bpow_le; lia|]. change (-20)%Z with (- (20))%Z. unfold bpow. simpl. lra. }
  assert (B1 : forall z, bpow (z + 1) = 2 * bpow z) by (intros; apply bpow_S). assert (E1 : bpow (-1) = / 2) by (assert (Q := bpow_0); change 0%Z with (-1 + 1)%Z in Q; rewrite !B1 in Q; lra).
  destruct (C117_predict binary64 (ulp1 binary64) (ulp1 binary64) (fun x => rnd binary64 (exp x)) (fun x k => rnd binary64 (x ^ k)) comb (fun _ => dcomb) (fun _ => dcomb) (fun _ => dcomb) 1 2 2 s117 (mat_of [[0]]) 1 1 2 V ltac:(lra) (rnd_pow_close _ V) ltac:(lra) (rnd_exp_close _ V) comb_all) as (II & f & f' & Q1 & Q2 & Q3 & _ & _ & Q).
  - intros _; exact dcomb_all.
  - intros _; exact dcomb_all.
  - intros _; exact dcomb_all.
  - reflexivity.
  - lia.
  - repeat split.
  - intros r j Hr Hj. replace r with 0%nat by lia. replace j with 0%nat by lia. cbn. apply fmt_0; auto.
  - intros r j Hr Hj. replace j with 0%nat by lia. destruct r as [|[|r]]; [| |lia]; cbn.
    + apply (fmt_by _ 1 (-1)); [rewrite E1; lra|reflexivity|reflexivity].
    + apply fmt_1; auto.
  - intros k Hk. replace k with 0%nat by lia. cbn. lra.
  - intros r Hr. cbn. lia.
  - replace ((1 + ulp1 binary64) ^ (1 + 4)) with ((1 + ulp1 binary64) ^ 2 * (1 + ulp1 binary64) ^ 2 * (1 + ulp1 binary64)) by (change (1 + 4)%nat with 5%nat; ring).
    assert (A1 : 0 <= (1 + ulp1 binary64) ^ 2 <= 11 / 10) by (simpl pow; nra). assert (A2 : 0 <= (1 + ulp1 binary64) ^ 2 * (1 + ulp1 binary64) ^ 2 <= (11 / 10) * (11 / 10)) by (split; [apply Rmult_le_pos; lra|apply Rmult_le_compat; lra]).
    apply Rle_lt_trans with ((11 / 10) * (11 / 10) * (11 / 10)); [apply Rmult_le_compat; lra|lra].
  - assert (EI : II = [[0]; [1]]%nat) by (injection Q1 as <-; reflexivity). subst II. exists f, f'. split; [exact Q2|]. split; [exact Q3|].
    assert (EF : f.[0%nat, 0%nat] = 3 * exp (-1) - 2 * exp (-4) + 1 / 2).
    { destruct (rbf_predict_ok s117 (mat_of [[0]]) 1 1 2 false eq_refl ltac:(lia)) as (L & f2 & EL & _ & Vf & _ & Ef & _). { repeat split. }
      assert (L = [[0]; [1]]%nat) by (injection EL as <-; reflexivity). subst L. rewrite Q2 in Ef. injection Ef as <-. rewrite (Vf 0%nat ltac:(lia)).
      unfold rbf_eval, poly_eval, gauss. cbn [sumf]. cbn.
      match goal with |- 0 + exp ?a * _ + exp ?b * _ + _ = _ => replace a with (-1) by field; replace b with (-4) by field end. field. }
    split; [exact EF|]. destruct (Q 0%nat ltac:(lia)) as [_ H]. clear Q Q1 Q2 Q3. cbv zeta in H. rewrite EF in *. clear EF.
    assert (X1 : 0 < exp (-1) <= 1) by (split; [apply exp_pos|rewrite <- exp_0; left; apply exp_increasing; lra]).
    assert (X4 : 0 < exp (-4) <= 1) by (split; [apply exp_pos|rewrite <- exp_0; left; apply exp_increasing; lra]).
    assert (S0 : spread 1 (fun j => (mat_of [[0]]).[0%nat, j]) (fun j => (rb_X s117).[0%nat, j]) (fun k => (rb_ell s117).[k, 0%nat]) = 4).
    { unfold spread. cbn [sumf]. cbn. replace (0 - 1 / 2) with (- (1 / 2)) by lra. rewrite Rabs_Ropp, Rabs_pos_eq, (Rmax_left 1 (1 / 2)), (Rmax_right 1 (/ (1 / 4))) by lra. field. }
    assert (S1 : spread 1 (fun j => (mat_of [[0]]).[0%nat, j]) (fun j => (rb_X s117).[1%nat, j]) (fun k => (rb_ell s117).[k, 0%nat]) = 4).
    { unfold spread. cbn [sumf]. cbn. replace (0 - 1) with (- (1)) by lra. rewrite Rabs_Ropp, Rabs_pos_eq, (Rmax_left 1 1), (Rmax_right 1 (/ (1 / 4))) by lra. field. }
    set (k := kernel_err binary64 (ulp1 binary64) 1 1) in *.
    match type of H with context [sumf 2 ?h] => replace (sumf 2 h) with (3 * exp (-1) + 2 * exp (-4)) in H end.
    2: { cbn [sumf]. cbn. rewrite (Rabs_pos_eq 3), (Rabs_left (-2)) by lra. match goal with |- _ = 0 + 3 * exp ?a + _ * exp ?b => replace a with (-1) by field; replace b with (-4) by field end. ring. }
    match type of H with context [sumf 2 ?h] => replace (sumf 2 h) with (5 * k 4) in H end.
    2: { cbn [sumf]. rewrite S0, S1. change ((rb_rw s117).[0%nat, 0%nat]) with 3. change ((rb_rw s117).[1%nat, 0%nat]) with (-2). rewrite (Rabs_pos_eq 3), (Rabs_left (-2)) by lra. ring. }
    match type of H with context [sumf ?q ?h] => replace (sumf q h) with (1 / 2) in H end.
    2: { unfold msize. cbn [List.length sumf prodf]. cbn. rewrite Rabs_R0, (Rabs_pos_eq (1 / 2)) by lra. ring. }
    match type of H with context [sumf ?q ?h] => replace (sumf q h) with (3 / 4) in H end.
    2: { unfold mmajor. cbn [List.length sumf prodf]. cbn. rewrite Rabs_R0, (Rabs_pos_eq (1 / 2)), (Rabs_pos_eq (1 / 4)), Rmult_0_l, (Rmax_left 1 1), (Rmax_left 1 0) by lra. field. }
    change (INR (List.length _)) with (INR 2) in H. replace (INR 2) with 2 in H by (simpl; ring).
    unfold gain, gain_under in H. change (1 - 1)%nat with 0%nat in H. rewrite !pow_O, !pow_1, !Rmult_1_l in H.
    change (bpow (-53)) with (ulp1 binary64). set (n := eta binary64) in *. assert (N0 : 0 < n) by apply eta_pos. assert (N1 : n <= ulp1 binary64).
    { unfold n, eta. change (ulp1 binary64) with (bpow (-53)). simpl f_emin. assert (bpow (-1074) <= bpow (-53)) by (apply bpow_le; lia). generalize (bpow_pos (-1074)). lra. }
    clear B1 E1 V S0 S1. set (u := ulp1 binary64) in *. set (kk := k 4) in *. clearbody kk n u. clear k.
    assert (UU : 0 <= u * u <= u * / 1000000) by (split; [nra|apply Rmult_le_compat_l; lra]).
    assert (C2 : 1 <= (1 + u) ^ 2 <= 1 + 3 * u) by (simpl pow; lra). set (c2 := (1 + u) ^ 2) in *. clearbody c2.
    set (a := exp (-1)) in *. set (b := exp (-4)) in *. clearbody a b.
    assert (W1 : (c2 - 1) * (3 * a + 2 * b) <= 3 * u * 5) by (apply Rle_trans with (3 * u * (3 * a + 2 * b)); [apply Rmult_le_compat_r; lra|apply Rmult_le_compat_l; lra]).
    assert (W2 : c2 * (5 * kk + 2 * n) <= c2 * (202 * u)) by (apply Rmult_le_compat_l; lra).
    assert (W3 : c2 * (202 * u) <= 101 / 100 * (202 * u)) by (apply Rmult_le_compat_r; lra).
    assert (W4 : c2 * (1 + u) <= 1 + 5 * u) by (apply Rle_trans with ((1 + 3 * u) * (1 + u)); [apply Rmult_le_compat_r; lra|lra]).
    assert (W5 : c2 * ((1 + u + n - (1 + u)) * (3 / 4) + 2 * n) <= 101 / 100 * (3 * u)) by (apply Rmult_le_compat; lra).
    set (E1 := (c2 - 1) * (3 * a + 2 * b) + c2 * (5 * kk + 2 * n)) in *. set (E2 := (c2 * (1 + u) - 1) * (1 / 2) + c2 * ((1 + u + n - (1 + u)) * (3 / 4) + 2 * n)) in *.
    assert (Y1 : E1 <= 220 * u) by (unfold E1; lra). assert (Y2 : E2 <= 6 * u) by (unfold E2; lra).
    assert (Y3 : (1 + u) * (E1 + E2) <= (1 + u) * (226 * u)) by (apply Rmult_le_compat_l; lra).
    assert (Y4 : Rabs (3 * a - 2 * b + 1 / 2) <= 4) by (apply Rabs_le; lra). assert (Y5 : u * Rabs (3 * a - 2 * b + 1 / 2) <= u * 4) by (apply Rmult_le_compat_l; lra). lra.
Qed.
