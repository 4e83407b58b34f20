(** Final statements about the radial basis surface in floating point far from
    its centres, and about its kernel matrix: C117, continued. *)
From Coq Require Import Reals Lra Lia List Arith ZArith Bool Permutation.
From Verif Require Import Prelude Py NumArr LinAlg Lsq M_Misc M_RespSurf M_Float M_FloatInt M_FloatPoly M_FloatRbf P_Misc P_Poly P_Rbf P_Float P_FloatCode P_FloatInt P_FloatPoly P_IndexSet Toy Properties_Float Properties_FloatInt Properties_FloatPoly Properties_FloatRbf Properties_FloatRbfGrad.
Import ListNotations.
Open Scope R_scope.

(** below half the least float the nearest float is 0 *)
Lemma rnd_tiny : forall F x, valid F -> 0 <= x < eta F -> rnd F x = 0.
Proof.
  intros F x V [H0 H1]. assert (N := rnd_nearest F V x 0 (fmt_0 F V)). rewrite Rminus_0_l, Rabs_Ropp, (Rabs_pos_eq x) in N by lra.
  assert (P := rnd_nonneg F x H0). destruct (rnd_fmt F V x) as (n & e & E & _ & He). rewrite E in *.
  assert (B := bpow_le (f_emin F) e He). assert (Be := bpow_pos e). unfold eta in H1.
  assert (L : IZR n * bpow e < bpow e) by (apply Rle_lt_trans with (x + x); [generalize (Rle_abs (IZR n * bpow e - x)); lra|lra]).
  assert (n < 1)%Z by (apply lt_IZR; apply Rmult_lt_reg_r with (bpow e); lra). assert (0 <= n)%Z by (apply le_IZR; apply Rmult_le_reg_r with (bpow e); lra).
  replace n with 0%Z by lia. ring.
Qed.

(** dot products with zeros *)
Lemma row_dot_zero : forall F dord r q w, row_dot_fl F dord r q (fun _ => 0) w = 0.
Proof.
  intros F dord r q w. destruct q as [|q]; [reflexivity|]. unfold row_dot_fl. induction (dord r (S q)) as [j|t IH j|u IHu v IHv]; cbn [dfl].
  - now rewrite Rmult_0_l, rnd_0.
  - now rewrite IH, Rmult_0_l, Rplus_0_r, rnd_0.
  - now rewrite IHu, IHv, Rplus_0_r, rnd_0.
Qed.

(** np.exp underflows where the exponential is below half the least float *)
Definition exp_underflows (F : format) (ex : R -> R) : Prop := forall z, z <= 0 -> exp z < eta F -> ex z = 0.
Lemma rnd_exp_underflows : forall F, valid F -> exp_underflows F (fun x => rnd F (exp x)).
Proof. intros F V z _ H. apply rnd_tiny; auto. generalize (exp_pos z). lra. Qed.

(** Where every centre is so far away that the exponentials underflow, the
    prediction is the one of the polynomial part alone. *)
Theorem C117_far : forall F ex pw pord eord kord dord e s p X M m T r, valid F -> exp_underflows F ex ->
  (forall r, dots_all (eord r)) -> (forall r, dots_all (dord r)) -> (forall r, dots_all (kord r)) -> shape X = [M; m] -> (1 <= m)%nat -> rbf_shape s T m -> pa_N p = rb_N s -> pa_weights p = rb_pw s ->
  (forall r j, (r < M)%nat -> (j < m)%nat -> fmt F (X.[r, j])) -> (forall a j, (a < T)%nat -> (j < m)%nat -> fmt F ((rb_X s).[a, j])) -> (forall k, (k < m)%nat -> 0 < (rb_ell s).[k, 0%nat]) ->
  (r < M)%nat -> (ddepth (eord r m) <= e)%nat ->
  (forall a, (a < T)%nat -> let x j := X.[r, j] in let y j := (rb_X s).[a, j] in let l j := (rb_ell s).[j, 0%nat] in
     exp (under F e m (spread m x y l) - (2 - (1 + ulp1 F) ^ (e + 4)) * sumf m (fun j => (x j - y j) * (x j - y j) * / l j)) < eta F) ->
  exists f' g, rbf_predict_fl F ex eord pw pord kord dord s X = Ok f' /\ poly_predict_fl F pw pord dord p X false = Ok (g, None) /\ f'.[r, 0%nat] = g.[r, 0%nat].
Proof.
  intros F ex pw pord eord kord dord e s p X M m T r V HE HDe HDd HDk HX Hm (S1 & S2 & S3 & S4) PN PW FX FY HL Hr He Hfar.
  destruct (index_set_ok (rb_N s) m Hm) as (II & EI).
  assert (LN := index_set_length (rb_N s) m Hm II EI). set (n := List.length II) in *. rewrite <- LN in S4.
  assert (EK : exists K', exponential_squared_fl F ex eord X (rb_X s) 1 (rb_ell s) = Ok K' /\ shape K' = [M; T] /\ forall a i, K'.[a, i] = rnd F (1 * ex (row_dot_fl F eord a m (fun k => rnd F (rnd F (X.[a, k] - (rb_X s).[i, k]) * rnd F (X.[a, k] - (rb_X s).[i, k]))) (fun k => rnd F (-1 / (rb_ell s).[k, 0%nat]))))).
  { unfold exponential_squared_fl, shape2. rewrite HX, S1. cbn [rbind]. unfold bdim. rewrite S2, !Nat.eqb_refl. cbn [negb]. rewrite andb_false_r.
    eexists. split; [reflexivity|]. split; [reflexivity|]. intros a i. rewrite at_mk2. apply (f_equal (fun z => rnd F (1 * ex z))). apply row_dot_ext; [auto|]. intros j Hj. now rewrite !(bidx_ok m j). }
  destruct EK as (K' & EK & SK & VK).
  set (B := mk2 M n (fun r i => power_prod_fl F pw pord X m (nth i II []) r)).
  assert (EB : polynomial_bases_fl F pw pord X (rb_N s) = Ok (B, II)) by (unfold polynomial_bases_fl, shape2; rewrite HX; cbn [rbind]; rewrite EI; reflexivity).
  exists (mk2 M 1 (fun r _ => rnd F (row_dot_fl F kord r T (fun i => K'.[r, i]) (fun i => (rb_rw s).[i, 0%nat]) + row_dot_fl F dord r n (fun i => B.[r, i]) (fun i => (rb_pw s).[i, 0%nat])))).
  exists (mk2 M 1 (fun r _ => row_dot_fl F dord r n (fun c => B.[r, c]) (fun c => (rb_pw s).[c, 0%nat]))). split.
  { unfold rbf_predict_fl. rewrite (process_inputs_eq _ X M m HX). cbn [rbind]. rewrite EK. cbn [rbind]. rewrite EB. cbn [rbind].
    rewrite (nrows_shape2 _ _ _ _ S3), (ncols_shape2 _ _ _ _ S3), (nrows_shape2 _ _ _ _ S4), (ncols_shape2 _ _ _ _ S4), (ncols_shape2 _ _ _ _ SK). change (ncols B) with n. rewrite !Nat.eqb_refl. reflexivity. }
  split.
  { unfold poly_predict_fl. rewrite (process_inputs_eq _ X M m HX). cbn [rbind]. rewrite PN, PW, EB. cbn [rbind]. rewrite (nrows_shape2 _ _ _ _ S4), (ncols_shape2 _ _ _ _ S4). change (ncols B) with n. rewrite !Nat.eqb_refl. reflexivity. }
  rewrite !at_mk2. replace (row_dot_fl F kord r T (fun i => K'.[r, i]) (fun i => (rb_rw s).[i, 0%nat])) with 0.
  - rewrite Rplus_0_l. apply fmt_fix; auto. apply row_dot_fmt; auto.
  - rewrite <- (row_dot_zero F kord r T (fun i => (rb_rw s).[i, 0%nat])). apply row_dot_ext; [auto|]. intros a Ha. split; [|reflexivity]. symmetry.
    rewrite VK. destruct (exponent_err F eord r m (fun k => X.[r, k]) (fun k => (rb_X s).[a, k]) (fun k => (rb_ell s).[k, 0%nat]) e V (HDe r) He) as (T0 & A0 & AE); [intros k Hk; auto|].
    specialize (Hfar a Ha). cbv beta zeta in *. set (A := row_dot_fl F eord r m _ _) in *. set (t := sumf m _) in *. set (tau := under _ _ _ _) in *.
    rewrite HE; [now rewrite Rmult_0_r, rnd_0|exact A0|]. eapply Rle_lt_trans; [|exact Hfar].
    assert (L : A <= tau - (2 - (1 + ulp1 F) ^ (e + 4)) * t) by (generalize (Rle_abs (A - - t)); lra).
    destruct L as [L|L]; [left; now apply exp_increasing|right; now rewrite L].
Qed.
Print Assumptions C117_far.

Lemma exp_below : forall n, exp (- INR n) <= bpow (- Z.of_nat n).
Proof.
  assert (H : exp (-1) <= / 2) by (change (-1) with (- (1)); rewrite exp_Ropp; apply Rinv_le_contravar; [lra|]; generalize (exp_ineq1_le 1); lra).
  induction n as [|n IH]; [cbn [INR]; rewrite Ropp_0, exp_0; change (- Z.of_nat 0)%Z with 0%Z; rewrite bpow_0; lra|].
  rewrite S_INR. replace (- (INR n + 1)) with (- INR n + -1) by ring. rewrite exp_plus.
  assert (E : bpow (- Z.of_nat n) = 2 * bpow (- Z.of_nat (S n))) by (rewrite <- bpow_S; f_equal; lia).
  assert (P := exp_pos (- INR n)). assert (Q := exp_pos (-1)). apply Rle_trans with (bpow (- Z.of_nat n) * / 2); [apply Rmult_le_compat; lra|lra].
Qed.

(** the surface of [C117_case] at 64: the exact value is below 1/2 + 64/4 *)
Example C117_far_case : exists f f', rbf_predict s117 (mat_of [[64]]) false = Ok (f, None) /\
  rbf_predict_fl binary64 (fun x => rnd binary64 (exp x)) (fun _ => dcomb) (fun x k => rnd binary64 (x ^ k)) comb (fun _ => dcomb) (fun _ => dcomb) s117 (mat_of [[64]]) = Ok f' /\
  f'.[0%nat, 0%nat] = 33 / 2 /\ f.[0%nat, 0%nat] <> 33 / 2.
Proof.
  assert (V := valid64).
  assert (U0 : 0 < ulp1 binary64) by apply ulp1_pos. assert (U1 : ulp1 binary64 <= / 1000000).
  { change (ulp1 binary64) with (bpow (-53)). apply Rle_trans with (bpow (-20)); [apply bpow_le; lia|]. change (-20)%Z with (- (20))%Z. unfold bpow. simpl. lra. }
  assert (N0 : 0 < eta binary64) by apply eta_pos. assert (N1 : eta binary64 <= ulp1 binary64).
  { unfold eta. change (ulp1 binary64) with (bpow (-53)). simpl f_emin. assert (bpow (-1074) <= bpow (-53)) by (apply bpow_le; lia). generalize (bpow_pos (-1074)). lra. }
  assert (B1 : forall z, bpow (z + 1) = 2 * bpow z) by (intros; apply bpow_S).
  assert (E2 : bpow (-2) = / 4) by (assert (Q := bpow_0); change 0%Z with (-2 + 1 + 1)%Z in Q; rewrite !B1 in Q; lra).
  assert (FZ : forall x z, x = IZR z * / 4 -> (Z.abs z <=? 2 ^ 53)%Z = true -> fmt binary64 x) by (intros x z -> Hz; apply (fmt_by _ z (-2)); [rewrite E2; ring|exact Hz|reflexivity]).
  set (u := ulp1 binary64) in *. assert (UU : 0 <= u * u <= u * / 1000000) by (split; [nra|apply Rmult_le_compat_l; lra]).
  assert (C5 : 1 <= (1 + u) ^ 5 <= 1 + 6 * u).
  { split; [apply pow_R1_Rle; lra|]. replace ((1 + u) ^ 5) with (1 + 5 * u + 10 * (u * u) + u * u * (10 * u + 5 * (u * u) + u * (u * u))) by ring.
    assert (u * (u * u) <= u * 1) by (apply Rmult_le_compat_l; lra). assert (u * u * (10 * u + 5 * (u * u) + u * (u * u)) <= u * u * 1) by (apply Rmult_le_compat_l; lra). lra. }
  assert (FAR : forall (x y l : nat -> R), spread 1 x y l <= 20000 -> 0 <= spread 1 x y l -> 15000 <= sumf 1 (fun j => (x j - y j) * (x j - y j) * / l j) ->
     exp (under binary64 1 1 (spread 1 x y l) - (2 - (1 + u) ^ (1 + 4)) * sumf 1 (fun j => (x j - y j) * (x j - y j) * / l j)) < eta binary64).
  { intros x y l HS H0 HT. set (T := spread 1 x y l) in *. set (t := sumf 1 _) in *. clearbody T t.
    assert (UN : under binary64 1 1 T <= 100).
    { unfold under. fold u. set (n := eta binary64) in *. change (INR 1) with 1. rewrite pow_1. 
      assert (NN : 0 <= n * n <= n * / 1000000) by (split; [nra|apply Rmult_le_compat_l; lra]). assert (UN : 0 <= u * n <= n * / 1000000) by (split; [nra|rewrite (Rmult_comm u); apply Rmult_le_compat_l; lra]).
      assert (D : 0 <= (1 + u + n) ^ 2 - (1 + u) ^ 2 <= / 100000) by (simpl pow; lra). assert (C2 : 1 <= (1 + u) ^ 2 <= 1 + 3 * u) by (simpl pow; lra).
      assert (D2 : 0 <= ((1 + u + n) ^ 2 - (1 + u) ^ 2) * (1 + u) ^ 2 <= / 100000 * 2) by (split; [apply Rmult_le_pos; lra|apply Rmult_le_compat; lra]).
      set (z := ((1 + u + n) ^ 2 - (1 + u) ^ 2) * (1 + u) ^ 2) in *. assert (D3 : 0 <= z * T <= / 100000 * 2 * 20000) by (split; [apply Rmult_le_pos; lra|apply Rmult_le_compat; lra]).
      apply Rle_trans with (2 * 2); [apply Rmult_le_compat; lra|lra]. }
    change (1 + 4)%nat with 5%nat. assert (W : (9 / 10) * t <= (2 - (1 + u) ^ 5) * t) by (apply Rmult_le_compat_r; lra).
    unfold eta. simpl f_emin. replace (bpow (-1074) / 2) with (bpow (-1075)) by (change (-1074)%Z with (-1075 + 1)%Z; rewrite B1; field).
    eapply Rlt_le_trans; [|apply (exp_below 1075)]. apply exp_increasing. rewrite INR_IZR_INZ. change (Z.of_nat 1075) with 1075%Z. lra. }
  set (X := mat_of [[64]]).
  assert (G : forall k, (k < 2)%nat -> (fun j => X.[0%nat, j]) 0%nat - (fun j => (rb_X s117).[k, j]) 0%nat = 64 - match k with O => 1 / 2 | _ => 1 end) by (intros [|[|k]] Hk; [reflexivity|reflexivity|lia]).
  destruct (C117_far binary64 (fun x => rnd binary64 (exp x)) (fun x k => rnd binary64 (x ^ k)) comb (fun _ => dcomb) (fun _ => dcomb) (fun _ => dcomb) 1 s117
    {| pa_N := 1; pa_X := mat_of [[0]]; pa_f := mat_of [[0]]; pa_weights := rb_pw s117; pa_Rsqr := Fin 1; pa_g := mat_of [[0]]; pa_H := None |} X 1 1 2 0 V (rnd_exp_underflows _ V)) as (f' & g & Q1 & Q2 & Q3).
  - intros _; exact dcomb_all.
  - intros _; exact dcomb_all.
  - intros _; exact dcomb_all.
  - reflexivity.
  - lia.
  - repeat split.
  - reflexivity.
  - reflexivity.
  - intros r j Hr Hj. replace r with 0%nat by lia. replace j with 0%nat by lia. apply (FZ _ 256%Z); [cbn; lra|reflexivity].
  - intros r j Hr Hj. replace j with 0%nat by lia. destruct r as [|[|r]]; [| |lia].
    + apply (FZ _ 2%Z); [cbn; lra|reflexivity].
    + apply (FZ _ 4%Z); [cbn; lra|reflexivity].
  - intros k Hk. replace k with 0%nat by lia. cbn. lra.
  - lia.
  - cbn. lia.
  - intros a Ha. cbv zeta. apply FAR.
    + unfold spread. cbn [sumf]. rewrite (G a Ha). cbn. destruct a as [|[|a]]; [| |lia]; rewrite Rabs_pos_eq, (Rmax_right 1 (64 - _)), (Rmax_right 1 (/ (1 / 4))) by lra; lra.
    + unfold spread. apply sumf_nonneg. intros j _. apply Rmult_le_pos; [apply pow_le; generalize (Rmax_l 1 (Rabs (X.[0%nat, j] - (rb_X s117).[a, j]))); lra|]. generalize (Rmax_l 1 (/ (rb_ell s117).[j, 0%nat])). lra.
    + cbn [sumf]. rewrite (G a Ha). cbn. destruct a as [|[|a]]; [| |lia]; lra.
  - destruct (rbf_predict_ok s117 X 1 1 2 false eq_refl ltac:(lia)) as (L & f & EL & _ & Vf & _ & Ef & _). { repeat split. }
    assert (L = [[0]; [1]]%nat) by (injection EL as <-; reflexivity). subst L. exists f, f'. split; [exact Ef|]. split; [exact Q1|]. split.
    + rewrite Q3. injection Q2 as <-. cbn. rewrite !Rmult_1_r, ?Rmult_1_l.
      rewrite (rnd_1 _ V), (fmt_fix _ V 64) by (apply (FZ _ 256%Z); [lra|reflexivity]). rewrite ?Rmult_1_l, (fmt_fix _ V (1 / 2)) by (apply (FZ _ 2%Z); [lra|reflexivity]).
      replace (64 * (1 / 4)) with 16 by field. rewrite (fmt_fix _ V 16) by (apply (FZ _ 64%Z); [lra|reflexivity]). replace (1 / 2 + 16) with (33 / 2) by field. apply fmt_fix; auto. apply (FZ _ 66%Z); [lra|reflexivity].
    + rewrite (Vf 0%nat ltac:(lia)). unfold rbf_eval, poly_eval, gauss, mono. cbn [sumf]. cbn.
      match goal with |- 0 + exp ?a * 3 + exp ?b * -2 + ?z <> _ => assert (LT : exp b = exp a * exp 253) by (rewrite <- exp_plus; f_equal; field); assert (P := exp_pos a); replace z with (33 / 2) by field; rewrite LT end.
      assert (Q := exp_ineq1_le 253). match goal with |- 0 + ?v * 3 + _ + _ <> _ => assert (v * 254 <= v * exp 253) by (apply Rmult_le_compat_l; lra) end. lra.
Qed.

(** The kernel matrix of a set of points, as train computes it: symmetric with
    sigma on the diagonal and entries between 0 and sigma, provided np.dot adds
    in the same order in every row. *)
Theorem C117_training_matrix : forall F ex eord X sigma ell M m, valid F -> (forall a b, eord a = eord b) -> (forall a, dots_all (eord a)) ->
  ex 0 = 1 -> (forall z, fmt F z -> z <= 0 -> 0 <= ex z <= 1) -> shape X = [M; m] -> size ell = m -> fmt F sigma -> 0 <= sigma ->
  (forall a k, (a < M)%nat -> (k < m)%nat -> fmt F (X.[a, k])) -> (forall k, (k < m)%nat -> 0 < ell.[k, 0%nat]) ->
  exists K', exponential_squared_fl F ex eord X X sigma ell = Ok K' /\ shape K' = [M; M] /\
    forall a i, (a < M)%nat -> (i < M)%nat -> K'.[a, i] = K'.[i, a] /\ K'.[a, a] = sigma /\ 0 <= K'.[a, i] <= sigma.
Proof.
  intros F ex eord X sigma ell M m V HO HD E0 EU HX HL FS S0 FX LP.
  set (A := fun a i => row_dot_fl F eord a m (fun k => rnd F (rnd F (X.[a, k] - X.[i, k]) * rnd F (X.[a, k] - X.[i, k]))) (fun k => rnd F (-1 / ell.[k, 0%nat]))).
  assert (EK : exists K', exponential_squared_fl F ex eord X X sigma ell = Ok K' /\ shape K' = [M; M] /\ forall a i, K'.[a, i] = rnd F (sigma * ex (A a i))).
  { unfold exponential_squared_fl, shape2. rewrite HX. cbn [rbind]. unfold bdim. rewrite HL, !Nat.eqb_refl. cbn [negb]. rewrite andb_false_r.
    eexists. split; [reflexivity|]. split; [reflexivity|]. intros a i. rewrite at_mk2. apply (f_equal (fun z => rnd F (sigma * ex z))). apply row_dot_ext; [auto|]. intros j Hj. now rewrite !(bidx_ok m j). }
  destruct EK as (K' & EK & SK & VK). exists K'. split; [exact EK|]. split; [exact SK|]. intros a i Ha Hi. rewrite !VK.
  assert (SY : A a i = A i a).
  { unfold A. transitivity (row_dot_fl F eord i m (fun k => rnd F (rnd F (X.[a, k] - X.[i, k]) * rnd F (X.[a, k] - X.[i, k]))) (fun k => rnd F (-1 / ell.[k, 0%nat]))).
    - unfold row_dot_fl. now rewrite (HO a i).
    - apply row_dot_ext; [auto|]. intros j _. split; [|reflexivity]. replace (X.[a, j] - X.[i, j]) with (- (X.[i, j] - X.[a, j])) by ring. rewrite rnd_opp, Rmult_opp_opp. reflexivity. }
  assert (DG : A a a = 0).
  { rewrite <- (row_dot_zero F eord a m (fun k => rnd F (-1 / ell.[k, 0%nat]))). apply row_dot_ext; [auto|]. intros j _. split; [|reflexivity]. now rewrite Rminus_eq_0, rnd_0, Rmult_0_l, rnd_0. }
  split; [now rewrite SY|]. split; [now rewrite DG, E0, Rmult_1_r, (fmt_fix F V sigma FS)|].
  destruct (exponent_err F eord a m (fun k => X.[a, k]) (fun k => X.[i, k]) (fun k => ell.[k, 0%nat]) (ddepth (eord a m)) V (HD a) ltac:(lia)) as (_ & A0 & _); [intros k Hk; auto|]. cbv beta in A0. fold (A a i) in A0.
  assert (FA : fmt F (A a i)) by (apply row_dot_fmt; auto). destruct (EU (A a i) FA A0) as [P1 P2]. split.
  - apply rnd_nonneg. now apply Rmult_le_pos.
  - rewrite <- (fmt_fix F V sigma FS) at 2. apply rnd_mono; auto. rewrite <- (Rmult_1_r sigma) at 2. apply Rmult_le_compat_l; auto.
Qed.
Print Assumptions C117_training_matrix.

(** three points of the plane in binary64 *)
Example C117_training_matrix_case : exists K', exponential_squared_fl binary64 (fun x => rnd binary64 (exp x)) (fun _ => dcomb) (mat_of [[0; 1]; [1/4; 3]; [-2; 1/2]]) (mat_of [[0; 1]; [1/4; 3]; [-2; 1/2]]) 2 (mat_of [[1/3]; [5]]) = Ok K' /\
  K'.[0%nat, 1%nat] = K'.[1%nat, 0%nat] /\ K'.[1%nat, 2%nat] = K'.[2%nat, 1%nat] /\ K'.[2%nat, 2%nat] = 2 /\ 0 <= K'.[0%nat, 1%nat] <= 2.
Proof.
  assert (V := valid64). assert (B1 : forall z, bpow (z + 1) = 2 * bpow z) by (intros; apply bpow_S).
  assert (E2 : bpow (-2) = / 4) by (assert (Q := bpow_0); change 0%Z with (-2 + 1 + 1)%Z in Q; rewrite !B1 in Q; lra).
  assert (FZ : forall x z, x = IZR z * / 4 -> (Z.abs z <=? 2 ^ 53)%Z = true -> fmt binary64 x) by (intros x z -> Hz; apply (fmt_by _ z (-2)); [rewrite E2; ring|exact Hz|reflexivity]).
  destruct (C117_training_matrix binary64 (fun x => rnd binary64 (exp x)) (fun _ => dcomb) (mat_of [[0; 1]; [1/4; 3]; [-2; 1/2]]) 2 (mat_of [[1/3]; [5]]) 3 2 V) as (K' & Q1 & _ & Q).
  - reflexivity.
  - intros _; exact dcomb_all.
  - rewrite exp_0. now apply rnd_1.
  - intros z _ Hz. destruct (exp_neg_unit z Hz). split; [apply rnd_nonneg; lra|]. rewrite <- (rnd_1 binary64 V). now apply rnd_mono.
  - reflexivity.
  - reflexivity.
  - apply (FZ _ 8%Z); [lra|reflexivity].
  - lra.
  - intros a k Ha Hk. destruct a as [|[|[|a]]]; [| | |lia]; (destruct k as [|[|k]]; [| |lia]).
    + apply (FZ _ 0%Z); [cbn; lra|reflexivity].
    + apply (FZ _ 4%Z); [cbn; lra|reflexivity].
    + apply (FZ _ 1%Z); [cbn; lra|reflexivity].
    + apply (FZ _ 12%Z); [cbn; lra|reflexivity].
    + apply (FZ _ (-8)%Z); [cbn; lra|reflexivity].
    + apply (FZ _ 2%Z); [cbn; lra|reflexivity].
  - intros k Hk. destruct k as [|[|k]]; [| |lia]; cbn; lra.
  - exists K'. split; [exact Q1|]. split; [apply Q; lia|]. split; [apply Q; lia|]. split; [apply (Q 2%nat 2%nat); lia|]. apply Q; lia.
Qed.
