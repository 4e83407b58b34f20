(** Final statements about polynomial surfaces in floating point: C116. *)
From Coq Require Import Reals Lra Lia List Arith ZArith Bool Permutation.
From Verif Require Import Prelude Py NumArr LinAlg Lsq M_Misc M_RespSurf M_Float M_FloatInt M_FloatPoly P_Misc P_Poly P_Float P_FloatCode P_FloatInt P_FloatPoly P_IndexSet Toy Properties_Float Properties_FloatInt.
Import ListNotations.
Open Scope R_scope.

(** ** C116 *)
(** np.power: a float with relative error at most d, or an underflow; glibc
    promises less than one unit in the last place (d = 2 u) *)
Definition pow_close (F : format) (d : R) (pw : R -> nat -> R) : Prop :=
  forall x k, fmt F x -> fmt F (pw x k) /\ Rabs (pw x k - x ^ k) <= d * Rabs (x ^ k) + eta F.

(** the size of a monomial of m variables, and the same with no factor below one *)
Definition msize (m : nat) (x : nat -> R) (al : list nat) : R := prodf m (fun j => Rabs (x j) ^ nth j al 0%nat).
Definition mmajor (m : nat) (x : nat -> R) (al : list nat) : R := prodf m (fun j => Rmax 1 (Rabs (x j) ^ nth j al 0%nat)).

(** what m powers and m - 1 products can add: relatively, and with underflow *)
Definition gain (F : format) (d : R) (m : nat) : R := (1 + ulp1 F) ^ (m - 1) * (1 + d) ^ m.
Definition gain_under (F : format) (d : R) (m : nat) : R := (1 + ulp1 F + eta F) ^ (m - 1) * (1 + d + eta F) ^ m.

Lemma power_prod_near : forall F d pw pord X m al r, 0 <= d -> pow_close F d pw -> adds_all pord -> (1 <= m)%nat -> (forall j, (j < m)%nat -> fmt F (X.[r, j])) ->
  Rabs (power_prod_fl F pw pord X m al r - power_prod X m al r) <=
    (gain F d m - 1) * msize m (fun j => X.[r, j]) al + (gain_under F d m - gain F d m) * mmajor m (fun j => X.[r, j]) al.
Proof.
  intros F d pw pord X m al r D HP HO Hm HX. assert (PL := HO m Hm). unfold power_prod_fl.
  destruct (pfl_err F d (pord m) (fun j => pw (X.[r, j]) (nth j al 0%nat)) (fun j => X.[r, j] ^ nth j al 0%nat) (fun j => Rmax 1 (Rabs (X.[r, j]) ^ nth j al 0%nat)) D) as (N & _).
  - intros j Hj. apply (Permutation_in j PL) in Hj. apply in_seq in Hj. rewrite RPow_abs. split; [apply Rmax_l|]. split; [apply Rmax_r|].
    destruct (HP (X.[r, j]) (nth j al 0%nat) (HX j ltac:(lia))) as [_ E]. unfold near_to.
    assert (M := Rmax_l 1 (Rabs (X.[r, j] ^ nth j al 0%nat))). assert (P := eta_pos F).
    assert (eta F * 1 <= eta F * Rmax 1 (Rabs (X.[r, j] ^ nth j al 0%nat))) by (apply Rmult_le_compat_l; lra). lra.
  - unfold near_to in N. rewrite !(prodl_perm_seq _ _ m PL), (Permutation_length PL), seq_length in N.
    rewrite prodf_abs in N. rewrite (prodf_ext m (fun i => Rabs (X.[r, i] ^ nth i al 0%nat)) (fun i => Rabs (X.[r, i]) ^ nth i al 0%nat)) in N by (intros; symmetry; apply RPow_abs).
    exact N.
Qed.

Lemma row_dot_err : forall F dord r q a b w E e, valid F -> dots_all (dord r) -> (ddepth (dord r q) <= e)%nat -> (forall i, (i < q)%nat -> Rabs (a i - b i) <= E i) ->
  let c := 1 + ulp1 F in
  Rabs (row_dot_fl F dord r q a w - sumf q (fun i => b i * w i)) <=
    (c ^ e - 1) * sumf q (fun i => Rabs (b i) * Rabs (w i)) + c ^ e * (sumf q (fun i => E i * Rabs (w i)) + INR q * eta F).
Proof.
  intros F dord r q a b w E e V HD He HE c. assert (U := ulp1_pos F). assert (P := eta_pos F).
  destruct (Nat.eq_dec q 0) as [->|Hq]. { cbn [row_dot_fl sumf INR]. rewrite Rminus_0_r, Rabs_R0. right; ring. }
  assert (PL := HD q ltac:(lia)). replace (row_dot_fl F dord r q a w) with (dfl F (dord r q) a w) by (destruct q; [lia|reflexivity]).
  assert (DE := dfl_err F V (dord r q) a w). cbv zeta in DE. rewrite !(sumr_perm_seq _ _ _ PL), (Permutation_length PL), seq_length in DE.
  fold c in DE. assert (G : c ^ ddepth (dord r q) <= c ^ e) by (apply Rle_pow; auto; unfold c; lra). assert (G0 : 1 <= c ^ ddepth (dord r q)) by (apply pow_R1_Rle; unfold c; lra).
  set (g0 := c ^ ddepth (dord r q)) in *. set (g := c ^ e) in *.
  set (S1 := sumf q (fun i => a i * w i)) in *. set (A1 := sumf q (fun i => Rabs (a i * w i))) in *. set (A2 := sumf q (fun i => Rabs (b i) * Rabs (w i))). set (A3 := sumf q (fun i => E i * Rabs (w i))).
  assert (X1 : Rabs (S1 - sumf q (fun i => b i * w i)) <= A3).
  { unfold S1. rewrite <- sumf_minus. eapply Rle_trans; [apply sumf_abs|]. apply sumf_le. intros i Hi. replace (a i * w i - b i * w i) with ((a i - b i) * w i) by ring.
    rewrite Rabs_mult. apply Rmult_le_compat_r; auto. apply Rabs_pos. }
  assert (X2 : 0 <= A1 <= A2 + A3).
  { split; [apply sumf_nonneg; intros; apply Rabs_pos|]. unfold A1, A2, A3. rewrite <- sumf_plus. apply sumf_le. intros i Hi. rewrite Rabs_mult, <- Rmult_plus_distr_r. apply Rmult_le_compat_r; [apply Rabs_pos|].
    replace (a i) with (b i + (a i - b i)) by ring. apply Rle_trans with (1 := Rabs_triang _ _). generalize (HE i Hi). lra. }
  assert (Q0 : 0 <= INR q) by apply pos_INR.
  replace (dfl F (dord r q) a w - sumf q (fun i => b i * w i)) with ((dfl F (dord r q) a w - S1) + (S1 - sumf q (fun i => b i * w i))) by ring. apply Rle_trans with (1 := Rabs_triang _ _).
  assert (Y1 : (g0 - 1) * A1 <= (g - 1) * (A2 + A3)) by (apply Rmult_le_compat; lra).
  assert (Y2 : g0 * INR q * eta F <= g * INR q * eta F) by (apply Rmult_le_compat_r; [lra|]; apply Rmult_le_compat_r; auto).
  lra.
Qed.

Lemma row_dot_fmt : forall F dord r q a w, valid F -> fmt F (row_dot_fl F dord r q a w).
Proof. intros F dord r q a w V. unfold row_dot_fl. destruct q; [apply fmt_0; auto|apply dfl_fmt; auto]. Qed.

(** predict in floating point returns whenever predict does, with values and
    gradients as close as the powers, the products and the depth of the sums allow *)
Theorem C116_predict : forall F d pw pord dord e s X M m II, valid F -> 0 <= d -> pow_close F d pw -> adds_all pord -> (forall r, dots_all (dord r)) ->
  shape X = [M; m] -> (1 <= m)%nat -> (forall r j, (r < M)%nat -> (j < m)%nat -> fmt F (X.[r, j])) ->
  index_set (pa_N s) m = Ok II -> shape (pa_weights s) = [List.length II; 1%nat] -> (forall r, (r < M)%nat -> (ddepth (dord r (List.length II)) <= e)%nat) ->
  exists f df f' df', poly_predict s X true = Ok (f, Some df) /\ poly_predict s X false = Ok (f, None) /\
    poly_predict_fl F pw pord dord s X true = Ok (f', Some df') /\ poly_predict_fl F pw pord dord s X false = Ok (f', None) /\
    shape f = [M; 1%nat] /\ shape f' = [M; 1%nat] /\ shape df = [M; m] /\ shape df' = [M; m] /\
    let c := 1 + ulp1 F in
    let g := gain F d m in
    let h := gain_under F d m in
    let n := List.length II in
    let w i := Rabs ((pa_weights s).[i, 0%nat]) in
    forall r, (r < M)%nat -> fmt F (f'.[r, 0%nat]) /\
      Rabs (f'.[r, 0%nat] - f.[r, 0%nat]) <=
        (c ^ e * g - 1) * sumf n (fun i => w i * msize m (fun j => X.[r, j]) (nth i II [])) +
        c ^ e * ((h - g) * sumf n (fun i => w i * mmajor m (fun j => X.[r, j]) (nth i II [])) + INR n * eta F) /\
      forall k, (k < m)%nat -> fmt F (df'.[r, k]) /\
        let deg i := INR (nth k (nth i II []) 0%nat) in
        Rabs (df'.[r, k] - df.[r, k]) <=
          (c ^ (e + 1) * g - 1) * sumf n (fun i => w i * (deg i * msize m (fun j => X.[r, j]) (dec_at k (nth i II [])))) +
          c ^ e * (c * (h - g) * sumf n (fun i => w i * (deg i * mmajor m (fun j => X.[r, j]) (dec_at k (nth i II [])))) + (sumf n w + INR n) * eta F).
Proof.
  intros F d pw pord dord e s X M m II V D HP HO HD HX Hm FX EI HW He.
  set (wt := pa_weights s) in *. set (n := List.length II) in *.
  assert (PB : polynomial_bases X (pa_N s) = Ok (mk2 M n (fun r i => power_prod X m (nth i II []) r), II)) by (unfold polynomial_bases, shape2; rewrite HX; cbn [rbind]; rewrite EI; reflexivity).
  assert (PF : polynomial_bases_fl F pw pord X (pa_N s) = Ok (mk2 M n (fun r i => power_prod_fl F pw pord X m (nth i II []) r), II)) by (unfold polynomial_bases_fl, shape2; rewrite HX; cbn [rbind]; rewrite EI; reflexivity).
  exists (mk2 M 1 (fun r j => sumf n (fun l => power_prod X m (nth l II []) r * wt.[l, j]))).
  exists (mk2 M m (fun r k => sumf n (fun l => (let indk := nth k (nth l II []) 0%nat in if Nat.eqb indk 0 then 0 else INR indk * power_prod X m (dec_at k (nth l II [])) r) * wt.[l, 0%nat]))).
  exists (mk2 M 1 (fun r _ => row_dot_fl F dord r n (fun l => power_prod_fl F pw pord X m (nth l II []) r) (fun l => wt.[l, 0%nat]))).
  exists (mk2 M m (fun r k => row_dot_fl F dord r n (fun l => let indk := nth k (nth l II []) 0%nat in if Nat.eqb indk 0 then 0 else rnd F (INR indk * power_prod_fl F pw pord X m (dec_at k (nth l II [])) r)) (fun l => wt.[l, 0%nat]))).
  assert (E1 : forall b, poly_predict s X b = if b then Ok (mk2 M 1 (fun r j => sumf n (fun l => power_prod X m (nth l II []) r * wt.[l, j])),
      Some (mk2 M m (fun r k => sumf n (fun l => (let indk := nth k (nth l II []) 0%nat in if Nat.eqb indk 0 then 0 else INR indk * power_prod X m (dec_at k (nth l II [])) r) * wt.[l, 0%nat]))))
      else Ok (mk2 M 1 (fun r j => sumf n (fun l => power_prod X m (nth l II []) r * wt.[l, j])), None)).
  { intros b. unfold poly_predict. rewrite (process_inputs_eq _ X M m HX). cbn [rbind]. rewrite PB. cbn [rbind]. unfold mdot. fold wt. rewrite HW. cbn [shape mk2]. rewrite Nat.eqb_refl. cbn [rbind].
    match goal with |- context [reshape [M; 1%nat] ?q] => change (reshape [M; 1%nat] q) with (reshape (shape q) q); rewrite reshape_id end. cbn [rbind].
    destruct b; [|reflexivity]. unfold grad_polynomial_bases, shape2. rewrite HX. cbn [rbind]. rewrite EI. cbn [rbind]. rewrite (nrows_shape2 _ _ _ _ HW).
    change (ncols (mk3 M n m _)) with n. fold n. rewrite Nat.eqb_refl. reflexivity. }
  assert (E2 : forall b, poly_predict_fl F pw pord dord s X b = if b then Ok (mk2 M 1 (fun r _ => row_dot_fl F dord r n (fun l => power_prod_fl F pw pord X m (nth l II []) r) (fun l => wt.[l, 0%nat])),
      Some (mk2 M m (fun r k => row_dot_fl F dord r n (fun l => let indk := nth k (nth l II []) 0%nat in if Nat.eqb indk 0 then 0 else rnd F (INR indk * power_prod_fl F pw pord X m (dec_at k (nth l II [])) r)) (fun l => wt.[l, 0%nat]))))
      else Ok (mk2 M 1 (fun r _ => row_dot_fl F dord r n (fun l => power_prod_fl F pw pord X m (nth l II []) r) (fun l => wt.[l, 0%nat])), None)).
  { intros b. unfold poly_predict_fl. rewrite (process_inputs_eq _ X M m HX). cbn [rbind]. rewrite PF. cbn [rbind]. fold wt. rewrite (nrows_shape2 _ _ _ _ HW), (ncols_shape2 _ _ _ _ HW).
    change (ncols (mk2 M n _)) with n. rewrite Nat.eqb_refl. cbn [andb negb Nat.eqb].
    destruct b; [|reflexivity]. unfold grad_polynomial_bases_fl, shape2. rewrite HX. cbn [rbind]. rewrite EI. reflexivity. }
  split; [exact (E1 true)|]. split; [exact (E1 false)|]. split; [exact (E2 true)|]. split; [exact (E2 false)|]. do 4 (split; [reflexivity|]). clear E1 E2 PB PF.
  intros c g h n0 w r Hr. subst n0. assert (U := ulp1_pos F). assert (Pe := eta_pos F). assert (GH : 1 <= g <= h) by (apply (Gp_Hp F d m D)).
  assert (Ce : 1 <= c ^ e) by (apply pow_R1_Rle; unfold c; lra).
  assert (PP : forall al, Rabs (power_prod_fl F pw pord X m al r - power_prod X m al r) <= (g - 1) * msize m (fun j => X.[r, j]) al + (h - g) * mmajor m (fun j => X.[r, j]) al)
    by (intros al; apply power_prod_near; auto).
  assert (PA : forall al, Rabs (power_prod X m al r) = msize m (fun j => X.[r, j]) al).
  { intros al. unfold power_prod, msize. rewrite prodf_abs. apply prodf_ext. intros; symmetry; apply RPow_abs. }
  split; [rewrite at_mk2; apply row_dot_fmt; auto|]. split.
  - rewrite !at_mk2. eapply Rle_trans; [apply (row_dot_err F dord r n (fun l => power_prod_fl F pw pord X m (nth l II []) r) (fun l => power_prod X m (nth l II []) r) (fun l => wt.[l, 0%nat]) (fun i => (g - 1) * msize m (fun j => X.[r, j]) (nth i II []) + (h - g) * mmajor m (fun j => X.[r, j]) (nth i II [])) e V (HD r) (He r Hr) (fun i _ => PP (nth i II [])))|]. cbv beta. fold c.
    rewrite (sumf_ext n (fun i => Rabs (power_prod X m (nth i II []) r) * Rabs (wt.[i, 0%nat])) (fun i => w i * msize m (fun j => X.[r, j]) (nth i II []))) by (intros i _; rewrite PA; unfold w; ring).
    rewrite (sumf_ext n (fun i => ((g - 1) * msize m (fun j => X.[r, j]) (nth i II []) + (h - g) * mmajor m (fun j => X.[r, j]) (nth i II [])) * Rabs (wt.[i, 0%nat]))
      (fun i => (g - 1) * (w i * msize m (fun j => X.[r, j]) (nth i II [])) + (h - g) * (w i * mmajor m (fun j => X.[r, j]) (nth i II [])))) by (intros i _; unfold w; ring).
    rewrite sumf_plus, !sumf_scal_l. right. ring.
  - intros k Hk. split; [rewrite at_mk2; apply row_dot_fmt; auto|]. intros deg. rewrite !at_mk2.
    set (MS := fun i => msize m (fun j => X.[r, j]) (dec_at k (nth i II []))). set (MM := fun i => mmajor m (fun j => X.[r, j]) (dec_at k (nth i II []))).
    set (b := fun l => let indk := nth k (nth l II []) 0%nat in if Nat.eqb indk 0 then 0 else INR indk * power_prod X m (dec_at k (nth l II [])) r).
    assert (Bb : forall i, b i = deg i * power_prod X m (dec_at k (nth i II [])) r).
    { intros i. unfold b, deg. cbv zeta. destruct (Nat.eqb_spec (nth k (nth i II []) 0%nat) 0) as [->|_]; [cbn [INR]; ring|reflexivity]. }
    assert (D0 : forall i, 0 <= deg i) by (intros; apply pos_INR).
    assert (MS0 : forall i, 0 <= MS i) by (intros i; unfold MS; rewrite <- PA; apply Rabs_pos).
    assert (MM1 : forall i, 1 <= MM i) by (intros i; apply prodf_ge1; intros; apply Rmax_l).
    eapply Rle_trans; [apply (row_dot_err F dord r n _ b (fun l => wt.[l, 0%nat]) (fun i => (c * g - 1) * (deg i * MS i) + c * (h - g) * (deg i * MM i) + eta F) e V (HD r) (He r Hr))|].
    + intros i Hi. rewrite Bb. cbv zeta. fold (deg i). destruct (Nat.eqb_spec (nth k (nth i II []) 0%nat) 0) as [Z|Z].
      * assert (Ez : deg i = 0) by (unfold deg; now rewrite Z). rewrite Ez, Rmult_0_l, Rminus_0_r, Rabs_R0. lra.
      * assert (Q := PP (dec_at k (nth i II []))). fold (MS i) (MM i) in Q. set (a := power_prod_fl F pw pord X m (dec_at k (nth i II [])) r) in *. set (p := power_prod X m (dec_at k (nth i II [])) r) in *.
        assert (Ap : Rabs p = MS i) by apply PA. assert (R := rnd_err F (deg i * a)).
        assert (Q1 : Rabs (deg i * a - deg i * p) <= deg i * ((g - 1) * MS i + (h - g) * MM i)).
        { replace (deg i * a - deg i * p) with (deg i * (a - p)) by ring. rewrite Rabs_mult, (Rabs_pos_eq (deg i)) by auto. apply Rmult_le_compat_l; auto. }
        assert (Q2 : Rabs (deg i * a) <= deg i * MS i + deg i * ((g - 1) * MS i + (h - g) * MM i)).
        { replace (deg i * a) with (deg i * p + (deg i * a - deg i * p)) by ring. apply Rle_trans with (1 := Rabs_triang _ _). rewrite Rabs_mult, (Rabs_pos_eq (deg i)), Ap by auto. lra. }
        assert (Q3 : ulp1 F * Rabs (deg i * a) <= ulp1 F * (deg i * MS i + deg i * ((g - 1) * MS i + (h - g) * MM i))) by (apply Rmult_le_compat_l; lra).
        replace (rnd F (deg i * a) - deg i * p) with ((rnd F (deg i * a) - deg i * a) + (deg i * a - deg i * p)) by ring. apply Rle_trans with (1 := Rabs_triang _ _).
        unfold c. lra.
    + fold c.
      rewrite (sumf_ext n (fun i => Rabs (b i) * Rabs (wt.[i, 0%nat])) (fun i => w i * (deg i * MS i))) by (intros i _; rewrite Bb, Rabs_mult, PA, (Rabs_pos_eq (deg i)) by auto; unfold w, MS; ring).
      rewrite (sumf_ext n (fun i => ((c * g - 1) * (deg i * MS i) + c * (h - g) * (deg i * MM i) + eta F) * Rabs (wt.[i, 0%nat]))
        (fun i => (c * g - 1) * (w i * (deg i * MS i)) + c * (h - g) * (w i * (deg i * MM i)) + eta F * w i)) by (intros i _; unfold w; ring).
      rewrite !sumf_plus, !sumf_scal_l. rewrite pow_add, pow_1. right. unfold MS, MM. ring.
Qed.
Print Assumptions C116_predict.

(** the nearest floats to the powers *)
Lemma rnd_pow_close : forall F, valid F -> pow_close F (ulp1 F) (fun x k => rnd F (x ^ k)).
Proof. intros F V x k _. split; [apply rnd_fmt; auto|apply rnd_err]. Qed.

(** In the cube [-1,1]^m, the error is a multiple of the sum of the |weights|. *)
Theorem C116_unit_cube : forall F d pw pord dord e s X M m II, valid F -> 0 <= d -> pow_close F d pw -> adds_all pord -> (forall r, dots_all (dord r)) ->
  shape X = [M; m] -> (1 <= m)%nat -> (forall r j, (r < M)%nat -> (j < m)%nat -> fmt F (X.[r, j]) /\ Rabs (X.[r, j]) <= 1) ->
  index_set (pa_N s) m = Ok II -> shape (pa_weights s) = [List.length II; 1%nat] -> (forall r, (r < M)%nat -> (ddepth (dord r (List.length II)) <= e)%nat) ->
  exists f df f' df', poly_predict s X true = Ok (f, Some df) /\ poly_predict_fl F pw pord dord s X true = Ok (f', Some df') /\
    let c := 1 + ulp1 F in
    let h := gain_under F d m in
    let n := INR (List.length II) in
    let w := sumf (List.length II) (fun i => Rabs ((pa_weights s).[i, 0%nat])) in
    forall r, (r < M)%nat -> Rabs (f'.[r, 0%nat] - f.[r, 0%nat]) <= (c ^ e * h - 1) * w + c ^ e * n * eta F /\
      forall k, (k < m)%nat -> Rabs (df'.[r, k] - df.[r, k]) <= (c ^ (e + 1) * h - 1) * (INR (pa_N s) * w) + c ^ e * (w + n) * eta F.
Proof.
  intros F d pw pord dord e s X M m II V D HP HO HD HX Hm FX EI HW He.
  destruct (C116_predict F d pw pord dord e s X M m II V D HP HO HD HX Hm (fun r j a b => proj1 (FX r j a b)) EI HW He) as (f & df & f' & df' & E1 & _ & E2 & _ & _ & _ & _ & _ & Q).
  exists f, df, f', df'. split; [exact E1|]. split; [exact E2|]. intros c h n w r Hr. destruct (Q r Hr) as (_ & Q1 & Q2). clear Q. fold c h in Q1, Q2. cbv zeta in Q1, Q2.
  assert (U := ulp1_pos F). assert (Pe := eta_pos F). set (g := gain F d m) in *. assert (GH : 1 <= g <= h) by (apply (Gp_Hp F d m D)). assert (Ce : 1 <= c ^ e) by (apply pow_R1_Rle; unfold c; lra).
  assert (PW : forall j k, (j < m)%nat -> 0 <= Rabs (X.[r, j]) ^ k <= 1).
  { intros j k Hj. assert (L := proj2 (FX r j Hr Hj)). assert (P := Rabs_pos (X.[r, j])). split; [now apply pow_le|]. rewrite <- (pow1 k). apply pow_incr. lra. }
  assert (MS : forall al, 0 <= msize m (fun j => X.[r, j]) al <= 1).
  { intros al. unfold msize. clear - PW. assert (G : forall p, (p <= m)%nat -> 0 <= prodf p (fun j => Rabs (X.[r, j]) ^ nth j al 0%nat) <= 1); [|apply G; lia].
    induction p as [|p IH]; intros Hp; cbn [prodf]; [lra|]. specialize (IH ltac:(lia)). generalize (PW p (nth p al 0%nat) ltac:(lia)). nra. }
  assert (MM : forall al, mmajor m (fun j => X.[r, j]) al = 1).
  { intros al. unfold mmajor. rewrite (prodf_ext m _ (fun _ => 1)); [apply prodf_one|]. intros j Hj. apply Rmax_left. now apply PW. }
  assert (W0 : forall i, 0 <= Rabs ((pa_weights s).[i, 0%nat])) by (intros; apply Rabs_pos).
  split.
  - eapply Rle_trans; [exact Q1|]. rewrite (sumf_ext _ (fun i => Rabs ((pa_weights s).[i, 0%nat]) * mmajor m (fun j => X.[r, j]) (nth i II [])) (fun i => Rabs ((pa_weights s).[i, 0%nat]))) by (intros; rewrite MM; ring). fold w n.
    set (a := sumf _ _). assert (A : a <= w) by (apply sumf_le; intros i _; rewrite <- (Rmult_1_r (Rabs ((pa_weights s).[i, 0%nat]))) at 2; apply Rmult_le_compat_l; auto; apply MS).
    assert (1 <= c ^ e * g) by (apply ge1_mult; lra). assert (X1 : (c ^ e * g - 1) * a <= (c ^ e * g - 1) * w) by (apply Rmult_le_compat_l; lra). lra.
  - intros k Hk. destruct (Q2 k Hk) as [_ Q3]. eapply Rle_trans; [exact Q3|]. clear Q1 Q2 Q3. fold w n.
    assert (DG : forall i, (i < List.length II)%nat -> 0 <= INR (nth k (nth i II []) 0%nat) <= INR (pa_N s)).
    { intros i Hi. split; [apply pos_INR|]. apply le_INR. assert (In (nth i II []) II) by now apply nth_In.
      apply (index_set_In (pa_N s) m Hm II _ EI) in H. destruct H as [HL HSum]. apply Nat.le_trans with (2 := HSum).
      assert (In (nth k (nth i II []) 0%nat) (nth i II [])) by (apply nth_In; lia). revert H. generalize (nth k (nth i II []) 0%nat) as z. generalize (nth i II []) as l. clear. induction l as [|b l IH]; intros z H; [destruct H|]. simpl. destruct H as [->|H]; [lia|]. specialize (IH z H). lia. }
    set (a := sumf _ _). set (b := sumf _ (fun i => _ * (_ * mmajor _ _ _))).
    assert (A : a <= INR (pa_N s) * w).
    { unfold a, w. rewrite <- sumf_scal_l. apply sumf_le. intros i Hi. rewrite (Rmult_comm (INR (pa_N s))). apply Rmult_le_compat_l; auto. generalize (DG i Hi) (MS (dec_at k (nth i II []))). nra. }
    assert (B : b <= INR (pa_N s) * w).
    { unfold b, w. rewrite <- sumf_scal_l. apply sumf_le. intros i Hi. rewrite MM, (Rmult_comm (INR (pa_N s))). apply Rmult_le_compat_l; auto. generalize (DG i Hi). lra. }
    assert (Cc : 1 <= c ^ (e + 1)) by (apply pow_R1_Rle; unfold c; lra).
    assert (1 <= c ^ (e + 1) * g) by (apply ge1_mult; lra). assert (X1 : (c ^ (e + 1) * g - 1) * a <= (c ^ (e + 1) * g - 1) * (INR (pa_N s) * w)) by (apply Rmult_le_compat_l; lra).
    assert (X2 : c ^ e * (c * (h - g)) * b <= c ^ e * (c * (h - g)) * (INR (pa_N s) * w)) by (apply Rmult_le_compat_l; auto; repeat apply Rmult_le_pos; unfold c in *; lra).
    rewrite pow_add, pow_1 in *. lra.
Qed.
Print Assumptions C116_unit_cube.

(** The surface (x - 1)^2, as train stores it, at 1 + 2^-30 in binary64 with
    powers to the nearest float: the value is 2^-60, the prediction is 0. The
    predicted gradient 2^-29 is exact. *)
Definition s116 : poly := {| pa_N := 2; pa_X := mat_of [[0]]; pa_f := mat_of [[0]]; pa_weights := mat_of [[1]; [-2]; [1]]; pa_Rsqr := Fin 1; pa_g := mat_of [[0]]; pa_H := None |}.
Theorem C116_relative_refuted : exists X f df f' df', fmt binary64 (X.[0%nat, 0%nat]) /\ shape X = [1; 1]%nat /\
  poly_predict s116 X true = Ok (f, Some df) /\ poly_predict_fl binary64 (fun x k => rnd binary64 (x ^ k)) comb (fun _ => dcomb) s116 X true = Ok (f', Some df') /\
  f.[0%nat, 0%nat] = bpow (-60) /\ f'.[0%nat, 0%nat] = 0 /\ df.[0%nat, 0%nat] = bpow (-29) /\ df'.[0%nat, 0%nat] = bpow (-29).
Proof.
  assert (V := valid64). set (t := bpow (-30)). assert (T0 : 0 < t) by apply bpow_pos. assert (T60 : bpow (-60) = t * t) by (unfold t; rewrite <- bpow_add; reflexivity).
  assert (T29 : bpow (-29) = 2 * t) by (unfold t; rewrite <- bpow_S; reflexivity). assert (T1 : 1 = IZR (2 ^ 30) * t) by (unfold t; rewrite <- bpow_IZR by lia; rewrite <- bpow_add; reflexivity).
  assert (FX : fmt binary64 (1 + t)) by (apply (fmt_by _ (2 ^ 30 + 1) (-30)); [rewrite plus_IZR, Rmult_plus_distr_r; fold t; rewrite <- T1; ring|reflexivity|reflexivity]).
  assert (RS : rnd binary64 ((1 + t) ^ 2) = 1 + 2 * t).
  { rewrite (rnd_rat binary64 _ (2 ^ 60 + 2 ^ 31 + 1) 256 (-52) (2 ^ 52 + 2 ^ 23)); try (simpl; lia).
    - rewrite plus_IZR, Rmult_plus_distr_r, <- !bpow_IZR, <- !bpow_add by lia. simpl Z.add. rewrite T29, bpow_0. ring.
    - rewrite !plus_IZR, <- !bpow_IZR by lia. replace 256 with (bpow 8) by (rewrite bpow_IZR by lia; reflexivity).
      assert (B8 := bpow_neq 8). replace ((bpow 60 + bpow 31 + 1) / bpow 8 * bpow (-52)) with ((bpow 60 + bpow 31 + 1) * bpow (-60)).
      + rewrite !Rmult_plus_distr_r, <- !bpow_add. simpl Z.add. rewrite T29, T60, bpow_0. ring.
      + replace (bpow (-52)) with (bpow 8 * bpow (-60)) by (rewrite <- bpow_add; reflexivity). field. exact B8. }
  assert (FD : fmt binary64 (2 * (1 + t))) by (apply fmt_double; auto).
  assert (F1 : rnd binary64 1 = 1) by (apply rnd_1; auto).
  assert (FE : fmt binary64 (1 + 2 * t)) by (rewrite <- RS; apply rnd_fmt; auto).
  assert (F2 : fmt binary64 (2 * t)) by (rewrite <- T29; apply (fmt_by _ 1 (-29)); [ring|reflexivity|reflexivity]).
  rewrite T60, T29. clear T60 T29 T1. clearbody t. set (X := mat_of [[1 + t]]).
  exists X. do 4 eexists. split; [exact FX|]. split; [reflexivity|]. split; [reflexivity|]. split; [reflexivity|].
  rewrite !at_mk2. cbn [sumf]. unfold power_prod, power_prod_fl, row_dot_fl. cbn [List.length dcomb dfl comb pfl prodf]. cbn -[pow].
  assert (F1' : forall a, rnd binary64 (a ^ 0) = 1) by (intros a; simpl; exact F1). assert (FX' : rnd binary64 ((1 + t) ^ 1) = 1 + t) by (rewrite pow_1; apply fmt_fix; auto).
  assert (M2 : forall a, fmt binary64 a -> rnd binary64 (a * -2) = - (2 * a)) by (intros a Fa; replace (a * -2) with (- (2 * a)) by ring; rewrite rnd_opp; f_equal; apply fmt_fix; auto; now apply fmt_double).
  rewrite !F1', !FX', RS, !Rmult_1_r, !Rmult_1_l, !F1, (M2 _ FX), (fmt_fix _ V _ FE), (M2 1 (fmt_1 _ V)), rnd_0. replace (1 + 1) with 2 by ring. rewrite !(fmt_fix _ V _ FD).
  split; [ring|]. split.
  - replace (1 + - (2 * (1 + t))) with (- (1 + 2 * t)) by ring. rewrite rnd_opp, (fmt_fix _ V _ FE). rewrite Rplus_opp_l. apply rnd_0.
  - split; [ring|]. replace (0 + - (2 * 1)) with (- (2)) by ring. rewrite rnd_opp, (rnd_2 _ V). replace (- (2) + 2 * (1 + t)) with (2 * t) by ring. apply fmt_fix; auto.
Qed.
Print Assumptions C116_relative_refuted.

(** 3 - x/2 + y/4 at (1/2, -1) and (1, 3/4) *)
Definition s116b : poly := {| pa_N := 1; pa_X := mat_of [[0; 0]]; pa_f := mat_of [[0]]; pa_weights := mat_of [[3]; [-1/2]; [1/4]]; pa_Rsqr := Fin 1; pa_g := mat_of [[0]]; pa_H := None |}.
Lemma comb_all : adds_all comb.
Proof.
  intros n Hn. assert (E : sleaves (comb n) = seq 0 n); [|rewrite E; reflexivity].
  induction n as [|[|k] IH]; [lia|reflexivity|]. change (sleaves (comb (S (S k)))) with (sleaves (comb (S k)) ++ [S k]). rewrite IH by lia. now rewrite (seq_S (S k)).
Qed.
Example C116_case : exists f df f' df', poly_predict s116b (mat_of [[1/2; -1]; [1; 3/4]]) true = Ok (f, Some df) /\
  poly_predict_fl binary64 (fun x k => rnd binary64 (x ^ k)) comb (fun _ => dcomb) s116b (mat_of [[1/2; -1]; [1; 3/4]]) true = Ok (f', Some df') /\
  f.[0%nat, 0%nat] = 5/2 /\ f.[1%nat, 0%nat] = 43/16 /\ df.[1%nat, 1%nat] = 1/4 /\
  forall r, (r < 2)%nat -> Rabs (f'.[r, 0%nat] - f.[r, 0%nat]) <= 100 * bpow (-53) /\ forall k, (k < 2)%nat -> Rabs (df'.[r, k] - df.[r, k]) <= 100 * bpow (-53).
Proof.
  assert (V := valid64). assert (B1 : forall z, bpow (z + 1) = 2 * bpow z) by (intros; apply bpow_S).
  assert (E2 : bpow (-2) = / 4) by (assert (Q := bpow_0); change 0%Z with (-2 + 1 + 1)%Z in Q; rewrite !B1 in Q; lra).
  assert (FZ : forall x z, x = IZR z * / 4 -> (Z.abs z <=? 2 ^ 53)%Z = true -> fmt binary64 x) by (intros x z -> Hz; apply (fmt_by _ z (-2)); [rewrite E2; ring|exact Hz|reflexivity]).
  set (X := mat_of [[1/2; -1]; [1; 3/4]]).
  destruct (C116_unit_cube binary64 (ulp1 binary64) (fun x k => rnd binary64 (x ^ k)) comb (fun _ => dcomb) 3 s116b X 2 2 [[0; 0]; [1; 0]; [0; 1]]%nat V) as (f & df & f' & df' & Q1 & Q2 & Q).
  - left. apply ulp1_pos.
  - now apply rnd_pow_close.
  - exact comb_all.
  - intros _. exact dcomb_all.
  - reflexivity.
  - lia.
  - intros r j Hr Hj. destruct r as [|[|r]]; [| |lia]; (destruct j as [|[|j]]; [| |lia]); unfold X, mat_of; cbn; (split; [|apply Rabs_le; lra]).
    + apply (FZ _ 2%Z); [lra|reflexivity].
    + apply (FZ _ (-4)%Z); [lra|reflexivity].
    + apply (FZ _ 4%Z); [lra|reflexivity].
    + apply (FZ _ 3%Z); [lra|reflexivity].
  - reflexivity.
  - reflexivity.
  - intros r _. cbn. lia.
  - exists f, df, f', df'. split; [exact Q1|]. split; [exact Q2|].
    assert (A : f.[0%nat, 0%nat] = 5/2 /\ f.[1%nat, 0%nat] = 43/16 /\ df.[1%nat, 1%nat] = 1/4).
    { assert (Q0 := Q1). cbn in Q0. injection Q0 as <- <-. cbn. repeat split; field. }
    destruct A as (A1 & A2 & A3). split; [exact A1|]. split; [exact A2|]. split; [exact A3|]. cbv zeta in Q.
    replace (sumf _ (fun i => Rabs ((pa_weights s116b).[i, 0%nat]))) with (15 / 4) in Q by (cbn; rewrite (Rabs_pos_eq 3), (Rabs_left (-1 / 2)), (Rabs_pos_eq (1 / 4)) by lra; field).
    change (INR (List.length _)) with (INR 3) in Q. replace (INR 3) with 3 in Q by (simpl; ring). change (INR (pa_N s116b)) with 1 in Q.
    set (u := ulp1 binary64) in *. assert (U : bpow (-53) = u) by reflexivity. rewrite U. assert (U0 : 0 < u) by apply ulp1_pos. assert (U1 : u <= / 1000000).
    { rewrite <- U. apply Rle_trans with (bpow (-20)); [apply bpow_le; lia|]. change (-20)%Z with (- (20))%Z. unfold bpow. simpl. lra. }
    set (n := eta binary64) in *. assert (N0 : 0 < n) by apply eta_pos. assert (N1 : n <= u).
    { unfold n, eta. rewrite <- U. simpl f_emin. assert (bpow (-1074) <= bpow (-53)) by (apply bpow_le; lia). generalize (bpow_pos (-1074)). lra. }
    assert (G : gain_under binary64 u 2 <= 1 + 7 * u).
    { unfold gain_under. fold u n. simpl pow. rewrite !Rmult_1_r. assert ((1 + u + n) * ((1 + u + n) * (1 + u + n)) <= (1 + 2 * u) * ((1 + 2 * u) * (1 + 2 * u))).
      { apply Rmult_le_compat; nra. } assert (u * u <= u * / 1000000) by (apply Rmult_le_compat_l; lra). nra. }
    assert (C3 : 1 <= (1 + u) ^ 3 <= 1 + 4 * u) by (simpl pow; assert (u * u <= u * / 1000000) by (apply Rmult_le_compat_l; lra); nra).
    assert (C4 : 1 <= (1 + u) ^ 4 <= 1 + 5 * u) by (simpl pow; assert (u * u <= u * / 1000000) by (apply Rmult_le_compat_l; lra); nra).
    assert (H0 : 1 <= gain_under binary64 u 2) by (destruct (Gp_Hp binary64 u 2 ltac:(lra)) as [Y1 Y2]; fold n in Y1, Y2; apply Rle_trans with (1 := Y1); exact Y2).
    set (h := gain_under binary64 u 2) in *. assert (UU : u * u <= u * / 1000000) by (apply Rmult_le_compat_l; lra).
    assert (P3 : (1 + u) ^ 3 * h <= 1 + 12 * u) by (apply Rle_trans with ((1 + 4 * u) * (1 + 7 * u)); [apply Rmult_le_compat; lra|lra]).
    assert (P4 : (1 + u) ^ 4 * h <= 1 + 13 * u) by (apply Rle_trans with ((1 + 5 * u) * (1 + 7 * u)); [apply Rmult_le_compat; lra|lra]).
    assert (P5 : (1 + u) ^ 3 * n <= 2 * u) by (apply Rle_trans with (2 * u); [apply Rmult_le_compat; lra|lra]).
    intros r Hr. destruct (Q r Hr) as [Y1 Y2]. split; [lra|]. intros k Hk. specialize (Y2 k Hk). change (3 + 1)%nat with 4%nat in Y2. lra.
Qed.
