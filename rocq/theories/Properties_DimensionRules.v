(** Final statements about the rules that choose the dimension: C92.
    Gradients that span n dimensions, so that exactly n eigenvalues are nonzero. *)
From Coq Require Import String Reals Lra Lia List Arith ZArith Bool.
From Verif Require Import Prelude Py NumArr LinAlg Lsq Sorting Spectral Det Perturb M_Subspaces P_Subspaces
  EighRef P_Partition P_Bootstrap P_SubsState P_SubsLive Toy Properties_Subspaces Properties_SubsState P_Stability P_Resampling P_Misc.
Import ListNotations.
Open Scope R_scope.

(** an orthogonal matrix has determinant 1 or -1 *)
Lemma ortho_contraction : forall n Q, orthonormal n n Q -> contraction n Q.
Proof.
  intros n Q H x. right. exact (ortho_parseval n (fun i j => Q j i) (ortho_transpose n Q H) x).
Qed.
Lemma ortho_det : forall n Q, orthonormal n n Q -> Rabs (determinant n Q) = 1.
Proof.
  intros n Q H.
  assert (B1 := contraction_det n Q (ortho_contraction n Q H)).
  assert (B2 := contraction_det n (fun i j => Q j i) (ortho_contraction n _ (ortho_transpose n Q H))).
  assert (E : determinant n (fun i j => Q j i) * determinant n Q = 1).
  { rewrite <- determinant_mul, <- (determinant_id n). apply determinant_ext. intros i j Hi Hj. apply H; auto. }
  assert (A : Rabs (determinant n (fun i j => Q j i)) * Rabs (determinant n Q) = 1) by (rewrite <- Rabs_mult, E; apply Rabs_R1).
  pose proof (Rabs_pos (determinant n Q)). nra.
Qed.

(** two orthonormal bases: if the leading vectors of the second are orthogonal to the trailing
    vectors of the first, then the leading vectors span the same space *)
Section Same.
  Variables (m n : nat) (V V' : nat -> nat -> R).
  Hypothesis (HO : orthonormal m m V) (HO' : orthonormal m m V') (Hn : (n <= m)%nat).
  Hypothesis HZ : forall a b, (a < n)%nat -> (n <= b < m)%nat -> dot m (fun i => V i b) (fun i => V' i a) = 0.

  Lemma same_leak : leak m V V' n = 0.
  Proof.
    assert (E : leak m V V' n = leak m V' V n).
    { rewrite (leak_eq m V V' HO HO' n Hn), (leak_eq m V' V HO' HO n Hn). f_equal. rewrite sumf_swap.
      apply sumf_ext; intros a Ha. apply sumf_ext; intros b Hb. rewrite (dot_comm m (fun i => V' i a)). reflexivity. }
    rewrite E. unfold leak. apply sumf_zero; intros a Ha. apply sumf_zero; intros b Hb.
    rewrite (dot_comm m (fun i => V' i a)), HZ by lia. ring.
  Qed.
  Lemma same_cross : forall a b, (a < n)%nat -> (n <= b < m)%nat -> sumf m (fun i => V i a * V' i b) = 0.
  Proof.
    intros a b Ha Hb. assert (L := same_leak). unfold leak in L.
    assert (Z := sumf_nonneg_eq0 n _ (fun i _ => sumf_sq_nonneg (m - n) _) L a Ha). cbv beta in Z.
    assert (Y := sumf_sq_eq0 (m - n) _ Z (b - n)%nat ltac:(lia)). cbv beta in Y.
    replace (n + (b - n))%nat with b in Y by lia. exact Y.
  Qed.
  Lemma same_det : Rabs (determinant n (fun a b => sumf m (fun i => V i a * V' i b))) = 1.
  Proof.
    apply ortho_det. intros a b Ha Hb.
    transitivity (sumf m (fun j => sumf m (fun i => V i j * V' i a) * sumf m (fun i => V i j * V' i b))).
    - rewrite (sumf_le_split m n) by auto.
      rewrite (sumf_zero (m - n)); [ring|]. intros i Hi. change (sumf m (fun l => V l (n + i)%nat * V' l a)) with (dot m (fun l => V l (n + i)%nat) (fun l => V' l a)).
      rewrite HZ by lia. ring.
    - rewrite (ortho_parseval2 m V HO (fun i => V' i a) (fun i => V' i b)). apply HO'; lia.
  Qed.
End Same.

(** leading eigenvectors of a resampled matrix stay orthogonal to the null vectors of the full one *)
Lemma replicate_orth : forall eigh argsort M m d wt e V ind d0 w0 eb Vb n,
  eigh_contract eigh -> argsort_contract argsort ->
  shape d = [M; m] -> shape wt = [M; 1%nat] -> (forall s, (s < M)%nat -> 0 <= wt.[s, 0%nat]) ->
  active_subspace eigh argsort d wt = Ok (e, V) ->
  rows_of d ind d0 -> rows_of wt ind w0 -> active_subspace eigh argsort d0 w0 = Ok (eb, Vb) ->
  (forall b, (n <= b < m)%nat -> e.[b, 0%nat] = 0) -> (n <= m)%nat -> (forall a, (a < n)%nat -> 0 < eb.[a, 0%nat]) ->
  forall a b, (a < n)%nat -> (n <= b < m)%nat -> dot m (fun i => V.[i, b]) (fun i => Vb.[i, a]) = 0.
Proof.
  intros eigh argsort M m d wt e V ind d0 w0 eb Vb n HE HA Sd Sw Hp H Rd Rw H0 Hz Hn Hpos a b Ha Hb.
  destruct Rd as (r & c & A1 & A2 & A3 & A4). destruct Rw as (r' & c' & B1 & B2 & _ & B4).
  rewrite Sd in A1. injection A1 as <- <-. rewrite Sw in B1. injection B1 as <- <-.
  assert (P0 : forall s, (s < List.length ind)%nat -> 0 <= w0.[s, 0%nat]).
  { intros s Hs. rewrite B4 by lia. apply Hp. rewrite Forall_forall in A3. apply A3, nth_In; auto. }
  destruct (active_subspace_spec eigh argsort HE HA M m d wt e V Sd Sw H) as (lam & L).
  destruct (active_subspace_spec eigh argsort HE HA _ m d0 w0 eb Vb A2 B2 H0) as (lam' & L').
  assert (EV := eigsorted_psd_eig _ _ _ _ _ L (gradC_psd M m (ent d) (fun s => wt.[s, 0%nat]) Hp)).
  assert (EV' := eigsorted_psd_eig _ _ _ _ _ L' (gradC_psd _ m (ent d0) (fun s => w0.[s, 0%nat]) P0)).
  (* every sample with positive weight is orthogonal to V_b *)
  assert (Q := quad_eigvec m _ _ (ent V) (es_orth _ _ _ _ _ L) EV b ltac:(lia)). cbv beta in Q. rewrite Hz in Q by lia. rewrite gradC_quad in Q.
  assert (Q1 : forall s, (s < M)%nat -> wt.[s, 0%nat] * (dot m (ent d s) (fun i => ent V i b) * dot m (ent d s) (fun i => ent V i b)) = 0).
  { intros s Hs. apply (sumf_nonneg_eq0 M (fun s => wt.[s, 0%nat] * (dot m (ent d s) (fun i => ent V i b) * dot m (ent d s) (fun i => ent V i b)))); auto.
    intros u Hu. apply Rmult_le_pos; auto. apply Rle_0_sqr. }
  assert (Q' : quad m (gradC (List.length ind) (ent d0) (fun s => w0.[s, 0%nat])) (fun i => ent V i b) = 0).
  { rewrite gradC_quad. apply sumf_zero; intros s Hs. rewrite B4 by lia.
    rewrite Forall_forall in A3. rewrite <- (Q1 (nth s ind 0%nat)) by (apply A3, nth_In; auto).
    do 2 f_equal; apply dot_ext; auto; intros i Hi; unfold ent; now rewrite A4. }
  rewrite (quad_spectral m _ _ (ent Vb) (es_orth _ _ _ _ _ L') EV') in Q'.
  assert (Q2 := sumf_nonneg_eq0 m (fun j => eb.[j, 0%nat] * (dot m (fun i => ent Vb i j) (fun i => ent V i b) * dot m (fun i => ent Vb i j) (fun i => ent V i b)))).
  specialize (Q2 (fun j Hj => Rmult_le_pos _ _ (eigsorted_nonneg _ _ _ _ _ L' j Hj) (Rle_0_sqr _)) Q' a ltac:(lia)). cbv beta in Q2.
  specialize (Hpos a Ha). rewrite dot_comm. change (dot m (fun i => ent Vb i a) (fun i => ent V i b) = 0).
  destruct (Rmult_integral _ _ Q2) as [|Z]; [lra|]. destruct (Rmult_integral _ _ Z); auto.
Qed.

(** the three rules, on gradients with exactly n nonzero eigenvalues, n < m, each of whose bootstrap
    replicates still spans n dimensions (the stored lower bound of the n-th eigenvalue is positive) *)
Theorem C92_dimension_rules_partial : forall eigh argsort lstsq norm2 det (G : gen) (U : Type) M m n d weights ptype nboot
    (ws ws' : world G U (nd R) * subspaces) e A,
  eigh_contract eigh -> argsort_contract argsort -> norm2_contract norm2 -> det_contract det ->
  shape d = [M; m] -> match weights with None => True | Some w => shape w = [M; 1%nat] /\ (forall s, (s < M)%nat -> 0 <= w.[s, 0%nat]) end ->
  ss_compute eigh argsort lstsq norm2 det None None (Some d) weights "AS" ptype nboot ws = (Ok tt, ws') ->
  s_eigenvals (snd ws') = Some e -> s_W1 (snd ws') = Some A ->
  (1 <= n)%nat -> (n < m)%nat -> 0 < e.[(n - 1)%nat, 0%nat] -> e.[n, 0%nat] = 0 ->
  (* the largest gap: never more than n *)
  (ptype = "EVG"%string -> (ncols A <= n)%nat) /\
  (forall e_br, s_e_br (snd ws') = Some e_br -> 0 < e_br.[(n - 1)%nat, 0%nat] ->
     (* the error bound: exactly n *)
     (ptype = "RS"%string -> ncols A = n) /\
     (* the ladle: n + 1, or 1 if its metric is undefined *)
     (ptype = "LI"%string -> ncols A = (n + 1)%nat \/ ncols A = 1%nat) /\
     (ptype = "LI"%string -> forall sub_br li_F (w2 : world G U (nd R)),
        bootstrap_ranges norm2 det e (match s_eigenvecs (snd ws') with Some V => V | None => d end) None None (Some d)
          (match weights with None => mk2 M 1 (fun _ _ => / INR M) | Some w => w end)
          (ssmethod eigh argsort lstsq "AS") (Z.to_nat nboot) (fst ws) = (Ok (e_br, sub_br, li_F), w2) ->
        li_F.[0%nat, 0%nat] <> NaN -> ncols A = (n + 1)%nat)).
Proof.
  intros eigh argsort lstsq norm2 det G U M m n d weights ptype nboot ws ws' e A HE HA HN HD Sd Hw H Ee EA Hn Hnm Hp Hz.
  destruct (ss_compute_ok eigh argsort lstsq norm2 det HE HA _ _ _ _ _ _ _ _ _ _ H) as (M0 & m0 & e0 & V & w1 & br & z & A0 & B & k & HX & HM & HB & HC & HS & Hz1 & Hd & ES).
  rewrite Sd in HX. injection HX as <- <-. rewrite ES in Ee, EA. cbn [s_eigenvals s_W1] in Ee, EA. injection Ee as ->. injection EA as ->.
  assert (HX : s_eigenvecs (snd ws') = Some V) by (rewrite ES; reflexivity). rewrite HX. rewrite ES. cbn [s_e_br].
  assert (Hk : k = m) by (destruct Hd as (d' & M' & Ed & Sd'); injection Ed as <-; congruence). subst k.
  set (wt := wdefault M weights) in *.
  assert (Sw : shape wt = [M; 1%nat]) by (unfold wt, wdefault; destruct weights; [tauto|reflexivity]).
  assert (Pw : forall s, (s < M)%nat -> 0 <= wt.[s, 0%nat]).
  { intros s Hs. unfold wt, wdefault. destruct weights; [apply Hw; auto|]. cbn. left. apply Rinv_0_lt_compat, lt_0_INR. lia. }
  cbn [ssmethod String.eqb Ascii.eqb Bool.eqb] in HM. unfold mlift in HM. injection HM as HM <-.
  destruct (active_subspace_spec eigh argsort HE HA M m d wt e V Sd Sw HM) as (lam & L).
  assert (E0 := eigsorted_nonneg _ _ _ _ _ L). assert (DEC := es_dec _ _ _ _ _ L).
  assert (Hz' : forall b, (n <= b < m)%nat -> e.[b, 0%nat] = 0).
  { intros b Hb. assert (e.[b, 0%nat] <= e.[n, 0%nat]) by (apply (DEC n b); lia). specialize (E0 b ltac:(lia)). lra. }
  assert (Hp' : forall b, (b < n)%nat -> 0 < e.[b, 0%nat]).
  { intros b Hb. assert (e.[(n - 1)%nat, 0%nat] <= e.[b, 0%nat]) by (apply (DEC b (n - 1)%nat); lia). lra. }
  assert (TOT : 0 < sumf m (fun i => e.[i, 0%nat])).
  { apply (sumf_pos m _ 0 E0); [lia|apply Hp'; lia]. }
  destruct HS as (S1 & S2 & S3 & S4 & S5 & S6).
  assert (NA : ncols A = Z.to_nat z) by (apply (ncols_shape2 _ A m _ S3)). rewrite NA.
  (* facts about the bootstrap *)
  assert (BF : forall a sub_br li_F (w0 w2 : world G U (nd R)), bootstrap_ranges norm2 det e V None None (Some d) wt (ssmethod eigh argsort lstsq "AS") (Z.to_nat nboot) w0 = (Ok (a, sub_br, li_F), w2) ->
     (0 < nboot)%Z ->
     shape sub_br = [(m - 1)%nat; 3%nat] /\ shape li_F = [m; 1%nat] /\
     ((forall j, (j < m)%nat -> li_F.[j, 0%nat] = NaN) \/ exists f, (forall j, (j < m)%nat -> li_F.[j, 0%nat] = Fin (f j) /\ 0 <= f j) /\ sumf m f = 1) /\
     (0 < a.[(n - 1)%nat, 0%nat] -> sub_br.[(n - 1)%nat, 1%nat] = 0 /\ (li_F.[n, 0%nat] = NaN \/ li_F.[n, 0%nat] = Fin 0))).
  { intros a sub_br li_F w0 w2 HBR Hnb.
    destruct (bootstrap_facts eigh argsort lstsq norm2 det HE HA HN HD "AS" e V None None (Some d) wt (Z.to_nat nboot) w0 a sub_br li_F w2 m
      ltac:(lia) S1 (es_orth _ _ _ _ _ L) ltac:(intros q (M' & Hq); congruence) HBR) as (T1 & T2 & _ & T3).
    split; auto. split; auto. split; auto. intros Hpos.
    destruct (bootstrap_ranges_ok norm2 det HN HD e V None None (Some d) wt _ (Z.to_nat nboot) w0 a sub_br li_F w2 m ltac:(lia) S1
      ltac:(intros q (M' & Hq); congruence) (ssmethod_shapes eigh argsort lstsq HE HA "AS") HBR)
      as (_ & _ & _ & _ & _ & ind & eb & Vb & dist & R1 & R2 & R3 & R4 & R5).
    assert (OR : forall i, (i < Z.to_nat nboot)%nat -> orthonormal m m (ent (Vb i)) /\
       forall a b, (a < n)%nat -> (n <= b < m)%nat -> dot m (fun l => ent V l b) (fun l => ent (Vb i) l a) = 0).
    { intros i Hi. destruct (R1 i Hi) as ((I1 & I2 & X0 & f0 & df0 & w3 & wa & wb & _ & _ & Od & Ow & Ms) & Seb & SVb).
      destruct Od as (d0 & -> & Od). cbn [ssmethod String.eqb Ascii.eqb Bool.eqb] in Ms. unfold mlift in Ms. injection Ms as Ms _.
      assert (LL : exists lam', eigsorted m (gradC (List.length (ind i)) (ent d0) (fun s => w3.[s, 0%nat])) (eb i) (Vb i) lam').
      { destruct Od as (r & c & A1 & A2 & _). destruct Ow as (r' & c' & B1 & B2 & _). rewrite Sd in A1. injection A1 as <- <-. rewrite Sw in B1. injection B1 as <- <-.
        apply (active_subspace_spec eigh argsort HE HA _ m d0 w3 _ _ A2 B2 Ms). }
      destruct LL as (lam' & L'). split; [apply L'|].
      apply (replicate_orth eigh argsort M m d wt e V (ind i) d0 w3 (eb i) (Vb i) n HE HA Sd Sw Pw HM Od Ow Ms Hz' ltac:(lia)).
      intros b Hb. assert (MN := proj1 (proj1 (R3 (n - 1)%nat ltac:(lia))) i Hi). cbv beta in MN.
      assert ((eb i).[(n - 1)%nat, 0%nat] <= (eb i).[b, 0%nat]) by (apply (es_dec _ _ _ _ _ L' b (n - 1)%nat); lia). lra. }
    split.
    - destruct (R4 (n - 1)%nat ltac:(lia)) as (_ & R4' & _). rewrite R4'. rewrite sumf_zero; [unfold Rdiv; ring|].
      intros i Hi. destruct (OR i Hi) as (O1 & O2). assert (N2 := R2 i (n - 1)%nat Hi ltac:(lia)).
      destruct N2 as (N0 & _ & x & _ & X2). replace (S (n - 1)) with n in X2 by lia.
      rewrite sumf_zero in X2; [nra|]. intros b Hb. rewrite sumf_zero; [ring|]. intros c Hc. unfold crossprod.
      rewrite (same_cross m n (ent V) (ent (Vb i)) (es_orth _ _ _ _ _ L) O1 ltac:(lia) O2 b (n + c)%nat) by lia. ring.
    - rewrite R5 by lia. destruct n as [|n']; [lia|]. cbv zeta.
      match goal with |- xdiv (Fin ?l) (Fin ?s) = NaN \/ _ => assert (EL : l = 0); [|set (ss := s)] end.
      { rewrite sumf_zero; [unfold Rdiv; ring|]. intros i Hi. destruct (OR i Hi) as (O1 & O2).
        assert (DD := same_det m (S n') (ent V) (ent (Vb i)) (es_orth _ _ _ _ _ L) O1 ltac:(lia) O2).
        change (crossprod m (ent V) (ent (Vb i)) 0) with (fun a b => sumf m (fun l => ent V l a * ent (Vb i) l b)). rewrite DD. ring. }
      rewrite EL. unfold xdiv. destruct (Req_EM_T ss 0); [left|right; unfold Rdiv; now rewrite Rmult_0_l].
      unfold xsgninf. destruct (Rlt_dec 0 0); [lra|]. destruct (Rlt_dec 0 0); [lra|]. reflexivity. }
  assert (HBR : forall a sub_br li_F, br = Some (a, sub_br, li_F) -> (0 < nboot)%Z /\
     bootstrap_ranges norm2 det e V None None (Some d) wt (ssmethod eigh argsort lstsq "AS") (Z.to_nat nboot) (fst ws) = (Ok (a, sub_br, li_F), fst ws')).
  { intros a sub_br li_F ->. destruct (Z.ltb_spec 0 nboot) as [Lb|Lb]; [|destruct HB; discriminate].
    destruct HB as (b & Eb & HB). injection Eb as <-. auto. }
  destruct (choose_dim_ok ptype m e br z (es_e _ _ _ _ _ L) (es_m _ _ _ _ _ L) E0) as [Q|[Q|Q]]; auto.
  { intros a sub_br li_F Ebr. destruct (HBR a sub_br li_F Ebr) as (Lb & HB'). destruct (BF _ _ _ _ _ HB' Lb) as (T1 & T2 & T3 & _). auto. }
  - destruct Q as (-> & Q1 & Q2 & Q3). split; [|intros e_br _ _; split; [discriminate|split; discriminate]].
    intros _. destruct (le_lt_dec (Z.to_nat z) n) as [|LT]; auto. exfalso.
    specialize (Q3 n Hn LT). cbv beta in Q3. replace (n + 1 - 1)%nat with n in Q3 by lia.
    rewrite (Hz' (Z.to_nat z - 1)%nat), (Hz' (Z.to_nat z + 1 - 1)%nat) in Q3 by lia.
    rewrite Rminus_0_r, Rabs_R0 in Q3. pose proof (Rabs_pos (e.[(n - 1)%nat, 0%nat] - e.[n, 0%nat])). lra.
  - destruct Q as (-> & a & sub_br & li_F & -> & Q1 & Q2 & Q3). split; [discriminate|].
    intros e_br Eb Hpos. injection Eb as <-. destruct (HBR _ _ _ eq_refl) as (Lb & HB').
    destruct (BF _ _ _ _ _ HB' Lb) as (_ & _ & _ & T). destruct (T Hpos) as (T1 & _).
    split; [|split; discriminate]. intros _.
    assert (CN : sqrt (sumf n (fun i => e.[i, 0%nat])) * sub_br.[(n - 1)%nat, 1%nat] + sqrt (sumf (m - n) (fun i => e.[(n + i)%nat, 0%nat])) = 0).
    { rewrite T1, (sumf_zero (m - n)) by (intros; apply Hz'; lia). rewrite sqrt_0. ring. }
    destruct (lt_eq_lt_dec (Z.to_nat z) n) as [[LT|]|GT]; auto; exfalso.
    + specialize (Q2 n ltac:(lia)). cbv beta in Q2. rewrite CN in Q2. apply Q2. clear Q2 Q3.
      assert (0 < sqrt (sumf (m - Z.to_nat z) (fun i => e.[(Z.to_nat z + i)%nat, 0%nat]))).
      { apply sqrt_lt_R0. apply (sumf_pos _ _ (n - 1 - Z.to_nat z)); [intros; apply E0; lia|lia|].
        replace (Z.to_nat z + (n - 1 - Z.to_nat z))%nat with (n - 1)%nat by lia. exact Hp. }
      assert (0 <= sub_br.[(Z.to_nat z - 1)%nat, 1%nat]).
      { destruct (bootstrap_ranges_ok norm2 det HN HD e V None None (Some d) wt _ (Z.to_nat nboot) _ a sub_br li_F _ m ltac:(lia) S1
          ltac:(intros q (M' & Hq); congruence) (ssmethod_shapes eigh argsort lstsq HE HA "AS") HB')
          as (_ & _ & _ & _ & _ & ind & eb & Vb & dist & R1 & R2 & R3 & R4 & R5).
        destruct (R4 (Z.to_nat z - 1)%nat ltac:(lia)) as (_ & R4' & _). rewrite R4'. apply Rmult_le_pos; [|left; apply Rinv_0_lt_compat, lt_0_INR; lia].
        apply sumf_nonneg; intros i Hi. apply (R2 i (Z.to_nat z - 1)%nat Hi ltac:(lia)). }
      pose proof (sqrt_pos (sumf (Z.to_nat z) (fun i => e.[i, 0%nat]))). nra.
    + specialize (Q3 n Hn GT). cbv beta in Q3. rewrite CN in Q3.
      specialize (Q2 n ltac:(lia)). cbv beta in Q2. rewrite CN in Q2. clear Q2.
      assert (0 <= sub_br.[(Z.to_nat z - 1)%nat, 1%nat]).
      { destruct (bootstrap_ranges_ok norm2 det HN HD e V None None (Some d) wt _ (Z.to_nat nboot) _ a sub_br li_F _ m ltac:(lia) S1
          ltac:(intros q (M' & Hq); congruence) (ssmethod_shapes eigh argsort lstsq HE HA "AS") HB')
          as (_ & _ & _ & _ & _ & ind & eb & Vb & dist & R1 & R2 & R3 & R4 & R5).
        destruct (R4 (Z.to_nat z - 1)%nat ltac:(lia)) as (_ & R4' & _). rewrite R4'. apply Rmult_le_pos; [|left; apply Rinv_0_lt_compat, lt_0_INR; lia].
        apply sumf_nonneg; intros i Hi. apply (R2 i (Z.to_nat z - 1)%nat Hi ltac:(lia)). }
      pose proof (sqrt_pos (sumf (Z.to_nat z) (fun i => e.[i, 0%nat]))).
      pose proof (sqrt_pos (sumf (m - Z.to_nat z) (fun i => e.[(Z.to_nat z + i)%nat, 0%nat]))). nra.
  - destruct Q as (-> & a & sub_br & li_F & Ebr & Q). split; [discriminate|].
    rewrite Ebr. intros e_br Eb Hpos. injection Eb as <-. destruct (HBR _ _ _ Ebr) as (Lb & HB').
    destruct (BF _ _ _ _ _ HB' Lb) as (_ & _ & TF & T). destruct (T Hpos) as (_ & T1).
    assert (MAIN : li_F.[0%nat, 0%nat] <> NaN -> Z.to_nat z = (n + 1)%nat).
    { intros NN. destruct Q as [(_ & [Q|Q])|(F & QF & Q1 & Q2 & Q3)].
      - congruence.
      - specialize (Hp' 0%nat ltac:(lia)). rewrite Q in Hp' by lia. lra.
      - assert (F0 : F n = 0). { destruct T1 as [T1|T1]; rewrite QF in T1 by lia; [discriminate|congruence]. }
        destruct TF as [TF|(F' & TF & _)]; [exfalso; apply NN, TF; lia|].
        assert (FP : forall j, (j < m)%nat -> 0 <= F j).
        { intros j Hj. destruct (TF j Hj) as (T2 & T3). rewrite QF in T2 by auto. injection T2 as ->. exact T3. }
        assert (CN : F (n + 1 - 1)%nat + e.[(n + 1 - 1)%nat, 0%nat] / sumf m (fun i => e.[i, 0%nat]) = 0).
        { replace (n + 1 - 1)%nat with n by lia. rewrite F0, Hz. unfold Rdiv. ring. }
        destruct (lt_eq_lt_dec (Z.to_nat z) (n + 1)) as [[LT|]|GT]; auto; exfalso.
        + specialize (Q2 (n + 1)%nat ltac:(lia)). cbv beta in Q2. rewrite CN in Q2. apply Q2.
          assert (0 < e.[(Z.to_nat z - 1)%nat, 0%nat] / sumf m (fun i => e.[i, 0%nat])) by (apply Rdiv_lt_0_compat; auto; apply Hp'; lia).
          specialize (FP (Z.to_nat z - 1)%nat ltac:(lia)). lra.
        + specialize (Q3 (n + 1)%nat ltac:(lia) GT). cbv beta in Q3. rewrite CN in Q3.
          assert (0 <= e.[(Z.to_nat z - 1)%nat, 0%nat] / sumf m (fun i => e.[i, 0%nat]))
            by (apply Rmult_le_pos; [apply E0; lia|left; apply Rinv_0_lt_compat; auto]).
          specialize (FP (Z.to_nat z - 1)%nat ltac:(lia)). lra. }
    split; [discriminate|]. split.
    + intros _. destruct Q as [(Q & _)|(F & QF & Q)]; [right; auto|left]. apply MAIN. rewrite QF by lia. discriminate.
    + intros _ sub_br' li_F' w2 HB2 NN. change (bootstrap_ranges norm2 det e V None None (Some d) wt (ssmethod eigh argsort lstsq "AS") (Z.to_nat nboot) (fst ws) = (Ok (a, sub_br', li_F'), w2)) in HB2.
      rewrite HB' in HB2. injection HB2 as -> -> _. auto.
Qed.
Print Assumptions C92_dimension_rules_partial.

(** one replicate, worked out *)
Lemma boot_one : forall (G : gen) (U : Type) eigh argsort lstsq norm2 det m e Wm d wt (w : world G U (nd R)) a s l w' d0 w0 w1 eb Vb M,
  eigh_contract eigh -> argsort_contract argsort -> norm2_contract norm2 -> det_contract det ->
  shape d = [M; m] -> shape Wm = [m; m] ->
  bootstrap_ranges norm2 det e Wm None None (Some d) wt (ssmethod eigh argsort lstsq "AS") 1 w = (Ok (a, s, l), w') ->
  bootstrap_replicate None None (Some d) wt w = (Ok (None, None, Some d0, w0), w1) ->
  active_subspace eigh argsort d0 w0 = Ok (eb, Vb) ->
  (forall j, (j < m)%nat -> a.[j, 0%nat] = eb.[j, 0%nat]) /\
  let li j := match j with O => 0 | S j' => 1 - Rabs (determinant (S j') (fun a b => sumf m (fun l => Wm.[l, a] * Vb.[l, b]))) end in
  forall j, (j < m)%nat -> l.[j, 0%nat] = xdiv (Fin (li j)) (Fin (sumf m li)).
Proof.
  intros G U eigh argsort lstsq norm2 det m e Wm d wt w a s l w' d0 w0 w1 eb Vb M HE HA HN HD Sd SW H HR HM.
  unfold bootstrap_ranges in H. rewrite (process_inputs_eq _ d M m Sd) in H. cbn [rbind] in H.
  apply mbind_ok in H. destruct H as (((X1 & df1) & m1) & w2 & H1 & H). unfold mlift in H1. injection H1 as <- <- <- <-.
  destruct (Nat.eqb_spec m 0) as [|Hm]; [discriminate|].
  apply mbind_ok in H. destruct H as (reps & w3 & H2 & H). unfold mret in H. injection H as <- _ <- _.
  cbn [seq mmap] in H2. apply mbind_ok in H2. destruct H2 as (r & w4 & H2 & H3). apply mbind_ok in H3. destruct H3 as (rs & w5 & H3 & H4).
  unfold mret in H3, H4. injection H3 as <- _. injection H4 as <- _.
  assert (H2' := H2). unfold boot_step in H2'. apply mbind_ok in H2'. destruct H2' as ((((X0 & f0) & df0) & w0') & w6 & K1 & K).
  rewrite HR in K1. injection K1 as <- <- <- <- <-.
  apply mbind_ok in K. destruct K as ((e0 & V0) & w7 & K2 & K). cbn [ssmethod String.eqb Ascii.eqb Bool.eqb] in K2. unfold mlift in K2. injection K2 as K2 <-.
  rewrite HM in K2. injection K2 as <- <-.
  apply mbind_ok in K. destruct K as (ev & w8 & K3 & K). unfold mlift in K3. injection K3 as K3 <-.
  apply mbind_ok in K. destruct K as (ds & w8 & K4 & K). unfold mlift in K4. injection K4 as K4 <-.
  apply mbind_ok in K. destruct K as (dt & w8 & K5 & K). unfold mlift in K5. injection K5 as K5 <-.
  unfold mret in K. injection K as <- _.
  destruct (ssmethod_shapes eigh argsort lstsq HE HA "AS" None None (Some d0) w0 w1 eb Vb w1) as (k & Se & SV).
  { cbn [ssmethod String.eqb Ascii.eqb Bool.eqb]. unfold mlift. now rewrite HM. }
  destruct (reshape_inv _ _ _ _ K3) as (Sz & Sev). unfold size in Sz. rewrite Se in Sz. cbn [prodn] in Sz.
  assert (k = m) by lia. subst k.
  destruct (reshape_ok _ [m] eb) as (ev' & F1 & F2 & F3); [unfold size; rewrite Se; simpl; lia|].
  rewrite F1 in K3. inversion K3; subst ev'; clear K3.
  split.
  - intros j Hj. transitivity (ev.[j]); [reflexivity|]. rewrite F3 by (constructor; auto; constructor). rewrite Se. cbn [unravel ravel prodn].
    change (1 * 1)%nat with 1%nat. rewrite Nat.div_1_r, Nat.mod_1_r. do 2 f_equal. lia.
  - intros li j Hj.
    assert (DT : forall j', (j' < m - 1)%nat -> det (nth j' dt (zeros2 0 0)) = determinant (S j') (fun a b => sumf m (fun l => Wm.[l, a] * Vb.[l, b]))).
    { intros j' Hj'. destruct (mapr_ok_inv _ _ _ _ _ K5) as (LL & N). rewrite seq_length in N.
      specialize (N j' 0%nat (zeros2 0 0) Hj'). rewrite seq_nth in N by auto. simpl (0 + j')%nat in N.
      destruct (cross_ok m Wm Vb j' 0 (j' + 1) SW SV ltac:(lia) ltac:(lia) ltac:(lia)) as (P & E1 & E2 & E3).
      rewrite E1 in N. inversion N as [NP]. replace (j' + 1 - 0)%nat with (S j') in E2 by lia.
      rewrite <- NP, (HD (S j') P E2). apply determinant_ext; intros. now rewrite E3. }
    set (r0 := Rep ev (mk1 (m - 1) (fun j => norm2 (nth j ds (zeros2 0 0)))) (mk1 (m - 1) (fun j => det (nth j dt (zeros2 0 0))))) in *.
    set (g := fun q => match q with O => 0 | S j' => sumf 1 (fun i => 1 - Rabs ((rp_det (nth i [r0] (Rep (zeros2 0 0) (zeros2 0 0) (zeros2 0 0)))).[j'])) / INR 1 end).
    assert (EL : forall q, (q < m)%nat -> g q = li q).
    { intros [|q] Hq; [reflexivity|]. unfold g, r0. cbn [sumf nth rp_det INR]. rewrite at_mk1, DT by lia. cbn [li]. field. }
    change (xdiv (Fin (g j)) (Fin (sumf m g)) = xdiv (Fin (li j)) (Fin (sumf m li))).
    rewrite (EL j Hj), (sumf_ext m g li EL). reflexivity.
Qed.

(** gradients (2,0,0), (0,3,0), (2,0,0), (2,0,0): eigenvalues 3, 9/4, 0, so n = 2. The replicate
    drawn is samples 0, 1, 0, 1: eigenvalues 9/2, 2, 0, with the two directions exchanged.
    The error bound gives 2, the ladle 3 *)
Program Definition gen92 : gen := {|
  gst := nat;
  g_seed := fun n => n;
  g_normal := fun s => (0, S s);
  g_unif := fun s => (/ 4, S s);
  g_randint := fun hi s => (((s * s) mod hi)%nat, S s)
|}.
Next Obligation. simpl; lra. Defined.
Next Obligation. apply Nat.mod_upper_bound. lia. Defined.
Definition world92 : world gen92 unit (nd R) := World (0%nat : gst gen92) tt [] 0.
Definition d92 : nd R := mat_of [[2; 0; 0]; [0; 3; 0]; [2; 0; 0]; [2; 0; 0]].
Definition w92 : nd R := mk2 4 1 (fun _ _ => / INR 4).

Lemma replicate92 : exists d0 w0 w1, bootstrap_replicate None None (Some d92) w92 world92 = (Ok (None, None, Some d0, w0), w1) /\
  shape d0 = [4%nat; 3%nat] /\ shape w0 = [4%nat; 1%nat] /\
  (forall i j, d0.[i, j] = d92.[nth i [0; 1; 0; 1]%nat 0%nat, j]) /\ (forall i, w0.[i, 0%nat] = / INR 4).
Proof. eexists; eexists; eexists. split; [reflexivity|]. split; [reflexivity|]. split; [reflexivity|]. split; intros; reflexivity. Qed.

Lemma run92 : forall ptype, ptype = "RS"%string \/ ptype = "LI"%string -> exists ws' e A e_br,
  ss_compute eigh_ref argsort_ref lstsq_ref norm2_ref det_ref None None (Some d92) None "AS" ptype 1 (world92, subs_new) = (Ok tt, ws') /\
  s_eigenvals (snd ws') = Some e /\ e.[0%nat, 0%nat] = 3 /\ e.[1%nat, 0%nat] = 9 / 4 /\ e.[2%nat, 0%nat] = 0 /\
  s_e_br (snd ws') = Some e_br /\ 0 < e_br.[1%nat, 0%nat] /\ s_W1 (snd ws') = Some A /\
  (ptype = "RS"%string -> ncols A = 2%nat) /\ (ptype = "LI"%string -> ncols A = 3%nat).
Proof.
  intros ptype Hp.
  destruct (C53_gradient_method_returns eigh_ref argsort_ref lstsq_ref norm2_ref det_ref gen92 unit 4 3 d92 None ptype 1 (world92, subs_new)
    eigh_ref_contract argsort_ref_contract eigh_ref_total norm2_ref_contract det_ref_contract ltac:(lia) ltac:(lia) eq_refl I) as (ws' & H).
  { right. split; [exact Hp|lia]. }
  destruct (ss_compute_ok eigh_ref argsort_ref lstsq_ref norm2_ref det_ref eigh_ref_contract argsort_ref_contract _ _ _ _ _ _ _ _ _ _ H)
    as (M0 & m0 & e & V & w1 & br & z & A & B & k & HX & HM & HB & HC & HS & Hz1 & Hd & ES).
  injection HX as <- <-. cbn [wdefault fst] in HM, HB. fold w92 in HM, HB.
  cbn [ssmethod String.eqb Ascii.eqb Bool.eqb] in HM. unfold mlift in HM.
  assert (HM2 := f_equal snd HM). apply (f_equal fst) in HM. cbn [fst snd] in HM, HM2. subst w1.
  destruct HB as ([[e_br sub_br] li_F] & -> & HB). change (Z.to_nat 1) with 1%nat in HB.
  destruct (active_subspace_spec eigh_ref argsort_ref eigh_ref_contract argsort_ref_contract 4 3 d92 w92 e V eq_refl eq_refl HM) as (lam & L).
  assert (Pw : forall s, (s < 4)%nat -> 0 <= w92.[s, 0%nat]) by (intros; cbn; lra).
  assert (EV := eigsorted_psd_eig _ _ _ _ _ L (gradC_psd 4 3 (ent d92) (fun s => w92.[s, 0%nat]) Pw)).
  assert (EQ : forall j, (j < 3)%nat -> e.[j, 0%nat] = match j with O => 3 | S O => 9 / 4 | _ => 0 end).
  { apply (sorted_eigenvalues_unique 3 _ (fun j => e.[j, 0%nat]) (ent V) (fun j => match j with O => 3 | S O => 9 / 4 | _ => 0 end) kron_delta (es_orth _ _ _ _ _ L) EV (es_dec _ _ _ _ _ L)).
    - intros a b Ha Hb. rewrite (sumf_kd_r 3 a (fun i => kron_delta i b)) || idtac.
      destruct a as [|[|[|a]]]; destruct b as [|[|[|b]]]; try lia; unfold kron_delta; cbn; lra.
    - intros i j Hi Hj. destruct i as [|[|[|i]]]; destruct j as [|[|[|j]]]; try lia; unfold gradC, ent, kron_delta; cbn; lra.
    - intros i j Hij Hj. destruct i as [|[|[|i]]]; destruct j as [|[|[|j]]]; try lia; lra. }
  assert (E0 := EQ 0%nat ltac:(lia)). assert (E1 := EQ 1%nat ltac:(lia)). assert (E2 := EQ 2%nat ltac:(lia)). cbn in E0, E1, E2.
  destruct replicate92 as (d0 & w0 & w2 & HR & Sd0 & Sw0 & Ed0 & Ew0).
  destruct (C11_returns eigh_ref argsort_ref 4 3 d0 w0 eigh_ref_contract eigh_ref_total ltac:(lia) Sd0 Sw0) as (eb & Vb & HMb).
  destruct (active_subspace_spec eigh_ref argsort_ref eigh_ref_contract argsort_ref_contract 4 3 d0 w0 eb Vb Sd0 Sw0 HMb) as (lamb & Lb).
  assert (Pwb : forall s, (s < 4)%nat -> 0 <= w0.[s, 0%nat]) by (intros; rewrite Ew0; cbn; lra).
  assert (EVb := eigsorted_psd_eig _ _ _ _ _ Lb (gradC_psd 4 3 (ent d0) (fun s => w0.[s, 0%nat]) Pwb)).
  assert (EQb : forall j, (j < 3)%nat -> eb.[j, 0%nat] = match j with O => 9 / 2 | S O => 2 | _ => 0 end).
  { apply (sorted_eigenvalues_unique 3 _ (fun j => eb.[j, 0%nat]) (ent Vb) (fun j => match j with O => 9 / 2 | S O => 2 | _ => 0 end)
      (fun i j => match i, j with O, S O => 1 | S O, O => 1 | S (S O), S (S O) => 1 | _, _ => 0 end) (es_orth _ _ _ _ _ Lb) EVb (es_dec _ _ _ _ _ Lb)).
    - intros a b Ha Hb. destruct a as [|[|[|a]]]; destruct b as [|[|[|b]]]; try lia; unfold kron_delta; cbn; lra.
    - intros i j Hi Hj. unfold gradC, ent. cbn [sumf]. rewrite !Ew0, !Ed0.
      destruct i as [|[|[|i]]]; destruct j as [|[|[|j]]]; try lia; cbn; lra.
    - intros i j Hij Hj. destruct i as [|[|[|i]]]; destruct j as [|[|[|j]]]; try lia; lra. }
  destruct (boot_one gen92 unit eigh_ref argsort_ref lstsq_ref norm2_ref det_ref 3 e V d92 w92 world92 e_br sub_br li_F (fst ws') d0 w0 w2 eb Vb 4
    eigh_ref_contract argsort_ref_contract norm2_ref_contract det_ref_contract eq_refl (es_V _ _ _ _ _ L) HB HR HMb) as (B1 & B2).
  assert (PB : 0 < e_br.[1%nat, 0%nat]).
  { rewrite B1 by lia. rewrite (EQb 1%nat) by lia. lra. }
  (* the metric is defined: the first directions are orthogonal *)
  assert (NN : li_F.[0%nat, 0%nat] <> NaN).
  { rewrite B2 by lia. cbv zeta.
    assert (O1 : sumf 3 (fun l => V.[l, 0%nat] * Vb.[l, 0%nat]) = 0).
    { assert (EE := EV). assert (A1 : V.[1%nat, 0%nat] = 0 /\ V.[2%nat, 0%nat] = 0).
      { assert (Q1 := EV 1%nat 0%nat ltac:(lia) ltac:(lia)). assert (Q2 := EV 2%nat 0%nat ltac:(lia) ltac:(lia)).
        unfold gradC, ent in Q1, Q2. cbn [sumf] in Q1, Q2. cbv beta in Q1, Q2. rewrite E0 in Q1, Q2.
        change (d92.[0%nat, 0%nat]) with 2 in *. change (d92.[0%nat, 1%nat]) with 0 in *. change (d92.[0%nat, 2%nat]) with 0 in *.
        change (d92.[1%nat, 0%nat]) with 0 in *. change (d92.[1%nat, 1%nat]) with 3 in *. change (d92.[1%nat, 2%nat]) with 0 in *.
        change (d92.[2%nat, 0%nat]) with 2 in *. change (d92.[2%nat, 1%nat]) with 0 in *. change (d92.[2%nat, 2%nat]) with 0 in *.
        change (d92.[3%nat, 0%nat]) with 2 in *. change (d92.[3%nat, 1%nat]) with 0 in *. change (d92.[3%nat, 2%nat]) with 0 in *.
        change (w92.[0%nat, 0%nat]) with (/ INR 4) in *. change (w92.[1%nat, 0%nat]) with (/ INR 4) in *. change (w92.[2%nat, 0%nat]) with (/ INR 4) in *. change (w92.[3%nat, 0%nat]) with (/ INR 4) in *.
        replace (/ INR 4) with (/ 4) in Q1, Q2 by (cbn; lra). split; lra. }
      assert (A2 : Vb.[0%nat, 0%nat] = 0).
      { assert (Q1 := EVb 0%nat 0%nat ltac:(lia) ltac:(lia)).
        unfold gradC, ent in Q1. cbn [sumf] in Q1. cbv beta in Q1. rewrite (EQb 0%nat) in Q1 by lia. rewrite !Ew0, !Ed0 in Q1. cbn [nth] in Q1.
        change (d92.[0%nat, 0%nat]) with 2 in *. change (d92.[0%nat, 1%nat]) with 0 in *. change (d92.[0%nat, 2%nat]) with 0 in *.
        change (d92.[1%nat, 0%nat]) with 0 in *. change (d92.[1%nat, 1%nat]) with 3 in *. change (d92.[1%nat, 2%nat]) with 0 in *.
        replace (/ INR 4) with (/ 4) in Q1 by (cbn; lra). lra. }
      destruct A1 as (A1 & A1'). cbn [sumf]. rewrite A1, A1', A2. ring. }
    assert (D1 : determinant 1 (fun a b => sumf 3 (fun l => V.[l, a] * Vb.[l, b])) = 0).
    { cbn [determinant sumf skip] in *. cbn. cbn in O1. lra. }
    assert (D2 : Rabs (determinant 2 (fun a b => sumf 3 (fun l => V.[l, a] * Vb.[l, b]))) <= 1).
    { apply contraction_det. intros x. apply (cross_short 3 (ent V) (ent Vb) 1 0 2 (es_orth _ _ _ _ _ L) (es_orth _ _ _ _ _ Lb) ltac:(lia) ltac:(lia)). }
    set (g := fun j => match j with O => 0 | S j' => 1 - Rabs (determinant (S j') (fun a b => sumf 3 (fun l => V.[l, a] * Vb.[l, b]))) end).
    assert (G3 : sumf 3 g > 0).
    { change (sumf 3 g) with (0 + g 0%nat + g 1%nat + g 2%nat). unfold g. rewrite D1, Rabs_R0. lra. }
    unfold xdiv. destruct (Req_EM_T (sumf 3 g) 0) as [Z|Z]; [exfalso; lra|discriminate]. }
  destruct (C92_dimension_rules_partial eigh_ref argsort_ref lstsq_ref norm2_ref det_ref gen92 unit 4 3 2 d92 None ptype 1 (world92, subs_new) ws' e A
    eigh_ref_contract argsort_ref_contract norm2_ref_contract det_ref_contract eq_refl I H) as (_ & R).
  { rewrite ES. reflexivity. } { rewrite ES. reflexivity. } { lia. } { lia. } { cbn [Nat.sub]. rewrite E1. lra. } { exact E2. }
  destruct (R e_br) as (R1 & _ & R3); [rewrite ES; reflexivity|exact PB|].
  exists ws', e, A, e_br. split; [exact H|]. split; [rewrite ES; reflexivity|]. split; auto. split; auto. split; auto.
  split; [rewrite ES; reflexivity|]. split; [exact PB|]. split; [rewrite ES; reflexivity|]. split; [exact R1|].
  intros EP. apply (R3 EP sub_br li_F (fst ws')); [|exact NN].
  replace (s_eigenvecs (snd ws')) with (Some V) by (rewrite ES; reflexivity). exact HB.
Qed.

Example C92_case : exists ws' e A e_br,
  ss_compute eigh_ref argsort_ref lstsq_ref norm2_ref det_ref None None (Some d92) None "AS" "RS" 1 (world92, subs_new) = (Ok tt, ws') /\
  s_eigenvals (snd ws') = Some e /\ e.[0%nat, 0%nat] = 3 /\ e.[1%nat, 0%nat] = 9 / 4 /\ e.[2%nat, 0%nat] = 0 /\
  s_e_br (snd ws') = Some e_br /\ 0 < e_br.[1%nat, 0%nat] /\ s_W1 (snd ws') = Some A /\ ncols A = 2%nat.
Proof.
  destruct (run92 "RS" (or_introl eq_refl)) as (ws' & e & A & e_br & H1 & H2 & H3 & H4 & H5 & H6 & H7 & H8 & H9 & _).
  exists ws', e, A, e_br. repeat (split; [assumption|]). auto.
Qed.

(** the ladle rule does not give the number of nonzero eigenvalues: it gives 3 for 2, the whole space *)
Theorem C92_ladle_refuted : ~ (forall eigh argsort lstsq norm2 det (G : gen) (U : Type) M m n d nboot
    (ws ws' : world G U (nd R) * subspaces) e A e_br,
  eigh_contract eigh -> argsort_contract argsort -> norm2_contract norm2 -> det_contract det -> shape d = [M; m] ->
  ss_compute eigh argsort lstsq norm2 det None None (Some d) None "AS" "LI" nboot ws = (Ok tt, ws') ->
  s_eigenvals (snd ws') = Some e -> s_W1 (snd ws') = Some A -> s_e_br (snd ws') = Some e_br ->
  (1 <= n)%nat -> (n < m)%nat -> 0 < e.[(n - 1)%nat, 0%nat] -> e.[n, 0%nat] = 0 -> 0 < e_br.[(n - 1)%nat, 0%nat] ->
  ncols A = n).
Proof.
  intros H. destruct (run92 "LI" (or_intror eq_refl)) as (ws' & e & A & e_br & H1 & H2 & H3 & H4 & H5 & H6 & H7 & H8 & _ & H9).
  assert (Q := H eigh_ref argsort_ref lstsq_ref norm2_ref det_ref gen92 unit 4%nat 3%nat 2%nat d92 1%Z (world92, subs_new) ws' e A e_br
    eigh_ref_contract argsort_ref_contract norm2_ref_contract det_ref_contract eq_refl H1 H2 H8 H6 ltac:(lia) ltac:(lia)).
  cbn [Nat.sub] in Q. rewrite H4, H5 in Q. specialize (Q ltac:(lra) eq_refl H7). rewrite (H9 eq_refl) in Q. discriminate.
Qed.
Print Assumptions C92_ladle_refuted.
