(** Facts about compute used by the final statements: which dimension is
    chosen, when the gradient-based computation returns, and OPG. *)
From Coq Require Import String Reals Lra Lia List Arith ZArith Bool.
From Verif Require Import Prelude Py NumArr LinAlg Lsq Sorting Spectral Det M_Misc M_Gradients M_RespSurf M_Subspaces
  P_Misc P_LocalLinear P_Subspaces P_Estimators P_Partition P_Bootstrap P_SubsState EighRef.
Import ListNotations.
Open Scope R_scope.

(** X and df have the same number of columns when both are given *)
Definition same_columns (X df : option (nd R)) : Prop :=
  forall x d, X = Some x -> df = Some d -> ncols x = ncols d.

(** n (1-based) is the first minimiser / maximiser of crit over 1..N *)
Definition first_best (better : R -> R -> Prop) (N : nat) (crit : nat -> R) (n : nat) : Prop :=
  (1 <= n <= N)%nat /\ (forall q, (1 <= q <= N)%nat -> ~ better (crit q) (crit n)) /\
  (forall q, (1 <= q)%nat -> (q < n)%nat -> better (crit n) (crit q)).

Lemma li_metric : forall m nboot (D : nat -> nat -> R) (F : nd xr), (1 <= m)%nat -> (1 <= nboot)%nat ->
  (forall i j, (i < nboot)%nat -> (j < m - 1)%nat -> Rabs (D i j) <= 1) ->
  (let li j := match j with O => 0 | S j' => sumf nboot (fun i => 1 - Rabs (D i j')) / INR nboot end in
   forall j, (j < m)%nat -> F.[j, 0%nat] = xdiv (Fin (li j)) (Fin (sumf m li))) ->
  (forall j, (j < m)%nat -> F.[j, 0%nat] = NaN) \/
  exists f, (forall j, (j < m)%nat -> F.[j, 0%nat] = Fin (f j) /\ 0 <= f j) /\ sumf m f = 1.
Proof.
  intros m nboot D F Hm Hn HD HF. set (li := fun j => match j with O => 0 | S j' => sumf nboot (fun i => 1 - Rabs (D i j')) / INR nboot end). fold li in HF. cbv zeta in HF.
  assert (HN : 0 < INR nboot) by (apply lt_0_INR; lia).
  assert (Pli : forall j, (j < m)%nat -> 0 <= li j).
  { intros [|j] Hj; unfold li; [lra|]. apply Rmult_le_pos; [|left; now apply Rinv_0_lt_compat].
    apply sumf_nonneg. intros i Hi. specialize (HD i j Hi ltac:(lia)). lra. }
  destruct (Req_EM_T (sumf m li) 0) as [E|E].
  - left. intros j Hj. rewrite HF by auto.
    assert (L0 : li j = 0) by (apply (sumf_nonneg_eq0 m li Pli E j Hj)).
    rewrite E, L0. cbn. destruct (Req_EM_T 0 0); [|lra]. unfold xsgninf. destruct (Rlt_dec 0 0); [lra|]. reflexivity.
  - right. exists (fun j => li j / sumf m li). assert (SP : 0 < sumf m li) by (pose proof (sumf_nonneg m li Pli); lra).
    split.
    + intros j Hj. split; [rewrite HF by auto; now apply xdiv_fin|]. apply Rmult_le_pos; [auto|left; now apply Rinv_0_lt_compat].
    + unfold Rdiv. rewrite sumf_scal_r. field. exact E.
Qed.

Section Live.
  Context {G : gen} {U : Type}.
  Notation W := (world G U (nd R)).
  Variable eigh : nd R -> res (nd R * nd R).
  Variable argsort : list R -> list nat.
  Variable lstsq : nd R -> nd R -> res (nd R).
  Variable norm2 : nd R -> R.
  Variable det : nd R -> R.
  Hypothesis Heigh : eigh_contract eigh.
  Hypothesis Hsort : argsort_contract argsort.
  Hypothesis Htot : eigh_total eigh.

  Lemma ssmethod_shapes : forall sstype X f df weights (w : W) e V w',
    ssmethod eigh argsort lstsq sstype X f df weights w = (Ok (e, V), w') ->
    exists k, shape e = [k; 1%nat] /\ shape V = [k; k].
  Proof.
    intros. destruct (ssmethod_ok eigh argsort lstsq Heigh Hsort _ _ _ _ _ _ _ _ _ H) as (m & C & lam & _ & HE).
    exists m. split; [apply (es_e _ _ _ _ _ HE)|apply (es_V _ _ _ _ _ HE)].
  Qed.

  (** one bootstrap replicate of the gradient method returns *)
  Lemma boot_step_returns : forall M m Wm X f d weights (w : W), (1 <= M)%nat -> (1 <= m)%nat ->
    shape Wm = [m; m] -> shape d = [M; m] -> shape weights = [M; 1%nat] ->
    (forall x, X = Some x -> exists k, shape x = [M; k]) -> (forall x, f = Some x -> exists k, shape x = [M; k]) ->
    exists r w', boot_step norm2 det m Wm X f (Some d) weights (ssmethod eigh argsort lstsq "AS") w = (Ok r, w').
  Proof.
    intros M m Wm X f d weights w HM Hm HW Hd Hw HX Hf. unfold boot_step.
    destruct (bootstrap_replicate_returns X f (Some d) weights M 1 w Hw HM HX Hf) as ((((X0 & f0) & d0) & w0) & w1 & E).
    { intros x Hx. injection Hx as <-. eauto. }
    unfold mbind at 1. rewrite E.
    destruct (bootstrap_replicate_ok _ _ _ _ _ _ _ _ _ _ E) as (ind & L1 & L2 & _ & _ & _ & (d0' & -> & Rd) & Rw).
    rewrite (nrows_shape2 _ weights M 1 Hw) in L1.
    destruct Rd as (r & c & S1 & S2 & _). rewrite Hd in S1. injection S1 as <- <-. rewrite L1 in S2.
    destruct Rw as (r & c & S3 & S4 & _). rewrite Hw in S3. injection S3 as <- <-. rewrite L1 in S4.
    unfold ssmethod at 1. cbn [String.eqb Ascii.eqb Bool.eqb].
    destruct (active_subspace_returns eigh argsort Heigh M m d0' w0 Htot Hm S2 S4) as ((e0 & V0) & EA).
    unfold mlift at 1. rewrite EA. unfold mbind at 1.
    destruct (active_subspace_spec eigh argsort Heigh Hsort M m d0' w0 e0 V0 S2 S4 EA) as (lam & L).
    assert (Se := es_e _ _ _ _ _ L). assert (SV := es_V _ _ _ _ _ L).
    destruct (reshape_ok _ [m] e0) as (ev & F1 & _); [unfold size; rewrite Se; simpl; lia|].
    unfold mlift at 1. rewrite F1. unfold mbind at 1.
    rewrite (ncols_shape2 _ V0 m m SV).
    destruct (mapr_ok _ _ (fun j => cross Wm V0 j (j + 1) m) (seq 0 (m - 1))) as (ds & Eds).
    { intros j Hj. apply in_seq in Hj. destruct (cross_ok m Wm V0 j (j + 1) m HW SV ltac:(lia) ltac:(lia) ltac:(lia)) as (P & E1 & _). eauto. }
    destruct (mapr_ok _ _ (fun j => cross Wm V0 j 0 (j + 1)) (seq 0 (m - 1))) as (dt & Edt).
    { intros j Hj. apply in_seq in Hj. destruct (cross_ok m Wm V0 j 0 (j + 1) HW SV ltac:(lia) ltac:(lia) ltac:(lia)) as (P & E1 & _). eauto. }
    unfold mlift. rewrite Eds. unfold mbind at 1. rewrite Edt. unfold mbind at 1. eexists; eexists; reflexivity.
  Qed.

  Lemma bootstrap_returns : forall M m e Wm X f d weights nboot (w : W), (1 <= M)%nat -> (1 <= m)%nat ->
    shape Wm = [m; m] -> shape d = [M; m] -> shape weights = [M; 1%nat] ->
    (forall x, X = Some x -> exists k, shape x = [M; k]) -> (forall x, f = Some x -> exists k, shape x = [M; k]) ->
    exists r w', bootstrap_ranges norm2 det e Wm X f (Some d) weights (ssmethod eigh argsort lstsq "AS") nboot w = (Ok r, w').
  Proof.
    intros M m e Wm X f d weights nboot w HM Hm HW Hd Hw HX Hf. unfold bootstrap_ranges.
    rewrite (process_inputs_eq _ d M m Hd). cbn [rbind]. unfold mlift at 1, mbind at 1.
    destruct (Nat.eqb_spec m 0); [lia|].
    destruct (mmap_total W _ _ (fun _ : nat => boot_step norm2 det m Wm X f (Some d) weights (ssmethod eigh argsort lstsq "AS"))) with (l := seq 0 nboot) (w := w) as (rs & w' & E).
    { intros _ w0. apply (boot_step_returns M m); auto. }
    unfold mbind. rewrite E. eexists; eexists; reflexivity.
  Qed.

  Hypothesis Hnorm : norm2_contract norm2.
  Hypothesis Hdet : det_contract det.

  (** what a bootstrap of an orthogonal eigenvector matrix gives *)
  Lemma bootstrap_facts : forall sstype e Wm X f df weights nboot (w : W) e_br sub_br li_F w' m,
    (1 <= nboot)%nat -> shape Wm = [m; m] -> orthonormal m m (ent Wm) -> (forall k, data_dim X df k -> k = m) ->
    bootstrap_ranges norm2 det e Wm X f df weights (ssmethod eigh argsort lstsq sstype) nboot w = (Ok (e_br, sub_br, li_F), w') ->
    shape sub_br = [(m - 1)%nat; 3%nat] /\ shape li_F = [m; 1%nat] /\ (1 <= m)%nat /\
    ((forall j, (j < m)%nat -> li_F.[j, 0%nat] = NaN) \/
     exists f, (forall j, (j < m)%nat -> li_F.[j, 0%nat] = Fin (f j) /\ 0 <= f j) /\ sumf m f = 1).
  Proof.
    intros sstype e Wm X f df weights nboot w e_br sub_br li_F w' m Hn HW HO Hd H.
    destruct (bootstrap_ranges_ok norm2 det Hnorm Hdet e Wm X f df weights _ nboot w e_br sub_br li_F w' m Hn HW
      ltac:(intros k Hk; symmetry; auto) (ssmethod_shapes sstype) H) as (Hm & _ & _ & S2 & S3 & ind & eb & Vb & dist & R1 & R2 & R3 & R4 & R5).
    split; auto. split; auto. split; auto.
    apply (li_metric m nboot (fun i j => determinant (S j) (crossprod m (ent Wm) (ent (Vb i)) 0)) li_F Hm Hn); auto.
    intros i j Hi Hj. destruct (R1 i Hi) as ((_ & _ & X0 & f0 & df0 & w0 & wa & wb & _ & _ & _ & _ & HM) & _ & SV).
    destruct (ssmethod_ok eigh argsort lstsq Heigh Hsort _ _ _ _ _ _ _ _ _ HM) as (k & C & lam & _ & HE).
    assert (k = m) by (pose proof (es_V _ _ _ _ _ HE) as Q; rewrite SV in Q; congruence). subst k.
    apply subspace_det_range; auto; [apply (es_orth _ _ _ _ _ HE)|lia].
  Qed.

  (** what the partition rules choose *)
  Lemma choose_dim_ok : forall ptype m e br n, shape e = [m; 1%nat] -> (1 <= m)%nat -> (forall j, (j < m)%nat -> 0 <= e.[j, 0%nat]) ->
    (forall a sub_br li_F, br = Some (a, sub_br, li_F) -> shape sub_br = [(m - 1)%nat; 3%nat] /\ shape li_F = [m; 1%nat] /\
       ((forall j, (j < m)%nat -> li_F.[j, 0%nat] = NaN) \/
        exists f, (forall j, (j < m)%nat -> li_F.[j, 0%nat] = Fin (f j) /\ 0 <= f j) /\ sumf m f = 1)) ->
    choose_dim ptype m e br = Ok n ->
    let E q := e.[(q - 1)%nat, 0%nat] in
    (ptype = "EVG"%string /\ first_best Rgt (m - 1) (fun q => Rabs (E q - E (q + 1)%nat)) (Z.to_nat n)) \/
    (ptype = "RS"%string /\ exists a sub_br li_F, br = Some (a, sub_br, li_F) /\
       first_best Rlt (m - 1) (fun q => sqrt (sumf q (fun i => e.[i, 0%nat])) * sub_br.[(q - 1)%nat, 1%nat]
                                        + sqrt (sumf (m - q) (fun i => e.[(q + i)%nat, 0%nat]))) (Z.to_nat n)) \/
    (ptype = "LI"%string /\ exists a sub_br li_F, br = Some (a, sub_br, li_F) /\
       ((Z.to_nat n = 1%nat /\ (li_F.[0%nat, 0%nat] = NaN \/ forall i, (i < m)%nat -> e.[i, 0%nat] = 0)) \/
        exists f, (forall j, (j < m)%nat -> li_F.[j, 0%nat] = Fin (f j)) /\
          first_best Rlt m (fun q => f (q - 1)%nat + E q / sumf m (fun i => e.[i, 0%nat])) (Z.to_nat n))).
  Proof.
    intros ptype m e br n He Hm Hp Hbr H E. unfold choose_dim in H.
    destruct (String.eqb_spec ptype "EVG") as [->|_].
    { left. split; auto. apply rbind_ok in H. destruct H as ((n' & ed) & H & EE). injection EE as <-.
      destruct (le_lt_dec m 1) as [L|L]; [rewrite (eig_partition_small m e He L) in H; discriminate|].
      destruct (eig_partition_eq m e He L) as (k & ed' & EP & _ & _ & K1 & K2 & K3). rewrite EP in H. injection H as <- _.
      replace (Z.to_nat (Z.of_nat k + 1)) with (k + 1)%nat by lia.
      assert (A : forall q, (1 <= q)%nat -> Rabs (E q - E (q + 1)%nat) = Rabs (e.[S (q - 1), 0%nat] - e.[(q - 1)%nat, 0%nat])).
      { intros q Hq. rewrite Rabs_minus_sym. unfold E. do 3 f_equal. do 2 f_equal. lia. }
      split; [lia|]. rewrite (A (k + 1)%nat ltac:(lia)). replace (k + 1 - 1)%nat with k by lia.
      split; intros q Hq; [|intros Hq2]; rewrite (A q ltac:(lia)).
      - apply Rle_not_gt. apply K2. lia.
      - apply K3. lia. }
    destruct (String.eqb_spec ptype "RS") as [->|_].
    { right. left. split; auto. destruct br as [((a & sub_br) & li_F)|]; [|discriminate]. exists a, sub_br, li_F. split; auto.
      destruct (Hbr a sub_br li_F eq_refl) as (S2 & _ & _).
      apply rbind_ok in H. destruct H as (err & HR & H). apply rbind_ok in H. destruct H as ((n' & eb) & H & EE). injection EE as <-.
      destruct (le_lt_dec m 1) as [L|L]; [assert (m = 1%nat) by lia; subst m; rewrite (errbnd_partition_one e err He) in H; discriminate|].
      rewrite (nrows_shape2 _ sub_br _ _ S2) in HR.
      destruct (reshape_ok _ [(m - 1)%nat; 1%nat] (mk1 (m - 1) (fun i => sub_br.[i, 1%nat]))) as (err' & F1 & F2 & F3); [cbn; lia|].
      rewrite F1 in HR. injection HR as ->.
      assert (Eerr : forall i, (i < m - 1)%nat -> err.[i, 0%nat] = sub_br.[i, 1%nat]).
      { intros i Hi. rewrite F3 by (constructor; [auto|constructor; [lia|constructor]]). cbn [shape mk1 unravel ravel prodn].
        change (1 * 1)%nat with 1%nat. rewrite Nat.div_1_r. cbn [at_ mk1 nth]. do 2 f_equal. lia. }
      destruct (errbnd_partition_eq m e err He F2 L Hp) as (k & eb' & EP & _ & _ & K1 & K2 & K3). rewrite EP in H. injection H as <- _.
      replace (Z.to_nat (Z.of_nat k + 1)) with (k + 1)%nat by lia.
      assert (A : forall q, (1 <= q)%nat -> (q <= m - 1)%nat -> sqrt (sumf q (fun i => e.[i, 0%nat])) * sub_br.[(q - 1)%nat, 1%nat]
          + sqrt (sumf (m - q) (fun i => e.[(q + i)%nat, 0%nat])) = rs_bound m (fun k => e.[k, 0%nat]) (fun k => err.[k, 0%nat]) (q - 1 + 1)).
      { intros q Hq Hq'. unfold rs_bound. replace (q - 1 + 1)%nat with q by lia. rewrite Eerr by lia. reflexivity. }
      split; [lia|]. rewrite (A (k + 1)%nat ltac:(lia) ltac:(lia)). replace (k + 1 - 1)%nat with k by lia.
      split; intros q Hq; [|intros Hq2]; rewrite (A q ltac:(lia) ltac:(lia)).
      - apply Rle_not_lt. apply K2. lia.
      - apply K3. lia. }
    destruct (String.eqb_spec ptype "LI") as [->|_]; [|discriminate].
    right. right. split; auto. destruct br as [((a & sub_br) & li_F)|]; [|discriminate]. exists a, sub_br, li_F. split; auto.
    destruct (Hbr a sub_br li_F eq_refl) as (_ & S3 & HL).
    apply rbind_ok in H. destruct H as ((n' & eb) & H & EE). injection EE as <-.
    destruct HL as [HN|(f & Hf & _)].
    { left. destruct (ladle_partition_nan m e li_F He S3 Hm) as (Gm & EP & _); [left; auto|]. rewrite EP in H. injection H as <- _. split; auto. }
    destruct (Req_EM_T (sumf m (fun i => e.[i, 0%nat])) 0) as [Z0|Z0].
    { left. assert (Z1 : forall i, (i < m)%nat -> e.[i, 0%nat] = 0) by (intros i Hi; apply (sumf_nonneg_eq0 m (fun i => e.[i, 0%nat]) Hp Z0 i Hi)).
      destruct (ladle_partition_nan m e li_F He S3 Hm) as (Gm & EP & _); [right; auto|]. rewrite EP in H. injection H as <- _. split; auto. }
    right. exists f. split; [intros j Hj; apply Hf; auto|].
    destruct (ladle_partition_eq m e li_F f He S3 Hm ltac:(intros; apply Hf; auto) Z0) as (k & Gm & EP & _ & _ & K1 & K2 & K3). rewrite EP in H. injection H as <- _.
    replace (Z.to_nat (Z.of_nat k + 1)) with (k + 1)%nat by lia. split; [lia|]. unfold E. replace (k + 1 - 1)%nat with k by lia.
    split; intros q Hq; [|intros Hq2].
    - apply Rle_not_lt. apply K2. lia.
    - apply K3. lia.
  Qed.
End Live.
