(** Facts for the unit tests of the subspaces and domains: bootstrapping any method
    that returns, the largest eigenvalue, and local linear models with repeated points. *)
From Coq Require Import String Reals Lra Lia List Arith ZArith Bool Permutation.
From Verif Require Import Prelude Py NumArr LinAlg Lsq Sorting Spectral Det M_Misc M_Gradients M_RespSurf M_Subspaces
  P_Misc P_LocalLinear P_Subspaces P_Estimators P_Partition P_SubsState P_SubsLive EighRef P_PolyTrain M_Tests P_Tests M_Domains M_TestsSpace P_Notebooks Properties_ComputeLive P_Bootstrap.
Import ListNotations.
Open Scope R_scope.

Section Boot.
  Context {G : gen} {U : Type}.
  Notation W := (world G U (nd R)).
  Variable norm2 : nd R -> R.
  Variable det : nd R -> R.
  Variable meth : option (nd R) -> option (nd R) -> option (nd R) -> nd R -> Py.M W (nd R * nd R).
  Variables (M m : nat) (X f df : option (nd R)) (weights : nd R).
  Hypothesis HM : (1 <= M)%nat.
  Hypothesis Hm : (1 <= m)%nat.
  Hypothesis Hw : shape weights = [M; 1%nat].
  Hypothesis HX : forall x, X = Some x -> exists k, shape x = [M; k].
  Hypothesis Hf : forall x, f = Some x -> exists k, shape x = [M; k].
  Hypothesis Hd : forall x, df = Some x -> exists k, shape x = [M; k].
  (** the method returns on every resampling that the generator can draw *)
  Hypothesis Hmeth : forall ind X0 f0 df0 w0 (st : W), (exists sa sb : W, repeatM M (draw_randint M) sa = (Ok ind, sb)) ->
    List.length ind = M -> Forall (fun k => (k < M)%nat) ind ->
    opt_rows_of X ind X0 -> opt_rows_of f ind f0 -> opt_rows_of df ind df0 -> rows_of weights ind w0 ->
    exists e V st', meth X0 f0 df0 w0 st = (Ok (e, V), st') /\ shape e = [m; 1%nat] /\ shape V = [m; m].

  Lemma replicate_drawn : forall (w : W), exists ind X0 f0 df0 w0 w1, bootstrap_replicate X f df weights w = (Ok (X0, f0, df0, w0), w1) /\
    (exists sa sb : W, repeatM M (draw_randint M) sa = (Ok ind, sb)) /\ List.length ind = M /\ Forall (fun k => (k < M)%nat) ind /\
    opt_rows_of X ind X0 /\ opt_rows_of f ind f0 /\ opt_rows_of df ind df0 /\ rows_of weights ind w0.
  Proof using HM Hw HX Hf Hd.
    clear Hmeth Hm. intros w. destruct (bootstrap_replicate_returns X f df weights M 1 w Hw HM HX Hf Hd) as ((((X0 & f0) & d0) & w0) & w1 & E).
    pose proof E as H. unfold bootstrap_replicate in H. rewrite Hw in H. destruct M as [|M']; [lia|].
    apply mbind_ok in H. destruct H as (ind & w2 & H1 & H).
    apply mbind_ok in H. destruct H as (X1 & w3 & H2 & H). unfold mlift in H2. injection H2 as H2 <-.
    apply mbind_ok in H. destruct H as (f1 & w3 & H3 & H). unfold mlift in H3. injection H3 as H3 <-.
    apply mbind_ok in H. destruct H as (d1 & w3 & H4 & H). unfold mlift in H4. injection H4 as H4 <-.
    apply mbind_ok in H. destruct H as (w3 & w4 & H5 & H). unfold mlift in H5. injection H5 as H5 <-.
    inversion H; subst. exists ind, X0, f0, d0, w0, w1. split; [exact E|]. split; [eauto|].
    split; [eapply repeatM_length; eauto|].
    split; [eapply (repeatM_all (fun k => (k < S M')%nat)); eauto; intros; eapply draw_randint_range; eauto|].
    repeat split; try (apply opt_rows_ok; auto). now apply fancy_rows_ok.
  Qed.

  Lemma gen_boot_step : forall Wm (w : W), shape Wm = [m; m] -> exists r w', boot_step norm2 det m Wm X f df weights meth w = (Ok r, w').
  Proof.
    intros Wm w HW. unfold boot_step.
    destruct (replicate_drawn w) as (ind & X0 & f0 & d0 & w0 & w1 & E & R1 & L1 & L2 & Q1 & Q2 & Q3 & Q4).
    unfold mbind at 1. rewrite E.
    destruct (Hmeth ind X0 f0 d0 w0 w1 R1 L1 L2 Q1 Q2 Q3 Q4) as (e0 & V0 & w2 & EM & Se & SV). unfold mbind at 1. rewrite EM.
    destruct (reshape_ok _ [m] e0) as (ev & F1 & _); [unfold size; rewrite Se; simpl; lia|].
    unfold mlift at 1. rewrite F1. unfold mbind at 1.
    rewrite (ncols_shape2 _ V0 m m SV).
    destruct (mapr_ok _ _ (fun j => cross Wm V0 j (j + 1) m) (seq 0 (m - 1))) as (ds & Eds).
    { intros j Hj. apply in_seq in Hj. destruct (cross_ok m Wm V0 j (j + 1) m HW SV ltac:(lia) ltac:(lia) ltac:(lia)) as (P & E1 & _). eauto. }
    destruct (mapr_ok _ _ (fun j => cross Wm V0 j 0 (j + 1)) (seq 0 (m - 1))) as (dt & Edt).
    { intros j Hj. apply in_seq in Hj. destruct (cross_ok m Wm V0 j 0 (j + 1) HW SV ltac:(lia) ltac:(lia) ltac:(lia)) as (P & E1 & _). eauto. }
    unfold mlift. rewrite Eds. unfold mbind at 1. rewrite Edt. unfold mbind at 1. eexists; eexists; reflexivity.
  Qed.

  (** the gradients, or else the points, have m columns *)
  Hypothesis Hdim : match df, X with Some d, _ => shape d = [M; m] | None, Some x => shape x = [M; m] | None, None => False end.

  Lemma gen_bootstrap : forall e Wm nboot (w : W), shape Wm = [m; m] ->
    exists e_br sub_br li_F w', bootstrap_ranges norm2 det e Wm X f df weights meth nboot w = (Ok (e_br, sub_br, li_F), w') /\
      shape sub_br = [(m - 1)%nat; 3%nat] /\ shape li_F = [m; 1%nat].
  Proof.
    intros e Wm nboot w HW.
    assert (EP : (match df with
       | Some d => do (d', M, m) <- process_inputs d; Ok (X, Some d', m)
       | None => match X with Some x => do (x', M, m) <- process_inputs x; Ok (Some x', None, m) | None => Err AttributeError end end) = Ok (X, df, m)).
    { destruct df as [d|]; [|destruct X as [x|]; [|contradiction]].
      - now rewrite (process_inputs_eq _ d M m Hdim).
      - now rewrite (process_inputs_eq _ x M m Hdim). }
    unfold bootstrap_ranges. rewrite EP. unfold mlift at 1, mbind at 1.
    destruct (Nat.eqb_spec m 0); [lia|].
    destruct (mmap_total W _ _ (fun _ : nat => boot_step norm2 det m Wm X f df weights meth)) with (l := seq 0 nboot) (w := w) as (rs & w' & E).
    { intros _ w0. apply gen_boot_step; auto. }
    unfold mbind. rewrite E. do 4 eexists. split; [reflexivity|]. split; reflexivity.
  Qed.
End Boot.

(** ** Computing from all of X, f, df *)
Section Compute.
  Context {G : gen} {U : Type}.
  Notation W := (world G U (nd R)).
  Variable eigh : nd R -> res (nd R * nd R).
  Variable argsort : list R -> list nat.
  Variable lstsq : nd R -> nd R -> res (nd R).
  Variable norm2 : nd R -> R.
  Variable det : nd R -> R.
  Hypothesis HE : eigh_contract eigh.
  Hypothesis HA : argsort_contract argsort.
  Variables (M m : nat) (sstype : string) (x f d weights : nd R).
  Hypothesis HM : (1 <= M)%nat.
  Hypothesis Hm : (2 <= m)%nat.
  Hypothesis Sx : shape x = [M; m].
  Hypothesis Sf : shape f = [M; 1%nat].
  Hypothesis Sd : shape d = [M; m].
  Hypothesis Sw : shape weights = [M; 1%nat].
  Hypothesis Hfull : forall (st : W), exists e V st', ssmethod eigh argsort lstsq sstype (Some x) (Some f) (Some d) weights st = (Ok (e, V), st').
  Variable boot : bool.
  Hypothesis Hmeth : boot = true -> forall ind x0 f0 d0 w0 (st : W), (exists sa sb : W, repeatM M (draw_randint M) sa = (Ok ind, sb)) ->
    List.length ind = M -> Forall (fun k => (k < M)%nat) ind ->
    rows_of x ind x0 -> rows_of f ind f0 -> rows_of d ind d0 -> rows_of weights ind w0 ->
    exists e V st', ssmethod eigh argsort lstsq sstype (Some x0) (Some f0) (Some d0) w0 st = (Ok (e, V), st').

  Lemma full_sorted : forall M' x0 f0 d0 w0 (st st' : W) e V, shape x0 = [M'; m] -> shape d0 = [M'; m] ->
    ssmethod eigh argsort lstsq sstype (Some x0) (Some f0) (Some d0) w0 st = (Ok (e, V), st') -> exists C lam, eigsorted m C e V lam.
  Proof.
    intros M' x0 f0 d0 w0 st st' e V S1 S2 H. destruct (ssmethod_ok eigh argsort lstsq HE HA _ _ _ _ _ _ _ _ _ H) as (k & C & lam & Hk & L).
    unfold method_dim in Hk. destruct (String.eqb sstype "AS"); destruct Hk as (y & M2 & Ey & Sy); injection Ey as <-; rewrite ?S1, ?S2 in Sy; injection Sy as _ <-; eauto.
  Qed.

  Lemma gen_compute : forall ptype nboot (ws : W * subspaces),
    (ptype = "EVG"%string /\ ((0 < nboot)%Z -> boot = true) \/ (ptype = "RS" \/ ptype = "LI")%string /\ (0 < nboot)%Z /\ boot = true) ->
    exists ws', ss_compute eigh argsort lstsq norm2 det (Some x) (Some f) (Some d) (Some weights) sstype ptype nboot ws = (Ok tt, ws').
  Proof.
    intros ptype nboot [w s] Hp. destruct (Hfull w) as (e & V & w1 & EA).
    destruct (full_sorted M _ _ _ _ _ _ _ _ Sx Sd EA) as (C & lam & L).
    assert (Se := es_e _ _ _ _ _ L). assert (SV := es_V _ _ _ _ _ L).
    unfold ss_compute. rewrite (process_inputs_eq _ x M m Sx). cbn [rbind]. unfold mlift at 1, mbind at 1.
    unfold liftW at 1, mbind at 1. cbn [fst snd]. rewrite EA.
    unfold mbind at 1, getS at 1. cbn [snd fst]. unfold mbind at 1, setS at 1. cbn [snd fst].
    match goal with |- context [mbind (if Z.ltb 0 nboot then _ else _) ?K] =>
      assert (HB : exists br w', ((if Z.ltb 0 nboot
         then dom r <- liftW (bootstrap_ranges norm2 det e V (Some x) (Some f) (Some d) weights (ssmethod eigh argsort lstsq sstype) (Z.to_nat nboot)); mret (Some r)
         else if (String.eqb ptype "RS" || String.eqb ptype "LI")%bool then merr (Exc "Need to run bootstrap for partition type") else mret None)
         (w1, Subs (Some e) (Some V) (s_W1 s) (s_W2 s) (s_e_br s) (s_sub_br s)) = (Ok br, (w', Subs (Some e) (Some V) (s_W1 s) (s_W2 s) (s_e_br s) (s_sub_br s)))) /\
         exists n, choose_dim ptype m e br = Ok n /\ (1 <= n <= Z.of_nat m)%Z) end.
    { assert (EVG : forall br, ptype = "EVG"%string -> exists n, choose_dim ptype m e br = Ok n /\ (1 <= n <= Z.of_nat m)%Z).
      { intros br ->. destruct (eig_partition_eq m e Se Hm) as (k & ed & EP & _ & _ & K1 & _).
        unfold choose_dim. cbn [String.eqb Ascii.eqb Bool.eqb]. rewrite EP. cbn [rbind]. eexists. split; [reflexivity|]. lia. }
      destruct (Z.ltb_spec 0 nboot) as [Lb|Lb].
      - assert (HB : boot = true) by tauto. specialize (Hmeth HB).
        destruct (gen_bootstrap (G := G) (U := U) norm2 det (ssmethod eigh argsort lstsq sstype) M m (Some x) (Some f) (Some d) weights HM ltac:(lia) Sw) with (e := e) (Wm := V) (nboot := Z.to_nat nboot) (w := w1)
          as (e_br & sub_br & li_F & w' & EB & T1 & T2).
        { intros y Hy. injection Hy as <-. eauto. }
        { intros y Hy. injection Hy as <-. eauto. }
        { intros y Hy. injection Hy as <-. eauto. }
        { intros ind X0 f0 d0 w0 st R1 L1 L2 (x0 & -> & Q1) (g0 & -> & Q2) (h0 & -> & Q3) Q4.
          destruct (Hmeth ind x0 g0 h0 w0 st R1 L1 L2 Q1 Q2 Q3 Q4) as (e0 & V0 & st' & EM).
          destruct Q1 as (r & c & S1 & S2 & _). rewrite Sx in S1. injection S1 as <- <-. rewrite L1 in S2.
          destruct Q3 as (r & c & S3 & S4 & _). rewrite Sd in S3. injection S3 as <- <-. rewrite L1 in S4.
          destruct (full_sorted M _ _ _ _ _ _ _ _ S2 S4 EM) as (C0 & lam0 & L0).
          exists e0, V0, st'. split; auto. split; [apply (es_e _ _ _ _ _ L0)|apply (es_V _ _ _ _ _ L0)]. }
        { exact Sd. }
        { exact SV. }
        exists (Some (e_br, sub_br, li_F)), w'. split.
        + unfold mbind, liftW. cbn [fst snd]. rewrite EB. reflexivity.
        + destruct Hp as [[Hp _]|[[Hp|Hp] _]]; [apply EVG; auto| |]; subst ptype; unfold choose_dim; cbn [String.eqb Ascii.eqb Bool.eqb].
          * rewrite (nrows_shape2 _ sub_br _ _ T1).
            destruct (reshape_ok _ [(m - 1)%nat; 1%nat] (mk1 (m - 1) (fun i => sub_br.[i, 1%nat]))) as (err & F1 & F2 & F3); [cbn; lia|].
            rewrite F1. cbn [rbind].
            destruct (errbnd_partition_eq m e err Se F2 Hm (eigsorted_nonneg _ _ _ _ _ L)) as (k & eb & EP & _ & _ & K1 & _).
            rewrite EP. cbn [rbind]. eexists. split; [reflexivity|]. lia.
          * destruct (ladle_sum m e li_F Se T2) as (Gm & G1 & G2 & ->).
            destruct (np_argmin_col m Gm G1 ltac:(lia)) as (k & Ek & Hk & _). rewrite Ek. cbn [rbind]. eexists. split; [reflexivity|]. lia.
      - destruct Hp as [[Hp _]|[_ [Hp _]]]; [|lia]. exists None, w1. split; [|apply EVG; auto]. subst ptype. reflexivity. }
    destruct HB as (br & w' & HB & n & Hn & Hn2). unfold mbind at 1. rewrite HB.
    unfold mbind at 1, getS at 1. cbn [snd fst]. unfold mbind at 1, setS at 1. cbn [snd fst s_eigenvals s_eigenvecs s_W1 s_W2].
    unfold mlift at 1. rewrite Hn. unfold mbind at 1.
    apply ss_partition_iff. exists n, V. cbn [snd s_eigenvecs]. split; auto. split; auto. now rewrite (nrows_shape2 _ V m m SV).
  Qed.
End Compute.

(** ** A largest eigenvalue that stands alone *)
(** some direction beats all those perpendicular to it *)
Definition sole_maximum (m : nat) (q : (nat -> R) -> R) : Prop :=
  exists x, dot m x x = 1 /\ forall y, dot m y y = 1 -> dot m x y = 0 -> q y < q x.

Lemma sole_maximum_ext : forall m q q', (forall x, q x = q' x) -> sole_maximum m q <-> sole_maximum m q'.
Proof. intros m q q' E. split; intros (x & H1 & H2); exists x; split; auto; intros y Y1 Y2; specialize (H2 y Y1 Y2); rewrite !E in *; auto. Qed.

Lemma sumf_split2 : forall m g, (2 <= m)%nat -> sumf m g = g 0%nat + g 1%nat + sumf (m - 2) (fun j => g (2 + j)%nat).
Proof.
  intros m g H. replace m with (2 + (m - 2))%nat at 1 by lia. rewrite sumf_split. cbn. ring.
Qed.

Lemma gap_iff : forall m C e V lam, eigsorted m C e V lam -> psd m C -> (2 <= m)%nat ->
  (e.[1%nat, 0%nat] < e.[0%nat, 0%nat] <-> sole_maximum m (quad m C)).
Proof.
  intros m C e V lam L P Hm.
  assert (HO := es_orth _ _ _ _ _ L). assert (HE := es_eig _ _ _ _ _ L).
  assert (E : forall j, (j < m)%nat -> e.[j, 0%nat] = lam j).
  { intros j Hj. rewrite (es_abs _ _ _ _ _ L j Hj). apply Rabs_right, Rle_ge. rewrite <- (quad_eigvec m C lam (ent V) HO HE j Hj). apply P. }
  assert (D : forall i j, (i <= j)%nat -> (j < m)%nat -> lam j <= lam i).
  { intros i j Hij Hj. rewrite <- !E by lia. now apply (es_dec _ _ _ _ _ L). }
  rewrite !E by lia. set (v j := fun i => ent V i j).
  assert (PV : forall y, sumf m (fun j => dot m (v j) y * dot m (v j) y) = dot m y y).
  { intros y. unfold dot at 3. rewrite <- (ortho_parseval m (ent V) HO y). reflexivity. }
  assert (Q : forall y, quad m C y = sumf m (fun j => lam j * (dot m (v j) y * dot m (v j) y))) by (intros; apply quad_spectral; auto).
  assert (VV : forall a b, (a < m)%nat -> (b < m)%nat -> dot m (v a) (v b) = kron_delta a b) by (intros; apply HO; auto).
  split.
  - intros Hlt. exists (v 0%nat). split; [rewrite VV by lia; apply kd_same|]. intros y Hy H0.
    change (quad m C (v 0%nat)) with (quad m C (fun i => ent V i 0%nat)). rewrite (quad_eigvec m C lam (ent V) HO HE) by lia.
    apply Rle_lt_trans with (lam 1%nat); auto. rewrite Q.
    apply Rle_trans with (sumf m (fun j => lam 1%nat * (dot m (v j) y * dot m (v j) y))).
    + apply sumf_le. intros [|j] Hj; [rewrite H0; lra|]. apply Rmult_le_compat_r; [apply Rle_0_sqr|]. apply D; lia.
    + rewrite sumf_scal_l, PV, Hy. lra.
  - intros (x & Hx & H). destruct (Rle_lt_dec (lam 0%nat) (lam 1%nat)) as [Hle|]; auto. exfalso.
    assert (E01 : lam 1%nat = lam 0%nat) by (apply Rle_antisym; auto; apply D; lia).
    assert (U1 : quad m C x <= lam 0%nat).
    { rewrite Q. apply Rle_trans with (sumf m (fun j => lam 0%nat * (dot m (v j) x * dot m (v j) x))).
      - apply sumf_le. intros j Hj. apply Rmult_le_compat_r; [apply Rle_0_sqr|]. apply D; lia.
      - rewrite sumf_scal_l, PV, Hx. lra. }
    (* a unit y in the plane of the first two eigenvectors, perpendicular to x *)
    set (a0 := dot m (v 0%nat) x). set (b0 := dot m (v 1%nat) x).
    assert (UV : forall a b, a * a + b * b = 1 -> a * a0 + b * b0 = 0 -> False).
    { intros a b Hab Hx0. set (y := fun i => a * v 0%nat i + b * v 1%nat i).
      assert (DY : forall z, dot m z y = a * dot m z (v 0%nat) + b * dot m z (v 1%nat)).
      { intros z. unfold dot, y. rewrite <- !sumf_scal_l, <- sumf_plus. apply sumf_ext; intros; ring. }
      assert (Y0 : dot m (v 0%nat) y = a) by (rewrite DY, !VV by lia; unfold kron_delta; cbn; ring).
      assert (Y1 : dot m (v 1%nat) y = b) by (rewrite DY, !VV by lia; unfold kron_delta; cbn; ring).
      assert (YY : dot m y y = 1) by (rewrite DY, (dot_comm m y), (dot_comm m y (v 1%nat)), Y0, Y1; lra).
      assert (QY : quad m C y = lam 0%nat).
      { assert (T := PV y). rewrite YY, sumf_split2, Y0, Y1 in T by lia.
        assert (T0 : sumf (m - 2) (fun j => dot m (v (2 + j)%nat) y * dot m (v (2 + j)%nat) y) = 0) by lra.
        rewrite Q, sumf_split2, Y0, Y1, E01 by lia.
        rewrite (sumf_zero (m - 2)).
        2:{ intros j Hj. assert (Z := sumf_sq_eq0 (m - 2) (fun j => dot m (v (2 + j)%nat) y) T0 j Hj). cbv beta in Z. rewrite Z. ring. }
        transitivity (lam 0%nat * (a * a + b * b)); [ring|]. rewrite Hab. ring. }
      assert (XY : dot m x y = 0) by (rewrite DY, !(dot_comm m x); exact Hx0).
      specialize (H y YY XY). lra. }
    destruct (Req_dec (a0 * a0 + b0 * b0) 0) as [Z|Z].
    + assert (a0 = 0) by nra. apply (UV 1 0); nra.
    + assert (P2 : 0 < a0 * a0 + b0 * b0) by nra. set (s := sqrt (a0 * a0 + b0 * b0)).
      assert (Hs : s * s = a0 * a0 + b0 * b0) by (apply sqrt_sqrt; lra).
      assert (s <> 0) by (intros Es; rewrite Es in Hs; lra).
      apply (UV (b0 / s) (- a0 / s)).
      * transitivity ((a0 * a0 + b0 * b0) / (s * s)); [field; auto|]. rewrite Hs. field. auto.
      * field. auto.
Qed.

(** ** Outer product of local gradients when points repeat *)
(** enough of the points differ from each of them *)
Lemma opg_returns_spread : forall eigh argsort lstsq (G : gen) (U : Type) X f weights M m (w : world G U (nd R)),
  eigh_contract eigh -> eigh_total eigh -> argsort_contract argsort -> lstsq_total lstsq ->
  shape X = [M; m] -> shape f = [M; 1%nat] -> shape weights = [M; 1%nat] -> (forall i, (i < M)%nat -> 0 < weights.[i, 0%nat]) ->
  (2 <= m)%nat -> (17 * m / 10 < M)%nat ->
  (forall ii, (ii < M)%nat -> (17 * m / 10 <= List.length (filter (fun i => neq0b (sqdist X i ii)) (seq 0 M)))%nat) ->
  exists e V w' lam C, opg_subspace eigh argsort lstsq X f weights w = (Ok (e, V), w') /\ eigsorted m C e V lam /\ psd m C.
Proof.
  intros eigh argsort lstsq G U X f weights M m w HE HT HA HL HX Hf Hw Hp Hm HpM HD.
  assert (D := Nat.div_mod (17 * m) 10 ltac:(lia)). assert (D' := Nat.mod_upper_bound (17 * m) 10 ltac:(lia)).
  assert (Hq : (m + 1 <= 17 * m / 10)%nat).
  { set (q := (17 * m / 10)%nat) in *. set (r0 := ((17 * m) mod 10)%nat) in *. lia. }
  unfold opg_subspace. rewrite (P_PolyTrain.process_io_eq _ X f M m HX Hf). unfold mlift at 1, mbind at 1.
  assert (EN : local_linear_gradients argsort lstsq X f None (Some weights) w =
    local_linear_gradients argsort lstsq X f (Some (IsA (Z.of_nat (17 * m / 10)))) (Some weights) w).
  { unfold local_linear_gradients. rewrite (process_inputs_eq _ X M m HX). unfold mlift at 1 3, mbind at 1 4.
    unfold ll_p. rewrite Nat.min_l by lia. reflexivity. }
  destruct (ll_returns argsort HA lstsq X f (Some (IsA (Z.of_nat (17 * m / 10)))) (Some weights) M m (Z.of_nat (17 * m / 10)) w) as (d & w1 & E); auto; try lia.
  { split; auto. }
  { intros ii Hii. rewrite Nat2Z.id. auto. }
  unfold mbind at 1. rewrite EN, E.
  destruct (ll_inv argsort lstsq X f _ _ M m w d w1 HX E) as (pz & MM & rows & _ & _ & _ & _ & Sd & _).
  rewrite (nrows_shape2 _ d MM m Sd). set (wt := mk2 MM 1 (fun _ _ : nat => / INR MM)).
  destruct (active_subspace_returns eigh argsort HE MM m d wt HT ltac:(lia) Sd eq_refl) as ((e & V) & EA).
  destruct (active_subspace_spec eigh argsort HE HA MM m d wt e V Sd eq_refl EA) as (lam & L).
  unfold mlift. rewrite EA. exists e, V, w1, lam. eexists. split; [reflexivity|]. split; [exact L|].
  apply gradC_psd. intros i Hi. destruct MM as [|MM]; [lia|]. left. cbn [wt at_ mk2 nth]. apply Rinv_0_lt_compat, lt_0_INR. lia.
Qed.

Lemma filter_count : forall (l : list nat) k, (List.length (filter (fun i => negb (Nat.eqb (nth i l 0) k)) (seq 0 (List.length l))) + count_occ Nat.eq_dec l k = List.length l)%nat.
Proof.
  intros l k. induction l as [|a l IH] using rev_ind; [reflexivity|].
  rewrite app_length. cbn [List.length]. rewrite Nat.add_1_r, seq_S, filter_app, app_length, count_occ_app. cbn [Nat.add filter].
  rewrite nth_middle || rewrite app_nth2, Nat.sub_diag by lia. cbn [nth].
  rewrite (filter_ext_in (fun i => negb (Nat.eqb (nth i (l ++ [a]) 0%nat) k)) (fun i => negb (Nat.eqb (nth i l 0%nat) k))).
  2:{ intros i Hi. apply in_seq in Hi. now rewrite app_nth1 by lia. }
  cbn [count_occ]. destruct (Nat.eqb_spec a k), (Nat.eq_dec a k); try contradiction; cbn [negb List.length]; lia.
Qed.

(** resampled distinct points: the points differing from a drawn one are those with another index *)
Lemma resampled_spread : forall X M m ind X0 k ii, shape X = [M; m] -> distinct_rows X M -> rows_of X ind X0 -> List.length ind = M -> Forall (fun i => (i < M)%nat) ind ->
  (ii < M)%nat -> (count_occ Nat.eq_dec ind (nth ii ind 0) + k <= M)%nat ->
  (k <= List.length (filter (fun i => neq0b (sqdist X0 i ii)) (seq 0 M)))%nat.
Proof.
  intros X M m ind X0 k ii SX HD (r & c & S1 & S2 & _ & HV) L HF Hii Hc. rewrite SX in S1. injection S1 as <- <-.
  assert (N : forall i, (i < M)%nat -> (nth i ind 0 < M)%nat) by (intros i Hi; rewrite Forall_forall in HF; apply HF, nth_In; lia).
  assert (Q : forall i, (i < M)%nat -> sqdist X0 i ii = sqdist X (nth i ind 0%nat) (nth ii ind 0%nat)).
  { intros i Hi. unfold sqdist. rewrite (ncols_shape2 _ X0 _ _ S2), (ncols_shape2 _ X _ _ SX). apply sumf_ext. intros j Hj. rewrite !HV by lia. reflexivity. }
  rewrite (filter_ext_in _ (fun i => negb (Nat.eqb (nth i ind 0%nat) (nth ii ind 0%nat)))).
  { pose proof (filter_count ind (nth ii ind 0%nat)) as T. rewrite L in T. lia. }
  intros i Hi. apply in_seq in Hi. rewrite Q by lia. unfold neq0b.
  destruct (Nat.eqb_spec (nth i ind 0%nat) (nth ii ind 0%nat)) as [E|E]; cbn [negb].
  - rewrite E, sqdist_self. destruct (Req_EM_T 0 0); auto; lra.
  - destruct (Req_EM_T (sqdist X (nth i ind 0%nat) (nth ii ind 0%nat)) 0) as [Z|]; auto. exfalso. revert Z. apply HD; auto; apply N; lia.
Qed.

(** too few points differ from the first centre *)
Lemma opg_starved : forall eigh argsort lstsq (G : gen) (U : Type) x0 f0 w0 M m c (w w' : world G U (nd R)), argsort_contract argsort ->
  shape x0 = [M; m] -> shape f0 = [M; 1%nat] -> (2 <= m)%nat -> (17 * m / 10 < M)%nat -> draw_randint M w = (Ok c, w') ->
  (List.length (filter (fun i => neq0b (sqdist x0 i c)) (seq 0 M)) < 17 * m / 10)%nat ->
  opg_subspace eigh argsort lstsq x0 f0 w0 w = (Err ValueError, w').
Proof.
  intros eigh argsort lstsq G U x0 f0 w0 M m c w w' HA Sx Sf Hm HM EC HF.
  assert (D := Nat.div_mod (17 * m) 10 ltac:(lia)). assert (D' := Nat.mod_upper_bound (17 * m) 10 ltac:(lia)).
  set (p := (17 * m / 10)%nat) in *. set (rr := ((17 * m) mod 10)%nat) in *.
  unfold opg_subspace. rewrite (process_io_eq _ x0 f0 M m Sx Sf). unfold mlift at 1, mbind at 1.
  unfold mbind at 1. unfold local_linear_gradients. rewrite (process_inputs_eq _ x0 M m Sx). unfold mlift at 1, mbind at 1.
  destruct (Nat.leb_spec M m); [lia|]. unfold ll_p. fold p. rewrite Nat.min_l by lia. unfold mlift at 1, mbind at 1.
  destruct (Z.ltb_spec (Z.of_nat p) (Z.of_nat m + 1)); [lia|]. destruct (Z.ltb_spec (Z.of_nat M) (Z.of_nat p)); [lia|]. cbn [orb].
  rewrite Nat2Z.id.
  assert (EMM : exists MM, ll_MM M m = Ok (S MM)).
  { unfold ll_MM. destruct m as [|m0]; [lia|]. set (m := S m0) in *.
    assert (Hc1 : (1 <= Z.to_nat (ceilZ (10 * INR m * ln (INR m))))%nat).
    { assert (1 < INR m) by (apply (lt_INR 1); lia). assert (0 < ln (INR m)) by (rewrite <- ln_1; apply ln_increasing; lra).
      assert (0 < 10 * INR m * ln (INR m)) by (apply Rmult_lt_0_compat; lra).
      unfold ceilZ. set (z := 10 * INR m * ln (INR m)) in *. destruct (archimed (- z)) as [_ A2].
      assert (up (- z) < 1)%Z; [|lia]. apply lt_IZR. lra. }
    destruct (Nat.min (Z.to_nat (ceilZ (10 * INR m * ln (INR m)))) (M - 1)) as [|q] eqn:Eq; [lia|]. eauto. }
  destruct EMM as (MM & EMM). unfold mlift at 1. rewrite EMM. unfold mbind at 1. cbn [seq mmap].
  unfold mbind at 1. unfold mbind at 1. unfold mbind at 1. rewrite EC. unfold mlift at 1.
  rewrite (ll_fit_starved argsort lstsq x0 _ _ M m p c HA Sx HF). reflexivity.
Qed.

(** ** The assertion on the two leading eigenvalues *)
Lemma below_spec : forall e m, shape e = [m; 1%nat] -> (2 <= m)%nat ->
  (second_below_first e = Ok tt <-> e.[1%nat, 0%nat] < e.[0%nat, 0%nat]) /\
  (second_below_first e <> Ok tt -> second_below_first e = Err AssertionError).
Proof.
  intros e m Se Hm. unfold second_below_first, assert_array_less. split.
  - unfold compare, row1. rewrite (ncols_shape2 _ e m 1 Se). cbn [shape mk1].
    destruct (list_eq_dec Nat.eq_dec [1%nat] [1%nat]) as [_|N]; [|contradiction N; reflexivity].
    unfold size, entry. cbn [shape mk1 prodn seq forallb unravel at_ nth Nat.mul Nat.add]. rewrite andb_true_r, assert_ok, rltb_spec. reflexivity.
  - intros H. destruct (compare_cases _ _ rltb (row1 e 1) (row1 e 0)) as [E|E]; [contradiction|exact E].
Qed.
