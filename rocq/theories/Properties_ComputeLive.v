(** Property C97: computing subspaces from input/output pairs, with bootstrap. *)
From Coq Require Import String Reals Lra Lia List Arith ZArith Bool.
From Verif Require Import Prelude Py NumArr LinAlg Lsq Sorting Spectral Det M_Misc M_Gradients M_RespSurf M_Subspaces
  P_Misc P_LocalLinear P_Subspaces P_Estimators P_Qphd P_PolyTrain P_Partition P_Bootstrap P_SubsState P_SubsLive EighRef Toy
  Properties_Subspaces Properties_Gradients Properties_SubsState M_Notebooks P_Notebooks Properties_Notebooks.
Import ListNotations.
Open Scope R_scope.

Section Fit.
  Context {G : gen} {U : Type}.
  Notation W := (world G U (nd R)).
  Variable eigh : nd R -> res (nd R * nd R).
  Variable argsort : list R -> list nat.
  Variable lstsq : nd R -> nd R -> res (nd R).
  Variable norm2 : nd R -> R.
  Variable det : nd R -> R.
  Hypothesis HE : eigh_contract eigh.
  Hypothesis HA : argsort_contract argsort.
  Hypothesis HN : norm2_contract norm2.
  Hypothesis HD : det_contract det.
  Variables (M m : nat) (sstype : string).
  Hypothesis HM : (1 <= M)%nat.
  Hypothesis Hm : (2 <= m)%nat.
  Hypothesis Hss : String.eqb sstype "AS" = false.
  (** the method returns on all data of this size *)
  Hypothesis Hmeth : forall x f w (st : W), shape x = [M; m] -> shape f = [M; 1%nat] -> shape w = [M; 1%nat] ->
    exists e V st', ssmethod eigh argsort lstsq sstype (Some x) (Some f) None w st = (Ok (e, V), st').

  Lemma fit_shapes : forall x f w (st st' : W) e V, shape x = [M; m] ->
    ssmethod eigh argsort lstsq sstype (Some x) (Some f) None w st = (Ok (e, V), st') ->
    exists C lam, eigsorted m C e V lam.
  Proof.
    intros x f w st st' e V Sx H. destruct (ssmethod_ok eigh argsort lstsq HE HA _ _ _ _ _ _ _ _ _ H) as (k & C & lam & Hk & L).
    unfold method_dim in Hk. rewrite Hss in Hk. destruct Hk as (x' & M' & Ex & Sx'). injection Ex as <-. rewrite Sx in Sx'. injection Sx' as _ <-. eauto.
  Qed.

  Lemma fit_boot_step : forall Wm x f weights (w : W), shape Wm = [m; m] -> shape x = [M; m] -> shape f = [M; 1%nat] -> shape weights = [M; 1%nat] ->
    exists r w', boot_step norm2 det m Wm (Some x) (Some f) None weights (ssmethod eigh argsort lstsq sstype) w = (Ok r, w').
  Proof.
    intros Wm x f weights w HW Sx Sf Sw. unfold boot_step.
    destruct (bootstrap_replicate_returns (Some x) (Some f) None weights M 1 w Sw HM) as ((((X0 & f0) & d0) & w0) & w1 & E).
    { intros y Hy. injection Hy as <-. eauto. }
    { intros y Hy. injection Hy as <-. eauto. }
    { discriminate. }
    unfold mbind at 1. rewrite E.
    destruct (bootstrap_replicate_ok _ _ _ _ _ _ _ _ _ _ E) as (ind & L1 & L2 & _ & (x0 & -> & Rx) & (g0 & -> & Rf) & Hd0 & Rw). cbn in Hd0. subst d0.
    rewrite (nrows_shape2 _ weights M 1 Sw) in L1.
    destruct Rx as (r & c & S1 & S2 & _). rewrite Sx in S1. injection S1 as <- <-. rewrite L1 in S2.
    destruct Rf as (r & c & S3 & S4 & _). rewrite Sf in S3. injection S3 as <- <-. rewrite L1 in S4.
    destruct Rw as (r & c & S5 & S6 & _). rewrite Sw in S5. injection S5 as <- <-. rewrite L1 in S6.
    destruct (Hmeth x0 g0 w0 w1 S2 S4 S6) as (e0 & V0 & w2 & EM). unfold mbind at 1. rewrite EM.
    destruct (fit_shapes _ _ _ _ _ _ _ S2 EM) as (C & lam & L).
    assert (Se := es_e _ _ _ _ _ L). assert (SV := es_V _ _ _ _ _ L).
    destruct (reshape_ok _ [m] e0) as (ev & F1 & _); [unfold size; rewrite Se; simpl; lia|].
    unfold mlift at 1. rewrite F1. unfold mbind at 1.
    rewrite (ncols_shape2 _ V0 m m SV).
    destruct (mapr_ok _ _ (fun j => cross Wm V0 j (j + 1) m) (seq 0 (m - 1))) as (ds & Eds).
    { intros j Hj. apply in_seq in Hj. destruct (cross_ok m Wm V0 j (j + 1) m HW SV ltac:(lia) ltac:(lia) ltac:(lia)) as (P & E1 & _). eauto. }
    destruct (mapr_ok _ _ (fun j => cross Wm V0 j 0 (j + 1)) (seq 0 (m - 1))) as (dt & Edt).
    { intros j Hj. apply in_seq in Hj. destruct (cross_ok m Wm V0 j 0 (j + 1) HW SV ltac:(lia) ltac:(lia) ltac:(lia)) as (P & E1 & _). eauto. }
    unfold mlift. rewrite Eds. unfold mbind at 1. rewrite Edt. unfold mbind at 1. eexists; eexists; reflexivity.
  Qed.

  Lemma fit_bootstrap : forall e Wm x f weights nboot (w : W), shape Wm = [m; m] -> shape x = [M; m] -> shape f = [M; 1%nat] -> shape weights = [M; 1%nat] ->
    exists r w', bootstrap_ranges norm2 det e Wm (Some x) (Some f) None weights (ssmethod eigh argsort lstsq sstype) nboot w = (Ok r, w').
  Proof.
    intros e Wm x f weights nboot w HW Sx Sf Sw. unfold bootstrap_ranges.
    rewrite (process_inputs_eq _ x M m Sx). cbn [rbind]. unfold mlift at 1, mbind at 1.
    destruct (Nat.eqb_spec m 0); [lia|].
    destruct (mmap_total W _ _ (fun _ : nat => boot_step norm2 det m Wm (Some x) (Some f) None weights (ssmethod eigh argsort lstsq sstype))) with (l := seq 0 nboot) (w := w) as (rs & w' & E).
    { intros _ w0. apply fit_boot_step; auto. }
    unfold mbind. rewrite E. eexists; eexists; reflexivity.
  Qed.

  Lemma fit_compute : forall x f weights ptype nboot (ws : W * subspaces), shape x = [M; m] -> shape f = [M; 1%nat] ->
    match weights with None => True | Some w => shape w = [M; 1%nat] end ->
    (ptype = "EVG" \/ (ptype = "RS" \/ ptype = "LI") /\ (0 < nboot)%Z)%string ->
    exists ws', ss_compute eigh argsort lstsq norm2 det (Some x) (Some f) None weights sstype ptype nboot ws = (Ok tt, ws').
  Proof.
    intros x f weights ptype nboot [w s] Sx Sf Hw Hp.
    set (wt := match weights with None => mk2 M 1 (fun _ _ => / INR M) | Some w => w end).
    assert (Swt : shape wt = [M; 1%nat]) by (unfold wt; destruct weights; auto).
    destruct (Hmeth x f wt w Sx Sf Swt) as (e & V & w1 & EA).
    destruct (fit_shapes _ _ _ _ _ _ _ Sx EA) as (C & lam & L).
    assert (Se := es_e _ _ _ _ _ L). assert (SV := es_V _ _ _ _ _ L).
    unfold ss_compute. rewrite (process_inputs_eq _ x M m Sx). cbn [rbind]. unfold mlift at 1, mbind at 1. fold wt.
    unfold liftW at 1, mbind at 1. cbn [fst snd]. rewrite EA.
    unfold mbind at 1, getS at 1. cbn [snd fst]. unfold mbind at 1, setS at 1. cbn [snd fst].
    match goal with |- context [mbind (if Z.ltb 0 nboot then _ else _) ?K] =>
      assert (HB : exists br w', ((if Z.ltb 0 nboot
         then dom r <- liftW (bootstrap_ranges norm2 det e V (Some x) (Some f) None wt (ssmethod eigh argsort lstsq sstype) (Z.to_nat nboot)); mret (Some r)
         else if (String.eqb ptype "RS" || String.eqb ptype "LI")%bool then merr (Exc "Need to run bootstrap for partition type") else mret None)
         (w1, Subs (Some e) (Some V) (s_W1 s) (s_W2 s) (s_e_br s) (s_sub_br s)) = (Ok br, (w', Subs (Some e) (Some V) (s_W1 s) (s_W2 s) (s_e_br s) (s_sub_br s)))) /\
         exists n, choose_dim ptype m e br = Ok n /\ (1 <= n <= Z.of_nat m)%Z) end.
    { assert (EVG : forall br, ptype = "EVG"%string -> exists n, choose_dim ptype m e br = Ok n /\ (1 <= n <= Z.of_nat m)%Z).
      { intros br ->. destruct (eig_partition_eq m e Se Hm) as (k & ed & EP & _ & _ & K1 & _).
        unfold choose_dim. cbn [String.eqb Ascii.eqb Bool.eqb]. rewrite EP. cbn [rbind]. eexists. split; [reflexivity|]. lia. }
      destruct (Z.ltb_spec 0 nboot) as [Lb|Lb].
      - destruct (fit_bootstrap e V x f wt (Z.to_nat nboot) w1 SV Sx Sf Swt) as (((e_br & sub_br) & li_F) & w' & EB).
        exists (Some (e_br, sub_br, li_F)), w'. split.
        + unfold mbind, liftW. cbn [fst snd]. rewrite EB. reflexivity.
        + destruct (bootstrap_facts eigh argsort lstsq norm2 det HE HA HN HD sstype e V (Some x) (Some f) None wt (Z.to_nat nboot) w1 e_br sub_br li_F w' m
            ltac:(lia) SV (es_orth _ _ _ _ _ L)) as (T1 & T2 & _ & T3); auto.
          { intros k (M' & Hk). rewrite Sx in Hk. congruence. }
          destruct Hp as [Hp|[[Hp|Hp] _]]; [apply EVG; auto| |]; subst ptype; unfold choose_dim; cbn [String.eqb Ascii.eqb Bool.eqb].
          * rewrite (nrows_shape2 _ sub_br _ _ T1).
            destruct (reshape_ok _ [(m - 1)%nat; 1%nat] (mk1 (m - 1) (fun i => sub_br.[i, 1%nat]))) as (err & F1 & F2 & F3); [cbn; lia|].
            rewrite F1. cbn [rbind].
            destruct (errbnd_partition_eq m e err Se F2 Hm (eigsorted_nonneg _ _ _ _ _ L)) as (k & eb & EP & _ & _ & K1 & _).
            rewrite EP. cbn [rbind]. eexists. split; [reflexivity|]. lia.
          * destruct (ladle_sum m e li_F Se T2) as (Gm & G1 & G2 & ->).
            destruct (np_argmin_col m Gm G1 ltac:(lia)) as (k & Ek & Hk & _). rewrite Ek. cbn [rbind]. eexists. split; [reflexivity|]. lia.
      - destruct Hp as [Hp|[_ Hp]]; [|lia]. exists None, w1. split; [|apply EVG; auto]. subst ptype. reflexivity. }
    destruct HB as (br & w' & HB & n & Hn & Hn2). unfold mbind at 1. rewrite HB.
    unfold mbind at 1, getS at 1. cbn [snd fst]. unfold mbind at 1, setS at 1. cbn [snd fst s_eigenvals s_eigenvecs s_W1 s_W2].
    unfold mlift at 1. rewrite Hn. unfold mbind at 1.
    apply ss_partition_iff. exists n, V. cbn [snd s_eigenvecs]. split; auto. split; auto. now rewrite (nrows_shape2 _ V m m SV).
  Qed.
End Fit.

(** C(m+2, 2) = (m+1)(m+2)/2 samples are enough for the quadratic model, one for the linear *)
Theorem C97_fit_methods_return : forall eigh argsort lstsq norm2 det (G : gen) (U : Type) M m x f weights sstype ptype nboot
    (ws : world G U (nd R) * subspaces),
  eigh_contract eigh -> eigh_total eigh -> argsort_contract argsort -> lstsq_contract lstsq -> lstsq_total lstsq -> norm2_contract norm2 -> det_contract det ->
  (2 <= m)%nat -> shape x = [M; m] -> shape f = [M; 1%nat] -> match weights with None => True | Some w => shape w = [M; 1%nat] end ->
  (sstype = "OLS"%string /\ (1 <= M)%nat \/ sstype = "QPHD"%string /\ ((m + 1) * (m + 2) <= 2 * M)%nat) ->
  (ptype = "EVG" \/ (ptype = "RS" \/ ptype = "LI") /\ (0 < nboot)%Z)%string ->
  exists ws', ss_compute eigh argsort lstsq norm2 det (Some x) (Some f) None weights sstype ptype nboot ws = (Ok tt, ws').
Proof.
  intros eigh argsort lstsq norm2 det G U M m x f weights sstype ptype nboot ws HE HT HA HL HLT HN HD Hm Sx Sf Hw Hs Hp.
  assert (B2 : (2 * binom (2 + m) m = (m + 1) * (m + 2))%nat).
  { clear. induction m as [|m IH]; [reflexivity|]. replace (2 + S m)%nat with (S (2 + m)) by lia.
    assert (A : binom (S (2 + m)) (S m) = (binom (2 + m) m + binom (2 + m) (S m))%nat) by reflexivity. rewrite A.
    assert (Q : binom (2 + m) (S m) = (m + 2)%nat) by (replace (2 + m)%nat with (S (S m)) by lia; rewrite binom_sym1; lia). lia. }
  destruct Hs as [(-> & HM)|(-> & HM)].
  - apply (fit_compute eigh argsort lstsq norm2 det HE HA HN HD M m "OLS" HM Hm eq_refl); auto.
    intros x0 f0 w0 st S1 S2 S3. destruct (ols_subspace_returns eigh argsort lstsq HE HL M m x0 f0 w0 HLT HT ltac:(lia) S1 S2 S3) as ((e & V) & E).
    exists e, V, st. unfold ssmethod. cbn [String.eqb Ascii.eqb Bool.eqb]. unfold mlift. now rewrite E.
  - apply (fit_compute eigh argsort lstsq norm2 det HE HA HN HD M m "QPHD" ltac:(nia) Hm eq_refl); auto.
    intros x0 f0 w0 st S1 S2 S3. destruct (qphd_subspace_returns eigh argsort lstsq HE HL M m x0 f0 w0 HLT HT ltac:(lia) S1 S2 S3 ltac:(lia)) as ((e & V) & E).
    exists e, V, st. unfold ssmethod. cbn [String.eqb Ascii.eqb Bool.eqb]. unfold mlift. now rewrite E.
Qed.
Print Assumptions C97_fit_methods_return.

(** The linear model has one nonzero eigenvalue at most, so the largest gap is the first: one direction is kept,
    that of the least squares gradient. *)
Theorem C97_ols_keeps_one : forall eigh argsort lstsq norm2 det (G : gen) (U : Type) M m x f weights nboot (ws : world G U (nd R) * subspaces),
  eigh_contract eigh -> eigh_total eigh -> argsort_contract argsort -> lstsq_contract lstsq -> lstsq_total lstsq -> norm2_contract norm2 -> det_contract det ->
  (1 <= M)%nat -> (2 <= m)%nat -> shape x = [M; m] -> shape f = [M; 1%nat] ->
  match weights with None => True | Some w => shape w = [M; 1%nat] /\ forall i, (i < M)%nat -> 0 <= w.[i, 0%nat] end ->
  exists ws' A B, ss_compute eigh argsort lstsq norm2 det (Some x) (Some f) None weights "OLS" "EVG" nboot ws = (Ok tt, ws') /\
    s_W1 (snd ws') = Some A /\ s_W2 (snd ws') = Some B /\ shape A = [m; 1%nat] /\ shape B = [m; (m - 1)%nat] /\
    let wt i := match weights with None => / INR M | Some w => w.[i, 0%nat] end in
    let cost a b := sumf M (fun i => wt i * (f.[i, 0%nat] - a - sumf m (fun j => b j * x.[i, j])) ^ 2) in
    exists a b, (forall a' b', cost a b <= cost a' b') /\
      (sumf m (fun i => b i * b i) <> 0 ->
         exists s, (s = 1 \/ s = -1) /\ forall i, (i < m)%nat -> A.[i, 0%nat] = s * (b i / sqrt (sumf m (fun i => b i * b i)))).
Proof.
  intros eigh argsort lstsq norm2 det G U M m x f weights nboot ws HE HT HA HL HLT HN HD HM Hm Sx Sf Hw.
  destruct (C97_fit_methods_return eigh argsort lstsq norm2 det G U M m x f weights "OLS" "EVG" nboot ws HE HT HA HL HLT HN HD Hm Sx Sf
    ltac:(destruct weights; tauto) ltac:(auto) ltac:(auto)) as (ws' & E).
  destruct (ss_compute_ok eigh argsort lstsq norm2 det HE HA _ _ _ _ _ _ _ _ _ _ E) as (M' & m' & e & V & w1 & br & n & A & B & k & S' & EM & _ & EC & SP & N1 & MD & ES).
  rewrite Sx in S'. injection S' as <- <-.
  unfold method_dim in MD. cbn [String.eqb Ascii.eqb Bool.eqb] in MD. destruct MD as (x' & M' & Ex & Sx'). injection Ex as <-. rewrite Sx in Sx'. injection Sx' as _ <-.
  unfold ssmethod in EM. cbn [String.eqb Ascii.eqb Bool.eqb] in EM. unfold mlift in EM. injection EM as EM _.
  set (wd := wdefault M weights) in *.
  assert (IM : 0 < / INR M) by (apply Rinv_0_lt_compat, lt_0_INR; lia).
  assert (Sw : shape wd = [M; 1%nat]) by (unfold wd, wdefault; destruct weights; [tauto|reflexivity]).
  assert (Pw : forall i, (i < M)%nat -> 0 <= wd.[i, 0%nat]).
  { intros i Hi. unfold wd, wdefault. destruct weights as [w|]; [now apply Hw|]. rewrite at_mk2. lra. }
  destruct (C14_ols_direction eigh argsort lstsq M m x f wd e V HE HA HL Sx Sf Sw Pw EM) as (a & b & D1 & D2 & D3 & D4 & _).
  destruct (ols_subspace_spec eigh argsort lstsq HE HA HL M m x f wd e V Sx Sf Sw Pw EM) as (a2 & b2 & lam & _ & L).
  assert (En : n = 1%Z).
  { destruct (eig_partition_eq m e (es_e _ _ _ _ _ L) Hm) as (q & ed & EP & _ & _ & K1 & _ & K3).
    unfold choose_dim in EC. cbn [String.eqb Ascii.eqb Bool.eqb] in EC. rewrite EP in EC. cbn [rbind] in EC. injection EC as <-.
    destruct q as [|q]; [reflexivity|]. exfalso. specialize (K3 0%nat ltac:(lia)). cbv beta in K3.
    rewrite (D3 (S (S q))), (D3 (S q)) in K3 by lia. rewrite Rminus_0_r, Rabs_R0 in K3. pose proof (Rabs_pos (e.[1%nat, 0%nat] - e.[0%nat, 0%nat])). lra. }
  subst n. change (Z.to_nat 1) with 1%nat in SP. destruct SP as (SV & _ & SA & SB & VA & _).
  exists ws', A, B. rewrite ES. cbn [snd s_W1 s_W2]. split; [exact E|]. split; [reflexivity|]. split; [reflexivity|]. split; auto. split; auto. cbv zeta.
  exists a, b. split.
  - intros a' b'. specialize (D1 a' b'). cbv zeta in D1.
    assert (Q : forall a b, sumf M (fun i => match weights with None => / INR M | Some w => w.[i, 0%nat] end * (f.[i, 0%nat] - a - sumf m (fun j => b j * x.[i, j])) ^ 2) =
      sumf M (fun i => wd.[i, 0%nat] * (f.[i, 0%nat] - a - sumf m (fun j => b j * x.[i, j])) ^ 2)).
    { intros a0 b0. apply sumf_ext. intros i Hi. unfold wd, wdefault. destruct weights; [reflexivity|]. now rewrite at_mk2. }
    now rewrite !Q.
  - intros Hb. destruct (D4 Hb) as (s & Hs & HV). exists s. split; auto. intros i Hi. rewrite VA by lia. auto.
Qed.
Print Assumptions C97_ols_keeps_one.

(** ** The outer product of gradients on resampled points *)

(** fewer points at a nonzero distance from the centre than the local model needs *)
Lemma ll_fit_starved : forall argsort lstsq X f weights M m p c, argsort_contract argsort -> shape X = [M; m] ->
  (List.length (filter (fun i => neq0b (sqdist X i c)) (seq 0 M)) < p)%nat ->
  ll_fit argsort lstsq X f weights p c = Err ValueError.
Proof.
  intros argsort lstsq X f weights M m p c HA SX HF. unfold ll_fit.
  set (sel := firstn p (ll_ind argsort X c)).
  assert (L : (List.length sel < p)%nat).
  { unfold sel. rewrite firstn_length, (ll_ind_length argsort HA X c), (nrows_shape2 _ _ _ _ SX). lia. }
  assert (Ht : take_rows X sel = Ok (mk2 (List.length sel) (ncols X) (fun i j => X.[nth i sel 0%nat, j]))).
  { unfold take_rows. assert (F : forallb (fun k => Nat.ltb k (nrows X)) sel = true).
    { apply forallb_forall. intros k Hk. apply Nat.ltb_lt. apply firstn_In in Hk. now apply (ll_ind_lt argsort HA) in Hk. }
    now rewrite F. }
  rewrite Ht. cbn [rbind]. unfold hstack. rewrite shape_mk2. unfold ones2. rewrite shape_mk2.
  destruct (Nat.eqb_spec p (List.length sel)); [lia|]. reflexivity.
Qed.

(** If the centre of the first local model was drawn so often by the first replicate that fewer than [1.7 m] other
    points remain, the bootstrap raises. *)
Theorem C97_opg_bootstrap_starves : forall eigh argsort lstsq norm2 det (G : gen) (U : Type) M m x f w ptype nboot ws e V w1 ind w2 c w3,
  eigh_contract eigh -> argsort_contract argsort ->
  shape x = [M; m] -> shape f = [M; 1%nat] -> shape w = [M; 1%nat] -> (2 <= m)%nat -> (17 * m / 10 < M)%nat -> (0 < nboot)%Z ->
  ssmethod eigh argsort lstsq "OPG" (Some x) (Some f) None w (fst (ws : world G U (nd R) * subspaces)) = (Ok (e, V), w1) ->
  repeatM M (draw_randint M) w1 = (Ok ind, w2) -> draw_randint M w2 = (Ok c, w3) ->
  (M < 17 * m / 10 + count_occ Nat.eq_dec ind (nth c ind 0%nat))%nat ->
  exists s', ss_compute eigh argsort lstsq norm2 det (Some x) (Some f) None (Some w) "OPG" ptype nboot ws = (Err ValueError, (w3, s')).
Proof.
  intros eigh argsort lstsq norm2 det G U M m x f w ptype nboot [w0 s] e V w1 ind w2 c w3 HE HA Sx Sf Sw Hm HM Hb EM EI EC HC.
  cbn [fst] in EM.
  assert (D := Nat.div_mod (17 * m) 10 ltac:(lia)). assert (D' := Nat.mod_upper_bound (17 * m) 10 ltac:(lia)).
  set (p := (17 * m / 10)%nat) in *. set (rr := ((17 * m) mod 10)%nat) in *.
  assert (LI := repeatM_length _ _ _ _ _ EI).
  assert (FI : Forall (fun k => (k < M)%nat) ind) by (eapply (repeatM_all (fun k => (k < M)%nat)); eauto; intros; eapply draw_randint_range; eauto).
  assert (Hc := draw_randint_range _ _ _ _ EC).
  unfold ss_compute. rewrite (process_inputs_eq _ x M m Sx). cbn [rbind]. unfold mlift at 1, mbind at 1.
  unfold liftW at 1, mbind at 1. cbn [fst snd]. rewrite EM.
  unfold mbind at 1, getS at 1. cbn [snd fst]. unfold mbind at 1, setS at 1. cbn [snd fst].
  destruct (Z.ltb_spec 0 nboot); [|lia].
  assert (EB : bootstrap_ranges norm2 det e V (Some x) (Some f) None w (ssmethod eigh argsort lstsq "OPG") (Z.to_nat nboot) w1 = (Err ValueError, w3)).
  { unfold bootstrap_ranges. rewrite (process_inputs_eq _ x M m Sx). cbn [rbind]. unfold mlift at 1, mbind at 1.
    destruct (Nat.eqb_spec m 0); [lia|]. destruct (Z.to_nat nboot) as [|nb] eqn:Enb; [lia|]. cbn [seq mmap].
    assert (ES : boot_step norm2 det m V (Some x) (Some f) None w (ssmethod eigh argsort lstsq "OPG") w1 = (Err ValueError, w3)).
    { unfold boot_step, bootstrap_replicate. rewrite Sw. destruct M as [|M0]; [lia|]. set (M := S M0) in *.
      assert (FR : forall (A : nd R) k, shape A = [M; k] -> fancy_rows A ind = Ok (mk2 M k (fun i j => A.[nth i ind 0%nat, j]))).
      { intros A k SA. unfold fancy_rows. rewrite SA. unfold take_rows. rewrite (nrows_shape2 _ A M k SA), (ncols_shape2 _ A M k SA).
        assert (FB : forallb (fun i => Nat.ltb i M) ind = true).
        { apply forallb_forall. intros i Hi. apply Nat.ltb_lt. rewrite Forall_forall in FI. auto. }
        rewrite FB, LI. reflexivity. }
      unfold mbind at 1. unfold mbind at 1. rewrite EI. unfold opt_rows. rewrite (FR x m Sx), (FR f 1%nat Sf), (FR w 1%nat Sw). cbn [rbind]. unfold mlift, mret. unfold mbind at 1 2 3 4.
      set (x0 := mk2 M m (fun i j => x.[nth i ind 0%nat, j])).
      unfold mbind at 1. unfold ssmethod at 1. cbn [String.eqb Ascii.eqb Bool.eqb]. unfold opg_subspace.
      rewrite (process_io_eq _ x0 (mk2 M 1 (fun i j => f.[nth i ind 0%nat, j])) M m eq_refl eq_refl). unfold mlift at 1, mbind at 1.
      unfold mbind at 1. unfold local_linear_gradients. rewrite (process_inputs_eq _ x0 M m eq_refl). unfold mlift at 1, mbind at 1.
      destruct (Nat.leb_spec M m); [lia|]. unfold ll_p. fold p. rewrite Nat.min_l by lia. unfold mlift at 1, mbind at 1.
      destruct (Z.ltb_spec (Z.of_nat p) (Z.of_nat m + 1)); [lia|]. destruct (Z.ltb_spec (Z.of_nat M) (Z.of_nat p)); [lia|]. cbn [orb].
      rewrite Nat2Z.id.
      assert (EMM : exists MM, ll_MM M m = Ok (S MM)).
      { unfold ll_MM. destruct m as [|m0]; [lia|]. set (m := S m0) in *.
        assert (Hc1 : (1 <= Z.to_nat (ceilZ (10 * INR m * ln (INR m))))%nat).
        { assert (1 < INR m) by (apply (lt_INR 1); lia). assert (0 < ln (INR m)) by (rewrite <- ln_1; apply ln_increasing; lra).
          assert (0 < 10 * INR m * ln (INR m)) by (apply Rmult_lt_0_compat; lra).
          unfold ceilZ. set (z := 10 * INR m * ln (INR m)) in *. destruct (archimed (- z)) as [_ A2].
          assert (up (- z) < 1)%Z; [|lia]. apply lt_IZR. lra. }
        destruct (Nat.min (Z.to_nat (ceilZ (10 * INR m * ln (INR m)))) (M - 1)) as [|q] eqn:Eq; [lia|]. eauto. }
      destruct EMM as (MM & EMM). unfold mlift at 1. rewrite EMM. unfold mbind at 1. cbn [seq mmap].
      unfold mbind at 1. unfold mbind at 1. unfold mbind at 1. rewrite EC. unfold mlift at 1.
      rewrite (ll_fit_starved argsort lstsq x0 _ _ M m p c HA eq_refl); [reflexivity|].
      assert (Hle : (List.length (filter (fun i => neq0b (sqdist x0 i c)) (seq 0 M)) <= List.length (filter (fun k => negb (Nat.eqb k (nth c ind 0%nat))) ind))%nat).
      { assert (EI2 : ind = map (fun i => nth i ind 0%nat) (seq 0 M)).
        { rewrite <- LI. clear. induction ind as [|a l IH]; [reflexivity|]. cbn [List.length seq map nth]. f_equal. rewrite <- seq_shift, map_map. exact IH. }
        assert (EG : forall g : nat -> bool, List.length (filter g ind) = List.length (filter (fun i => g (nth i ind 0%nat)) (seq 0 M))).
        { intros g. transitivity (List.length (filter g (map (fun i => nth i ind 0%nat) (seq 0 M)))); [now rewrite <- EI2|]. now rewrite filter_map, map_length. }
        rewrite EG.
        generalize (seq 0 M). intros l. induction l as [|i l IHl]; [cbn; lia|]. cbn [filter].
        destruct (Nat.eqb_spec (nth i ind 0%nat) (nth c ind 0%nat)) as [EQ|NE]; cbn [negb].
        - assert (Z0 : sqdist x0 i c = 0).
          { unfold sqdist. apply sumf_zero. intros k Hk. unfold x0. rewrite !at_mk2, EQ. ring. }
          unfold neq0b at 1. destruct (Req_EM_T (sqdist x0 i c) 0); [exact IHl|contradiction].
        - destruct (neq0b (sqdist x0 i c)); cbn [List.length]; lia. }
      assert (HCO : forall (l : list nat) a, (List.length (filter (fun k => negb (Nat.eqb k a)) l) + count_occ Nat.eq_dec l a = List.length l)%nat).
      { clear. induction l as [|b l IH]; intros a; [reflexivity|]. cbn [filter count_occ List.length].
        destruct (Nat.eqb_spec b a) as [->|NE]; cbn [negb]; [destruct (Nat.eq_dec a a); [|congruence]|destruct (Nat.eq_dec b a); [congruence|]]; cbn [List.length]; specialize (IH a); lia. }
      specialize (HCO ind (nth c ind 0%nat)). rewrite LI in HCO. lia. }
    unfold mbind at 1. unfold mbind at 1. rewrite ES. reflexivity. }
  unfold mbind at 1. unfold mbind at 1. unfold liftW at 1. cbn [fst snd]. rewrite EB. eexists. reflexivity.
Qed.
Print Assumptions C97_opg_bootstrap_starves.

(** A generator that always draws the first index *)
Program Definition const_gen : gen := {|
  gst := unit; g_seed := fun _ => tt; g_normal := fun s => (0, s); g_unif := fun s => (0, s); g_randint := fun _ s => (0%nat, s) |}.
Next Obligation. lra. Defined.

(** Resampling any distinct points can starve the local models: computing subspaces by the outer product of gradients
    returns without bootstrap and, for some generator, raises with it. *)
Theorem C97_opg_bootstrap_refuted : exists G : gen, forall eigh argsort lstsq norm2 det (U : Type) M m x f w nboot (ws : world G U (nd R) * subspaces),
  eigh_contract eigh -> eigh_total eigh -> argsort_contract argsort -> lstsq_total lstsq -> norm2_contract norm2 -> det_contract det ->
  shape x = [M; m] -> shape f = [M; 1%nat] -> shape w = [M; 1%nat] -> (forall i, (i < M)%nat -> 0 < w.[i, 0%nat]) ->
  (2 <= m)%nat -> (17 * m / 10 < M)%nat -> distinct_rows x M -> (0 < nboot)%Z ->
  (exists ws', ss_compute eigh argsort lstsq norm2 det (Some x) (Some f) None (Some w) "OPG" "EVG" 0 ws = (Ok tt, ws')) /\
  (exists ws', ss_compute eigh argsort lstsq norm2 det (Some x) (Some f) None (Some w) "OPG" "EVG" nboot ws = (Err ValueError, ws')).
Proof.
  exists const_gen. intros eigh argsort lstsq norm2 det U M m x f w nboot [w0 s] HE HT HA HL HN HD Sx Sf Sw Pw Hm HM HX Hb.
  destruct (C55_opg_returns eigh argsort lstsq const_gen U x f w M m w0 HE HT HA HL Sx Sf Sw Pw Hm HM HX) as (e & V & w1 & EO).
  assert (EM : ssmethod eigh argsort lstsq "OPG" (Some x) (Some f) None w w0 = (Ok (e, V), w1)) by exact EO.
  destruct (ssmethod_ok eigh argsort lstsq HE HA _ _ _ _ _ _ _ _ _ EM) as (k & C & lam & MD & L).
  unfold method_dim in MD. cbn [String.eqb Ascii.eqb Bool.eqb] in MD. destruct MD as (x' & M' & Ex & Sx'). injection Ex as <-. rewrite Sx in Sx'. injection Sx' as _ <-.
  split.
  - unfold ss_compute. rewrite (process_inputs_eq _ x M m Sx). cbn [rbind]. unfold mlift at 1, mbind at 1.
    unfold liftW at 1, mbind at 1. cbn [fst snd]. rewrite EM.
    unfold mbind at 1, getS at 1. cbn [snd fst]. unfold mbind at 1, setS at 1. cbn [snd fst].
    unfold mbind at 1. cbn [Z.ltb Z.compare String.eqb Ascii.eqb Bool.eqb orb]. unfold mret at 1.
    unfold mbind at 1, getS at 1. cbn [snd fst]. unfold mbind at 1, setS at 1. cbn [snd fst s_eigenvals s_eigenvecs s_W1 s_W2].
    destruct (eig_partition_eq m e (es_e _ _ _ _ _ L) Hm) as (q & ed & EP & _ & _ & K1 & _).
    unfold mlift at 1, choose_dim. cbn [String.eqb Ascii.eqb Bool.eqb]. rewrite EP. cbn [rbind]. unfold mbind at 1.
    apply ss_partition_iff. exists (Z.of_nat q + 1)%Z, V. cbn [snd s_eigenvecs]. split; auto. split; auto. rewrite (nrows_shape2 _ V m m (es_V _ _ _ _ _ L)). lia.
  - assert (HR : forall hi (wd : world const_gen U (nd R)), (0 < hi)%nat -> draw_randint hi wd = (Ok 0%nat, set_rng wd tt)).
    { intros [|h] wd Hh; [lia|]. unfold draw_randint. cbn [const_gen g_randint]. destruct wd as [[] ? ? ?]. reflexivity. }
    assert (HI : forall n (wd : world const_gen U (nd R)), exists wd', repeatM n (draw_randint M) wd = (Ok (repeat 0%nat n), wd')).
    { induction n as [|n IH]; intros wd; [eexists; reflexivity|]. cbn [repeatM repeat]. rewrite (nb _ _ _ _ _ (HR M wd ltac:(lia))).
      destruct (IH (set_rng wd tt)) as (wd' & E). rewrite (nb _ _ _ _ _ E). eexists; reflexivity. }
    destruct (HI M w1) as (w2 & EI).
    destruct (C97_opg_bootstrap_starves eigh argsort lstsq norm2 det const_gen U M m x f w "EVG" nboot (w0, s) e V w1 (repeat 0%nat M) w2 0%nat (set_rng w2 tt)
      HE HA Sx Sf Sw Hm HM Hb EM EI (HR M w2 ltac:(lia))) as (s' & E); [|eauto].
    rewrite nth_repeat, count_occ_repeat_eq by reflexivity.
    assert (D := Nat.div_mod (17 * m) 10 ltac:(lia)). assert (D' := Nat.mod_upper_bound (17 * m) 10 ltac:(lia)).
    set (p := (17 * m / 10)%nat) in *. set (rr := ((17 * m) mod 10)%nat) in *. lia.
Qed.
Print Assumptions C97_opg_bootstrap_refuted.

(** Four points of f = 1 + 3 x1 - 4 x2, ten replicates; six points for the quadratic model.
    The four points (0,0), (1,0), (0,1), (1,2) also show the starved local models. *)
Definition X97 : nd R := mat_of [[0; 0]; [1; 0]; [0; 1]; [1; 2]; [2; 1]; [2; 2]].
Definition f97 : nd R := mat_of [[0]; [1]; [1]; [5]; [5]; [8]].
Example C97_case :
  (exists ws' A, ss_compute eigh_ref argsort_ref lstsq_ref norm2_ref det_ref (Some X55) (Some f55) None None "OLS" "EVG" 10 (toy_world (U := unit) (L := nd R) tt, subs_new) = (Ok tt, ws') /\
     s_W1 (snd ws') = Some A /\ shape A = [2%nat; 1%nat]) /\
  (exists ws', ss_compute eigh_ref argsort_ref lstsq_ref norm2_ref det_ref (Some X97) (Some f97) None None "QPHD" "LI" 10 (toy_world (U := unit) (L := nd R) tt, subs_new) = (Ok tt, ws')) /\
  (exists (G : gen) (w0 : world G unit (nd R)),
     (exists ws', ss_compute eigh_ref argsort_ref lstsq_ref norm2_ref det_ref (Some X55) (Some f55) None (Some w14) "OPG" "EVG" 0 (w0, subs_new) = (Ok tt, ws')) /\
     (exists ws', ss_compute eigh_ref argsort_ref lstsq_ref norm2_ref det_ref (Some X55) (Some f55) None (Some w14) "OPG" "EVG" 10 (w0, subs_new) = (Err ValueError, ws'))).
Proof.
  split; [|split].
  - destruct (C97_ols_keeps_one eigh_ref argsort_ref lstsq_ref norm2_ref det_ref toy_gen unit 4 2 X55 f55 None 10 (toy_world tt, subs_new)
      eigh_ref_contract eigh_ref_total argsort_ref_contract lstsq_ref_contract lstsq_ref_total norm2_ref_contract det_ref_contract ltac:(lia) ltac:(lia) eq_refl eq_refl I)
      as (ws' & A & B & E & EA & _ & SA & _). eauto.
  - apply (C97_fit_methods_return eigh_ref argsort_ref lstsq_ref norm2_ref det_ref toy_gen unit 6 2 X97 f97 None "QPHD" "LI" 10 (toy_world tt, subs_new)
      eigh_ref_contract eigh_ref_total argsort_ref_contract lstsq_ref_contract lstsq_ref_total norm2_ref_contract det_ref_contract ltac:(lia) eq_refl eq_refl I).
    + right. split; [reflexivity|lia].
    + right. split; [auto|lia].
  - destruct C97_opg_bootstrap_refuted as (G & H). exists G, (World (g_seed G 0) tt [] 0).
    assert (HP : forall i, (i < 4)%nat -> 0 < w14.[i, 0%nat]) by (intros; cbn; lra).
    assert (HX : distinct_rows X55 4).
    { intros i j Hi Hj Hij. unfold sqdist.
      do 4 (destruct i as [|i]; [do 4 (destruct j as [|j]; [try congruence; cbn; lra|]); lia|]). lia. }
    exact (H eigh_ref argsort_ref lstsq_ref norm2_ref det_ref unit 4%nat 2%nat X55 f55 w14 10%Z (World (g_seed G 0) tt [] 0, subs_new)
      eigh_ref_contract eigh_ref_total argsort_ref_contract lstsq_ref_total norm2_ref_contract det_ref_contract
      eq_refl eq_refl eq_refl HP ltac:(lia) ltac:(cbn; lia) HX ltac:(lia)).
Qed.
