(** Property C98: what the first tutorial, tutorials/basic.ipynb, computes and
    draws, and how far it runs. *)
From Coq Require Import String Reals Lra Lia List Arith ZArith Bool.
From Verif Require Import Prelude Py NumArr LinAlg Lsq Sorting Spectral Det EighRef Toy M_Misc P_Misc M_SimRunners M_RespSurf M_Gradients M_QP M_Subspaces P_Subspaces P_Qphd P_PolyTrain P_PolyFacts P_Poly
  P_Estimators P_SimRunners P_SubsState P_Bootstrap P_SubsLive P_LocalLinear M_Domains P_Domains M_Designs M_Integrals P_Integrals M_Optimizers P_Optimizers M_Plotters P_Plotters Properties_Plotters M_Tutorials P_Tutorials Properties_Tutorials Properties_TestFunctions
  Properties_Gradients Properties_Domains Properties_Integrals Properties_Optimizers Properties_Subspaces Properties_SubsState Properties_Integrate Properties_Stein M_Notebooks P_Notebooks Properties_Notebooks Properties_ComputeLive Properties_QP M_Basic P_Basic.
Import ListNotations.
Open Scope R_scope.

(** ** The fits behind the cells, of the points X and the outputs f *)

(** e and V: the eigenvalues, decreasing, and orthonormal eigenvectors of C *)
Definition decomposes (m : nat) (C : nat -> nat -> R) (e V : nd R) : Prop :=
  shape e = [m; 1%nat] /\ shape V = [m; m] /\
  (forall a b, (a < m)%nat -> (b < m)%nat -> sumf m (fun i => V.[i, a] * V.[i, b]) = if Nat.eqb a b then 1 else 0) /\
  (forall j, (j < m)%nat -> 0 <= V.[0%nat, j] /\ 0 <= e.[j, 0%nat]) /\
  (forall i j, (i <= j)%nat -> (j < m)%nat -> e.[j, 0%nat] <= e.[i, 0%nat]) /\
  (forall i k, (i < m)%nat -> (k < m)%nat -> C i k = sumf m (fun j => e.[j, 0%nat] * V.[i, j] * V.[k, j])).

(** least squares with a + b.x *)
Definition linear_fit (N m : nat) (X : nat -> nat -> R) (f : nat -> R) (a : R) (b : nat -> R) : Prop :=
  let cost a b := sumf N (fun i => (f i - a - sumf m (fun j => b j * X i j)) ^ 2) in forall a' b', cost a b <= cost a' b'.
Definition linear_axes (N m : nat) (X : nat -> nat -> R) (f : nat -> R) (e V : nd R) : Prop :=
  exists a b, linear_fit N m X f a b /\ decomposes m (fun i k => b i * b k) e V.

(** least squares with c + b.x + x.Hx/2; b b^T + H H^T/3 is the average of the
    surface's gradient times itself over the uniform distribution on the cube *)
Definition quadratic_axes (N m : nat) (X : nat -> nat -> R) (f : nat -> R) (e V : nd R) : Prop :=
  exists c b H, (forall i k, (i < m)%nat -> (k < m)%nat -> H i k = H k i) /\
    (let cost c b H := sumf N (fun i => (f i - quadratic m c b H (X i)) ^ 2) in forall c' b' H', cost c b H <= cost c' b' H') /\
    decomposes m (fun i k => b i * b k + / 3 * sumf m (fun l => H i l * H k l)) e V.

(** row i of D is the slope of an affine function fitted to p samples: of the
    samples in the order of their distance from sample c, the first p without
    the one in place c *)
Definition local_slopes (N m p : nat) (XX F D : nd R) : Prop :=
  exists K, 10 * INR m * ln (INR m) <= INR K < 10 * INR m * ln (INR m) + 1 /\ shape D = [Nat.min K (N - 1); m] /\
  forall i, (i < Nat.min K (N - 1))%nat -> exists c s a b, (c < N)%nat /\ by_distance XX N c s /\
    (let l := firstn p (firstn c s ++ skipn (S c) s) in NoDup l /\ List.length l = p /\
     linear_fit p m (fun t j => XX.[nth t l 0%nat, j]) (fun t => F.[nth t l 0%nat, 0%nat]) a b) /\
    forall j, (j < m)%nat -> D.[i, j] = b j.

(** the reported ranges come from nb repetitions of the same analysis [spec] on
    N of the N samples, drawn with replacement *)
Definition repeated (N m nb : nat) (spec : (nat -> nat) -> nd R -> nd R -> Prop) (V B S : nd R) : Prop :=
  exists (ind : nat -> nat -> nat) (eb Vb : nat -> nd R),
    (forall b, (b < nb)%nat -> (forall i, (i < N)%nat -> (ind b i < N)%nat) /\ spec (ind b) (eb b) (Vb b)) /\
    ranges_over m nb V B S eb Vb.

Lemma eigsorted_decomposes : forall m C e V lam, eigsorted m C e V lam -> psd m C -> decomposes m C e V.
Proof.
  intros m C e V lam L P. assert (EV := eigsorted_psd_eig _ _ _ _ _ L P).
  split; [apply (es_e _ _ _ _ _ L)|]. split; [apply (es_V _ _ _ _ _ L)|]. split; [exact (es_orth _ _ _ _ _ L)|]. split.
  { intros j Hj. split; [apply (es_row0 _ _ _ _ _ L); auto | apply (eigsorted_nonneg _ _ _ _ _ L); auto]. }
  split; [exact (es_dec _ _ _ _ _ L)|].
  intros i k Hi Hk. exact (reassemble m C (fun j => e.[j, 0%nat]) (ent V) (es_orth _ _ _ _ _ L) EV i k Hi Hk).
Qed.
Lemma decomposes_ext : forall m C C' e V, (forall i k, (i < m)%nat -> (k < m)%nat -> C i k = C' i k) -> decomposes m C e V -> decomposes m C' e V.
Proof. intros m C C' e V H (D1 & D2 & D3 & D4 & D5 & D6). repeat (split; [assumption|]). intros i k Hi Hk. rewrite <- H by auto. auto. Qed.

Section Axes.
  Variable eigh : nd R -> res (nd R * nd R).
  Variable argsort : list R -> list nat.
  Variable lstsq : nd R -> nd R -> res (nd R).
  Hypothesis HE : eigh_contract eigh.
  Hypothesis HA : argsort_contract argsort.
  Hypothesis HL : lstsq_contract lstsq.

  Lemma linear_of : forall N m X f w e V, (1 <= N)%nat -> shape X = [N; m] -> shape f = [N; 1%nat] -> shape w = [N; 1%nat] -> (forall i, (i < N)%nat -> w.[i, 0%nat] = / INR N) ->
    ols_subspace eigh argsort lstsq X f w = Ok (e, V) -> linear_axes N m (fun i j => X.[i, j]) (fun i => f.[i, 0%nat]) e V.
  Proof.
    intros N m X f w e V HN SX Sf Sw Vw H. assert (P : 0 < / INR N) by (apply Rinv_0_lt_compat, lt_0_INR; lia).
    destruct (ols_subspace_spec eigh argsort lstsq HE HA HL N m X f w e V SX Sf Sw) as (a & b & lam & Hmin & L); [intros i Hi; rewrite Vw by auto; lra|exact H|].
    exists a, b. split.
    - intros a' b'. cbv zeta. specialize (Hmin a' b').
      assert (Q : forall a b, wls N m X f w a b = / INR N * sumf N (fun i => (f.[i, 0%nat] - a - sumf m (fun j => b j * X.[i, j])) ^ 2)).
      { intros a0 b0. rewrite <- sumf_scal_l. apply sumf_ext. intros i Hi. rewrite Vw by auto. ring. }
      rewrite !Q in Hmin. exact (Rmult_le_reg_l _ _ _ P Hmin).
    - apply (eigsorted_decomposes _ _ _ _ _ L). intros x. unfold quad.
      assert (Q : sumf m (fun i => sumf m (fun k => x i * (b i * b k) * x k)) = (sumf m (fun i => x i * b i)) ^ 2).
      { rewrite <- Rsqr_pow2. unfold Rsqr. rewrite sumf_mul. apply sumf_ext. intros i Hi. apply sumf_ext. intros k Hk. ring. }
      rewrite Q. apply pow2_ge_0.
  Qed.

  Lemma quadratic_of : forall N m X f w e V, (1 <= N)%nat -> shape X = [N; m] -> shape f = [N; 1%nat] -> shape w = [N; 1%nat] -> (forall i, (i < N)%nat -> w.[i, 0%nat] = / INR N) ->
    (forall i j, (i < N)%nat -> (j < m)%nat -> X.[i, j] <= 1) ->
    qphd_subspace eigh argsort lstsq X f w = Ok (e, V) -> quadratic_axes N m (fun i j => X.[i, j]) (fun i => f.[i, 0%nat]) e V.
  Proof.
    intros N m X f w e V HN SX Sf Sw Vw HX H. assert (P : 0 < / INR N) by (apply Rinv_0_lt_compat, lt_0_INR; lia).
    destruct (qphd_subspace_spec eigh argsort lstsq HE HA HL N m X f w e V SX Sf Sw H) as (c & b & H0 & gamma & lam & Hs & Hmin & (_ & Hg) & L).
    specialize (Hg HX). subst gamma. exists c, b, H0. split; [exact Hs|]. split.
    - cbv zeta. intros c' b' H'. specialize (Hmin c' b' H').
      assert (Q : forall c b H, wq N m X f w c b H = (/ INR N * / INR N) * sumf N (fun i => (f.[i, 0%nat] - quadratic m c b H (fun j => X.[i, j])) ^ 2)).
      { intros c0 b0 H1. unfold wq. rewrite <- sumf_scal_l. apply sumf_ext. intros i Hi. rewrite Vw by auto. unfold qmodel, quadratic. ring. }
      rewrite !Q in Hmin. exact (Rmult_le_reg_l _ _ _ (Rmult_lt_0_compat _ _ P P) Hmin).
    - apply (decomposes_ext m (quadC m (1 / 3) b H0)); [intros i k Hi Hk; unfold quadC; replace (1 / 3) with (/ 3) by field; reflexivity|].
      apply (eigsorted_decomposes _ _ _ _ _ L). apply quadC_psd. lra.
  Qed.

  (** the repetitions analyse resampled data *)
  Lemma repetitions : forall {G : gen} {U : Type} X f df sstype (N m nb : nat) V B S (eb Vb : nat -> nd R) (spec : (nat -> nat) -> nd R -> nd R -> Prop), (1 <= N)%nat ->
    (forall ind X0 f0 df0 w0 (wa wb : world G U (nd R)) e V, List.length ind = N -> Forall (fun k => (k < N)%nat) ind ->
       opt_rows_of X ind X0 -> opt_rows_of f ind f0 -> opt_rows_of df ind df0 -> shape w0 = [N; 1%nat] -> (forall i, (i < N)%nat -> w0.[i, 0%nat] = / INR N) ->
       ssmethod eigh argsort lstsq sstype X0 f0 df0 w0 wa = (Ok (e, V), wb) -> spec (fun i => nth i ind 0%nat) e V) ->
    (forall b, (b < nb)%nat -> exists ind X0 f0 df0 w0 (wa wb : world G U (nd R)), List.length ind = N /\
         opt_rows_of X ind X0 /\ opt_rows_of f ind f0 /\ opt_rows_of df ind df0 /\ rows_of (mk2 N 1 (fun _ _ => / INR N)) ind w0 /\
         ssmethod eigh argsort lstsq sstype X0 f0 df0 w0 wa = (Ok (eb b, Vb b), wb)) ->
    ranges_over m nb V B S eb Vb -> repeated N m nb spec V B S.
  Proof.
    intros G U X f df sstype N m nb V B S eb Vb spec HN HS HB HR.
    destruct (finite_choice (nat -> nat) (fun i => i) nb (fun b ind => (forall i, (i < N)%nat -> (ind i < N)%nat) /\ spec ind (eb b) (Vb b))) as (ind & Hi).
    { intros b Hb. destruct (HB b Hb) as (l & X0 & f0 & df0 & w0 & wa & wb & Ll & O1 & O2 & O3 & (r & c & Q1 & Q2 & Q3 & Q4) & HM).
      injection Q1 as <- <-. exists (fun i => nth i l 0%nat). split.
      - intros i Hi. rewrite Forall_forall in Q3. apply Q3, nth_In. lia.
      - refine (HS l X0 f0 df0 w0 wa wb _ _ Ll Q3 O1 O2 O3 _ _ HM); [rewrite Q2, Ll; reflexivity|].
        intros i Hi. rewrite Q4 by lia. apply at_mk2. }
    exists ind, eb, Vb. split; [exact Hi|exact HR].
  Qed.
End Axes.

(** what a cell that analyses n_rows samples and draws N reports: [spec] of all
    samples, the active part, the ranges over nb repetitions, the pictures *)
Definition reported {G : gen} {U T : Type} (rows N m nb : nat) (spec : (nat -> nat) -> nd R -> nd R -> Prop) (XX F : nd R) (p : pyplot)
    (run : res T * ((world G U (nd R) * subspaces) * pyplot)) (v : T) (n : nat) (A : nd R) : Prop :=
  exists e V B S, spec (fun i => i) e V /\ active_part m n e V A /\ repeated rows m nb spec V B S /\ outcome N m n XX F e V A B S p run v.

(** ** Cell 3 *)

Theorem C98_samples : forall (G : gen) (U : Type) N (w : world G U (nd R)) s p, exists x f ub lb XX w',
  cell3 N ((w, s), p) = (Ok (x, f, ub, lb, XX), ((w', s), p)) /\
  shape x = [N; 10%nat] /\ shape f = [N; 1%nat] /\ shape XX = [N; 10%nat] /\
  (forall j, (j < 10)%nat -> ub.[0%nat, j] = fst (nth j wing_box (0, 1)) /\ lb.[0%nat, j] = snd (nth j wing_box (0, 1))) /\
  forall i, (i < N)%nat ->
    (forall j, (j < 10)%nat -> exists u, u = unif_at (rng w) (j * N + i) /\ 0 <= u < 1 /\
       x.[i, j] = fst (nth j wing_box (0, 1)) * (1 - u) + snd (nth j wing_box (0, 1)) * u /\ XX.[i, j] = 1 - 2 * u) /\
    f.[i, 0%nat] = wing_weight (x.[i, 0%nat]) (x.[i, 1%nat]) (x.[i, 2%nat]) (x.[i, 3%nat]) (x.[i, 4%nat]) (x.[i, 5%nat]) (x.[i, 6%nat]) (x.[i, 7%nat]) (x.[i, 8%nat]) (x.[i, 9%nat]).
Proof.
  intros G U N w s p. destruct (cell3_ev N w s p) as (x & f & ub & lb & XX & E & (_ & _ & L) & Sx & Sf & SX & V & F).
  exists x, f, ub, lb, XX. eexists. split; [exact E|]. do 3 (split; [assumption|]). split; [exact L|].
  intros i Hi. split; [|apply (F i Hi)]. intros j Hj. destruct (V i j Hi Hj) as (V1 & V2).
  eexists. split; [reflexivity|]. split; [apply unif_at_range|]. split; [|exact V2]. rewrite V1. unfold lo, hi. ring.
Qed.
Print Assumptions C98_samples.

Section Models.
  Context {G : gen} {U : Type}.
  Notation Wd := (world G U (nd R)).
  Variable eigh : nd R -> res (nd R * nd R).
  Variable argsort : list R -> list nat.
  Variable lstsq : nd R -> nd R -> res (nd R).
  Variable norm2 : nd R -> R.
  Variable det : nd R -> R.
  Hypothesis HE : eigh_contract eigh.
  Hypothesis HA : argsort_contract argsort.
  Hypothesis HT : eigh_total eigh.
  Hypothesis HL : lstsq_contract lstsq.
  Hypothesis HLT : lstsq_total lstsq.
  Hypothesis HNm : norm2_contract norm2.
  Hypothesis HD : det_contract det.
  Variables N m : nat.
  Variables XX F : nd R.
  Hypothesis SX : shape XX = [N; m].
  Hypothesis SF : shape F = [N; 1%nat].
  Hypothesis Hm : (2 <= m)%nat.
  Variable nboot : Z.
  Hypothesis Hb : (0 < nboot)%Z.

  Lemma linear_cell : forall (w : Wd) s p, (1 <= N)%nat -> exists A,
    reported N N m (Z.to_nat nboot) (fun ind => linear_axes N m (fun i j => XX.[ind i, j]) (fun i => F.[ind i, 0%nat])) XX F p
      (cell5_7 eigh argsort lstsq norm2 det nboot XX F ((w, s), p)) tt 1 A /\
    exists a b, linear_fit N m (fun i j => XX.[i, j]) (fun i => F.[i, 0%nat]) a b /\
      (sumf m (fun i => b i * b i) <> 0 -> exists s, (s = 1 \/ s = -1) /\ forall i, (i < m)%nat -> A.[i, 0%nat] = s * (b i / sqrt (sumf m (fun i => b i * b i)))).
  Proof.
    intros w s p HN.
    destruct (C97_ols_keeps_one eigh argsort lstsq norm2 det G U N m XX F None nboot (w, subs_new) HE HT HA HL HLT HNm HD HN Hm SX SF I)
      as (ws' & A & A2 & EC & EA & _ & SA & _ & a & b & Hmin & Hdir).
    destruct (cell_ev eigh argsort lstsq norm2 det HE HA HNm HD (Some XX) (Some F) None "OLS" nboot w subs_new p N m XX F N Hm Hb HN SX ltac:(intros; discriminate) SX SF (ex_intro _ _ EC))
      as (e & V & A' & B & S & n & eb & Vb & w1 & HM & AP & RO & RB & (ws2 & A2' & EC2) & OUT).
    rewrite EC in EC2. assert (A' = A).
    { apply (f_equal snd) in EC2. cbn [snd] in EC2. subst ws'. cbn [snd s_W1] in EA. congruence. }
    subst A'. assert (n = 1%nat) by (destruct AP as (_ & _ & SA' & _); congruence). subst n.
    assert (P : 0 < / INR N) by (apply Rinv_0_lt_compat, lt_0_INR; lia).
    exists A. split.
    - exists e, V, B, S. split.
      { apply (f_equal fst) in HM. cbn [fst] in HM. apply (linear_of eigh argsort lstsq HE HA HL N m XX F (mk2 N 1 (fun _ _ => / INR N))); auto; intros; apply at_mk2. }
      split; [exact AP|]. split.
      { apply (repetitions eigh argsort lstsq (Some XX) (Some F) None "OLS" N m _ V B S eb Vb _ HN) with (2 := RB) (3 := RO).
        intros ind X0 f0 df0 w0 wa wb e0 V0 Li Fi (x0 & -> & r & c & Q1 & Q2 & _ & Q4) (y0 & -> & r' & c' & Q1' & Q2' & _ & Q4') _ Sw Vw HM0.
        rewrite SX in Q1. injection Q1 as <- <-. rewrite SF in Q1'. injection Q1' as <- <-. rewrite Li in *.
        apply (f_equal fst) in HM0. cbn [fst] in HM0.
        destruct (linear_of eigh argsort lstsq HE HA HL N m x0 y0 w0 e0 V0 HN Q2 Q2' Sw Vw HM0) as (a0 & b0 & L0 & D0).
        exists a0, b0. split; [|exact D0]. intros a' b'. specialize (L0 a' b'). cbv zeta beta in *.
        refine (eq_ind _ (fun t => t <= _) (eq_ind _ (fun t => _ <= t) L0 _ _) _ _);
          (apply sumf_ext; intros i Hi; rewrite Q4' by lia; f_equal; f_equal; apply sumf_ext; intros j Hj; rewrite Q4 by lia; reflexivity). }
      unfold cell5_7. rewrite (nb _ _ ((w, s), p) tt ((w, subs_new), p)) by reflexivity. exact OUT.
    - exists a, b. split; [|exact Hdir]. intros a' b'. specialize (Hmin a' b'). cbv zeta beta in *.
      rewrite !sumf_scal_l in Hmin. exact (Rmult_le_reg_l _ _ _ P Hmin).
  Qed.

  Lemma quadratic_cell : forall (w : Wd) s p, ((m + 1) * (m + 2) <= 2 * N)%nat -> (forall i j, (i < N)%nat -> (j < m)%nat -> XX.[i, j] <= 1) -> exists n A,
    reported N N m (Z.to_nat nboot) (fun ind => quadratic_axes N m (fun i j => XX.[ind i, j]) (fun i => F.[ind i, 0%nat])) XX F p
      (cell9 eigh argsort lstsq norm2 det nboot XX F ((w, s), p)) tt n A.
  Proof.
    intros w s p HN HX. assert (HN1 : (1 <= N)%nat) by nia.
    assert (EC := C97_fit_methods_return eigh argsort lstsq norm2 det G U N m XX F None "QPHD" "EVG" nboot (w, s) HE HT HA HL HLT HNm HD Hm SX SF I ltac:(auto) ltac:(auto)).
    destruct (cell_ev eigh argsort lstsq norm2 det HE HA HNm HD (Some XX) (Some F) None "QPHD" nboot w s p N m XX F N Hm Hb HN1 SX ltac:(intros; discriminate) SX SF EC)
      as (e & V & A & B & S & n & eb & Vb & w1 & HM & AP & RO & RB & _ & OUT).
    exists n, A, e, V, B, S. split.
    { apply (f_equal fst) in HM. cbn [fst] in HM. apply (quadratic_of eigh argsort lstsq HE HA HL N m XX F (mk2 N 1 (fun _ _ => / INR N))); auto; intros; apply at_mk2. }
    split; [exact AP|]. split; [|exact OUT].
    apply (repetitions eigh argsort lstsq (Some XX) (Some F) None "QPHD" N m _ V B S eb Vb _ HN1) with (2 := RB) (3 := RO).
    intros ind X0 f0 df0 w0 wa wb e0 V0 Li Fi (x0 & -> & r & c & Q1 & Q2 & _ & Q4) (y0 & -> & r' & c' & Q1' & Q2' & _ & Q4') _ Sw Vw HM0.
    rewrite SX in Q1. injection Q1 as <- <-. rewrite SF in Q1'. injection Q1' as <- <-. rewrite Li in *.
    apply (f_equal fst) in HM0. cbn [fst] in HM0. rewrite Forall_forall in Fi.
    assert (HX0 : forall i j, (i < N)%nat -> (j < m)%nat -> x0.[i, j] <= 1).
    { intros i j Hi Hj. rewrite Q4 by lia. apply HX; [|lia]. apply Fi, nth_In. lia. }
    destruct (quadratic_of eigh argsort lstsq HE HA HL N m x0 y0 w0 e0 V0 HN1 Q2 Q2' Sw Vw HX0 HM0) as (c0 & b0 & H0 & L0 & L1 & D0).
    exists c0, b0, H0. split; [exact L0|]. split; [|exact D0]. cbv zeta in L1 |- *. intros c' b' H'. specialize (L1 c' b' H').
    refine (eq_ind _ (fun t => t <= _) (eq_ind _ (fun t => _ <= t) L1 _ _) _ _);
      (apply sumf_ext; intros i Hi; rewrite Q4' by lia; f_equal; f_equal; unfold quadratic; f_equal; [f_equal|f_equal];
       [apply sumf_ext; intros j Hj; rewrite Q4 by lia; reflexivity|
        apply sumf_ext; intros j Hj; apply sumf_ext; intros k Hk; rewrite !Q4 by lia; reflexivity]).
  Qed.

  Lemma gradient_cell : forall (w : Wd) s p R D, (1 <= N)%nat -> (1 <= R)%nat -> shape D = [R; m] -> exists n A,
    reported R N m (Z.to_nat nboot) (fun ind => principal_axes R m (fun i j => D.[ind i, j])) XX F p
      (from_gradients eigh argsort lstsq norm2 det nboot XX F D ((w, s), p)) tt n A.
  Proof.
    intros w s p R D HN HR SD.
    assert (EC := C53_gradient_method_returns eigh argsort lstsq norm2 det G U R m D None "EVG" nboot (w, s) HE HA HT HNm HD HR Hm SD I ltac:(auto)).
    destruct (cell_ev eigh argsort lstsq norm2 det HE HA HNm HD None None (Some D) "AS" nboot w s p R m XX F N Hm Hb HN SD ltac:(intros; discriminate) SX SF EC)
      as (e & V & A & B & S & n & eb & Vb & w1 & HM & AP & RO & RB & _ & OUT).
    exists n, A, e, V, B, S. split.
    { apply (f_equal fst) in HM. cbn [fst] in HM. apply (principal eigh argsort R m D (mk2 R 1 (fun _ _ => / INR R))); auto; intros; apply at_mk2. }
    split; [exact AP|]. split; [|exact OUT].
    apply (repetitions eigh argsort lstsq None None (Some D) "AS" R m _ V B S eb Vb _ HR) with (2 := RB) (3 := RO).
    intros ind X0 f0 df0 w0 wa wb e0 V0 Li Fi _ _ (d0 & -> & r & c & Q1 & Q2 & _ & Q4) Sw Vw HM0.
    rewrite SD in Q1. injection Q1 as <- <-. rewrite Li in *. apply (f_equal fst) in HM0. cbn [fst] in HM0.
    destruct (principal eigh argsort R m d0 w0 e0 V0 HE HA HR Q2 Sw Vw HM0) as (P1 & P2 & P3 & P4 & P5 & P6).
    do 5 (split; [assumption|]). intros i k Hi Hk. rewrite <- P6 by auto. f_equal. apply sumf_ext. intros t Ht. rewrite !Q4 by lia. reflexivity.
  Qed.
End Models.

(** ** The gradients of cells 11 and 13 *)

Lemma local_cell : forall {G : gen} {U : Type} argsort lstsq N m XX F (w : world G U (nd R)), argsort_contract argsort -> lstsq_contract lstsq -> lstsq_total lstsq ->
  shape XX = [N; m] -> shape F = [N; 1%nat] -> (2 <= m)%nat -> (17 * m / 10 < N)%nat -> distinct_rows XX N ->
  exists D w', local_linear_gradients argsort lstsq XX F None None w = (Ok D, w') /\ local_slopes N m (17 * m / 10) XX F D.
Proof.
  intros G U argsort lstsq N m XX F w HA HL HLT SX SF Hm HN HX.
  assert (Hp : (m + 1 <= 17 * m / 10)%nat) by (apply Nat.div_le_lower_bound; lia).
  set (q := (17 * m / 10)%nat) in *.
  assert (EQ : forall w : world G U (nd R), local_linear_gradients argsort lstsq XX F None None w = local_linear_gradients argsort lstsq XX F (Some (IsA (Z.of_nat q))) None w).
  { intros w0. assert (EP : ll_p None N m = Ok (Z.of_nat q)) by (unfold ll_p; fold q; rewrite Nat.min_l by lia; reflexivity).
    unfold local_linear_gradients. rewrite (process_inputs_eq _ XX N m SX). 
    rewrite !(nb (mlift (Ok (XX, N, m))) _ w0 (XX, N, m) w0) by reflexivity. cbv beta iota.
    destruct (Nat.leb N m); [reflexivity|]. rewrite EP. reflexivity. }
  rewrite EQ. destruct (C08_returns argsort lstsq G U XX F None N m (Z.of_nat q) w HA HLT SX SF ltac:(lia) ltac:(lia) I HX) as (D & w' & E).
  exists D, w'. split; [exact E|].
  destruct (C08_row_count argsort lstsq G U XX F _ None N m w D w' SX E) as (K & HK & SD).
  exists K. split; [exact HK|]. split; [exact SD|]. intros i Hi.
  destruct (C09_neighbours_partial argsort lstsq G U XX F q N m w D w' HA HL SX SF HX E i) as (c & l & u & Hc & HB & HS & ND & LL & HM & _).
  { rewrite (nrows_shape2 _ D _ _ SD). exact Hi. }
  exists c, l, (u 0%nat), (fun j => u (S j)). split; [exact Hc|]. split; [exact HB|]. split; [|exact HS].
  cbv zeta. split; [exact ND|]. split; [exact LL|]. intros a' b'. cbv zeta.
  specialize (HM (fun j => match j with O => a' | S k => b' k end)). unfold rss in HM.
  set (ll := firstn q (firstn c l ++ skipn (S c) l)) in *.
  assert (Q : forall v : nat -> R, sumf q (fun i => resid (S m) (fun i j => match j with O => 1 | S k => XX.[nth i ll 0%nat, k] end) (fun i => F.[nth i ll 0%nat, 0%nat]) v i
                        * resid (S m) (fun i j => match j with O => 1 | S k => XX.[nth i ll 0%nat, k] end) (fun i => F.[nth i ll 0%nat, 0%nat]) v i)
    = sumf q (fun i => (F.[nth i ll 0%nat, 0%nat] - v 0%nat - sumf m (fun j => v (S j) * XX.[nth i ll 0%nat, j])) ^ 2)).
  { intros v. apply sumf_ext. intros t Ht. unfold resid. rewrite sumf_shift.
    rewrite (sumf_ext m _ (fun j => v (S j) * XX.[nth t ll 0%nat, j])) by (intros j Hj; ring). ring. }
  rewrite !Q in HM. exact HM.
Qed.

(** the weight at the normalized inputs z (as the notebook normalizes: -1 is the
    upper limit, 1 the lower) *)
Definition unit_weight (z : nat -> R) : R := weight (fun k => hi k + (lo k - hi k) / 2 * (z k + 1)).
Definition exact_gradients (N : nat) (XX D : nd R) : Prop :=
  shape D = [N; 10%nat] /\ forall i j, (i < N)%nat -> (j < 10)%nat ->
    derivable_pt_lim (fun t => unit_weight (fun k => if Nat.eqb k j then t else XX.[i, k])) (XX.[i, j]) (D.[i, j]).

Lemma dpl_near : forall f g x l d, 0 < d -> (forall t, Rabs (t - x) < d -> f t = g t) -> derivable_pt_lim f x l -> derivable_pt_lim g x l.
Proof.
  intros f g x l d Hd Hfg H eps He. destruct (H eps He) as (del & Hdel).
  assert (P : 0 < Rmin del d) by (apply Rmin_glb_lt; [apply cond_pos|exact Hd]).
  exists (mkposreal _ P). intros h Hh Hl. cbn [pos] in Hl. rewrite <- !Hfg.
  - apply Hdel; [exact Hh|]. eapply Rlt_le_trans; [exact Hl|apply Rmin_l].
  - rewrite Rminus_diag_eq by reflexivity. rewrite Rabs_R0. exact Hd.
  - replace (x + h - x) with h by ring. eapply Rlt_le_trans; [exact Hl|apply Rmin_r].
Qed.

Lemma out_weight : forall N X i, shape X = [N; 10%nat] -> (i < N)%nat -> wing_ok (fun j => X.[i, j]) -> out (tut_wing X) i = weight (fun j => X.[i, j]).
Proof.
  intros N X i HX Hi [Wp Wc]. unfold tut_wing, np_atleast_2d. rewrite HX. destruct (ten_ok N X HX) as (Y & Y1 & Y2 & Y3). rewrite Y1. cbn [rbind out].
  unfold value_col. rewrite at_mk2. transitivity (wing_row (fun j => X.[i, j])).
  - unfold wing_row, wing_Q. rewrite !Y3 by lia. reflexivity.
  - apply wing_formula; [intros j Hj Hn; apply Wp; [lia|exact Hn]|exact Wc].
Qed.

Lemma weight_ext : forall p q, (forall j, (j < 10)%nat -> p j = q j) -> weight p = weight q.
Proof. intros p q H. unfold weight. rewrite !H by lia. reflexivity. Qed.

Lemma exact_cell : forall lb ub x XX N, limits lb ub -> shape x = [N; 10%nat] -> (forall i, (i < N)%nat -> within wing_box (fun j => x.[i, j])) ->
  (forall i j, (i < N)%nat -> (j < 10)%nat -> x.[i, j] = hi j + (lo j - hi j) / 2 * (XX.[i, j] + 1)) ->
  exists D, basic_gradient lb ub x = Ok D /\ exact_gradients N XX D.
Proof.
  intros lb ub x XX N HL Sx HB HX. destruct (gradient_ok lb ub x N HL Sx) as (D & E & SD & HD). exists D. split; [exact E|]. split; [exact SD|].
  intros i j Hi Hj. specialize (HD i Hi (in_box_ok _ (HB i Hi)) j Hj). assert (LH := lo_hi j Hj).
  replace (2 * (x.[i, j] - hi j) / (lo j - hi j) - 1) with (XX.[i, j]) in HD by (rewrite HX by auto; field; lra).
  apply (dpl_near _ _ _ _ (1 / 2)) with (3 := HD); [lra|]. intros t Ht.
  assert (OK : wing_ok (fun k => if Nat.eqb k j then hi j + (lo j - hi j) / 2 * (t + 1) else x.[i, k])).
  { assert (W := HB i Hi). assert (Hx := W j Hj). fold (lo j) (hi j) in Hx. cbv beta in Hx. rewrite HX in Hx by auto. apply Rabs_def2 in Ht. split.
    - intros k Hk H3. destruct (Nat.eqb_spec k j) as [->|D0]; [|exact (proj1 (in_box_ok _ W) k Hk H3)].
      clear - Hx Ht Hj H3. revert Hx. unfold lo, hi, wing_box. ten j; cbn [nth fst snd]; intros; try lra. congruence.
    - destruct (Nat.eqb_spec 3 j) as [<-|D0]; [|exact (proj2 (in_box_ok _ W))].
      revert Hx. unfold lo, hi, wing_box. cbn [nth fst snd]. intros Hx. pose proof PI_RGT_0. apply cos_gt_0; nra. }
  assert (P : forall k, (k < 10)%nat -> (put x N 10 i j (hi j + (lo j - hi j) / 2 * (t + 1))).[i, k] = (if Nat.eqb k j then hi j + (lo j - hi j) / 2 * (t + 1) else x.[i, k])).
  { intros k Hk. unfold put. rewrite at_mk2, Nat.eqb_refl. reflexivity. }
  rewrite (out_weight N); [|reflexivity|exact Hi|].
  - apply weight_ext. intros k Hk. rewrite P by auto. destruct (Nat.eqb_spec k j) as [->|D0]; [reflexivity|apply HX; auto].
  - destruct OK as [O1 O2]. split.
    + intros k Hk H3. rewrite P by auto. exact (O1 k Hk H3).
    + rewrite P by lia. exact O2.
Qed.

(** ** The cells, one by one *)

(** cells 5 and 7: one active variable, the direction of the best linear fit *)
Theorem C98_linear_model : forall eigh argsort lstsq norm2 det (G : gen) (U : Type) N m XX F nboot (w : world G U (nd R)) s p,
  eigh_contract eigh -> argsort_contract argsort -> eigh_total eigh -> lstsq_contract lstsq -> lstsq_total lstsq -> norm2_contract norm2 -> det_contract det ->
  shape XX = [N; m] -> shape F = [N; 1%nat] -> (2 <= m)%nat -> (1 <= N)%nat -> (0 < nboot)%Z -> exists A,
    reported N N m (Z.to_nat nboot) (fun ind => linear_axes N m (fun i j => XX.[ind i, j]) (fun i => F.[ind i, 0%nat])) XX F p
      (cell5_7 eigh argsort lstsq norm2 det nboot XX F ((w, s), p)) tt 1 A /\
    exists a b, linear_fit N m (fun i j => XX.[i, j]) (fun i => F.[i, 0%nat]) a b /\
      (sumf m (fun i => b i * b i) <> 0 -> exists s, (s = 1 \/ s = -1) /\ forall i, (i < m)%nat -> A.[i, 0%nat] = s * (b i / sqrt (sumf m (fun i => b i * b i)))).
Proof. intros. now apply linear_cell. Qed.
Print Assumptions C98_linear_model.

(** cell 9 *)
Theorem C98_quadratic_model : forall eigh argsort lstsq norm2 det (G : gen) (U : Type) N m XX F nboot (w : world G U (nd R)) s p,
  eigh_contract eigh -> argsort_contract argsort -> eigh_total eigh -> lstsq_contract lstsq -> lstsq_total lstsq -> norm2_contract norm2 -> det_contract det ->
  shape XX = [N; m] -> shape F = [N; 1%nat] -> (2 <= m)%nat -> ((m + 1) * (m + 2) <= 2 * N)%nat -> (0 < nboot)%Z ->
  (forall i j, (i < N)%nat -> (j < m)%nat -> XX.[i, j] <= 1) -> exists n A,
    reported N N m (Z.to_nat nboot) (fun ind => quadratic_axes N m (fun i j => XX.[ind i, j]) (fun i => F.[ind i, 0%nat])) XX F p
      (cell9 eigh argsort lstsq norm2 det nboot XX F ((w, s), p)) tt n A.
Proof. intros. now apply quadratic_cell. Qed.
Print Assumptions C98_quadratic_model.

(** cell 11; R = min(ceil(10 m ln m), N - 1) gradients *)
Theorem C98_local_models : forall eigh argsort lstsq norm2 det (G : gen) (U : Type) N m XX F nboot (w : world G U (nd R)) s p,
  eigh_contract eigh -> argsort_contract argsort -> eigh_total eigh -> lstsq_contract lstsq -> lstsq_total lstsq -> norm2_contract norm2 -> det_contract det ->
  shape XX = [N; m] -> shape F = [N; 1%nat] -> (2 <= m)%nat -> (17 * m / 10 < N)%nat -> (0 < nboot)%Z -> distinct_rows XX N ->
  exists D n A, local_slopes N m (17 * m / 10) XX F D /\
    reported (nrows D) N m (Z.to_nat nboot) (fun ind => principal_axes (nrows D) m (fun i j => D.[ind i, j])) XX F p
      (cell11 eigh argsort lstsq norm2 det nboot XX F ((w, s), p)) D n A.
Proof.
  intros eigh argsort lstsq norm2 det G U N m XX F nboot w s p HE HA HT HL HLT HN HD SX SF Hm HM Hb HX.
  destruct (local_cell argsort lstsq N m XX F w HA HL HLT SX SF Hm HM HX) as (D & w' & E & HS).
  destruct HS as (K & HK & SD & HS). assert (ED : nrows D = Nat.min K (N - 1)) by exact (nrows_shape2 _ D _ _ SD).
  assert (HK1 : (1 <= K)%nat).
  { destruct K; [|lia]. exfalso. assert (2 <= INR m) by (apply (le_INR 2); lia). assert (0 < ln (INR m)) by (rewrite <- ln_1; apply ln_increasing; lra).
    cbn [INR] in HK. nra. }
  assert (HM2 : (2 <= N)%nat) by (assert (m + 1 <= 17 * m / 10)%nat by (apply Nat.div_le_lower_bound; lia); lia).
  rewrite <- ED in SD.
  destruct (gradient_cell eigh argsort lstsq norm2 det HE HA HT HN HD N m XX F SX SF Hm nboot Hb w' s p (nrows D) D ltac:(lia) ltac:(lia) SD) as (n & A & e & V & B & S & Q1 & Q2 & Q3 & Q4).
  exists D, n, A. split.
  { exists K. split; [exact HK|]. rewrite <- ED. split; [exact SD|]. rewrite ED. exact HS. }
  exists e, V, B, S. do 3 (split; [assumption|]).
  unfold cell11. rewrite (nb _ _ _ _ _ (onW_ev _ _ _ _ _ _ E)). apply outcome_ret. exact Q4.
Qed.
Print Assumptions C98_local_models.

(** cell 13, on what cell 3 produced *)
Theorem C98_exact_gradients : forall eigh argsort lstsq norm2 det (G : gen) (U : Type) N nboot (w : world G U (nd R)) s p x f ub lb XX st,
  eigh_contract eigh -> argsort_contract argsort -> eigh_total eigh -> norm2_contract norm2 -> det_contract det -> (1 <= N)%nat -> (0 < nboot)%Z ->
  cell3 N ((w, s), p) = (Ok (x, f, ub, lb, XX), st) -> forall (w' : world G U (nd R)) s' p',
  exists D n A, exact_gradients N XX D /\
    reported N N 10 (Z.to_nat nboot) (fun ind => principal_axes N 10 (fun i j => D.[ind i, j])) XX f p'
      (cell13 eigh argsort lstsq norm2 det nboot x lb ub XX f ((w', s'), p')) D n A.
Proof.
  intros eigh argsort lstsq norm2 det G U N nboot w s p x f ub lb XX st HE HA HT HN HD H1 Hb E w' s' p'.
  destruct (cell3_ev N w s p) as (x' & f' & ub' & lb' & XX' & E' & L & Sx & Sf & SX & V & Q). rewrite E in E'.
  apply (f_equal fst) in E'. cbn [fst] in E'. injection E' as <- <- <- <- <-.
  destruct (exact_cell lb ub x XX N L Sx (fun i Hi => proj1 (Q i Hi))) as (D & ED & HG).
  { intros i j Hi Hj. destruct (V i j Hi Hj) as (-> & ->). field. }
  destruct (gradient_cell eigh argsort lstsq norm2 det HE HA HT HN HD N 10 XX f SX Sf ltac:(lia) nboot Hb w' s' p' N D H1 H1 (proj1 HG)) as (n & A & e & V' & B & S & Q1 & Q2 & Q3 & Q4).
  exists D, n, A. split; [exact HG|]. exists e, V', B, S. do 3 (split; [assumption|]).
  unfold cell13. rewrite ED, (nb _ _ _ _ _ (eq_refl : mlift (Ok D) ((w', s'), p') = (Ok D, ((w', s'), p')))). apply outcome_ret. exact Q4.
Qed.
Print Assumptions C98_exact_gradients.

(** cell 15: the quadratic least-squares fit of one active variable, drawn over
    the samples; with two active variables an exception and an empty open figure *)
Theorem C98_response_surface : forall lstsq (G : gen) (U : Type) N m XX F A (w : world G U (nd R)) s p, lstsq_contract lstsq -> lstsq_total lstsq ->
  shape XX = [N; m] -> shape F = [N; 1%nat] -> s_W1 s = Some A ->
  ((3 <= N)%nat -> shape A = [m; 1%nat] ->
   exists RS f p', cell15 lstsq XX F ((w, s), p) = (Ok RS, ((w, s), p')) /\ fitted N (fun i => active m XX A i 0) F RS /\ displays p p' [f] [] /\
     lines_of f = [map (fun i => (active m XX A i 0, F.[i, 0%nat])) (seq 0 N);
                   map (fun k => let t := -2 + 4 * INR k / 199 in (t, surface RS t)) (seq 0 200)] /\
     texts_of f = [("xlabel", "Active Variable Value"); ("ylabel", "Output")]%string) /\
  ((6 <= N)%nat -> shape A = [m; 2%nat] ->
   exists p', cell15 lstsq XX F ((w, s), p) = (Err ValueError, ((w, s), p')) /\
     p_open p' = p_open p ++ [[]] /\ p_shown p' = p_shown p /\ p_files p' = p_files p).
Proof.
  intros lstsq G U N m XX F A w s p HL HLT SX SF EA. split; intros HN SA.
  - apply (cell15_ev lstsq HL HLT N m XX F A w s p); auto.
  - eexists. split; [apply (cell15_two lstsq HL HLT N m XX F A w s p); auto|]. auto.
Qed.
Print Assumptions C98_response_surface.

(** cells 17, 19 and 21 with one active variable *)
Theorem C98_integral_and_minimum : forall B convex_hull eig argsort delaunay fminbound (G : gen) (U : Type) m A RS NQ K lb ub (w : world G U (nd R)) s p,
  quadratic_surface RS -> s_W1 s = Some A -> shape A = [m; 1%nat] -> (1 <= NQ)%nat -> (2 <= K)%nat -> limits lb ub -> fmin_converges fminbound ->
  exists d mu X mean error w' y,
    cell17 convex_hull ((w, s), p) = (Ok d, ((w, s), p)) /\
    cell19 argsort B convex_hull eig delaunay (Z.of_nat NQ) K RS d lb ub ((w, s), p) = (Ok (mu, X, mean, error), ((w', s), p)) /\
    bin_mean m A RS NQ (fun k => -1 + 2 * unif_at (rng w) k) mu /\
    monte_carlo K (fun k => unif_at (rng w) (points * m + k)) X mean error /\
    cell21 B fminbound RS d ((w', s), p) = (Ok (y, surface RS y), ((w', s), p)) /\ - reach m A <= y <= reach m A.
Proof.
  intros B convex_hull eig argsort delaunay fminbound G U m A RS NQ K lb ub w s p HR EA SA HQ HK HL HF.
  destruct (cell17_ev convex_hull m A w s p EA SA) as (d & E17 & HI).
  destruct (cell19_ev B convex_hull eig argsort delaunay m A s d RS NQ K lb ub w p HR EA SA HI HQ HK HL) as (mu & X & mean & error & w' & E19 & HB & HM).
  destruct (HF (fun y => surface_at RS (ND [] (fun _ => y))) (- reach m A) (reach m A)) as (y & v & EF & Hy & Ev).
  { assert (0 <= reach m A) by (apply sumf_nonneg; intros; apply Rabs_pos). lra. }
  { intros y. exists (surface RS y). now apply surface_at_ok. }
  rewrite surface_at_ok in Ev by auto. injection Ev as <-.
  exists d, mu, X, mean, error, w', y. split; [exact E17|]. split; [exact E19|]. split; [exact HB|]. split; [exact HM|]. split; [|exact Hy].
  exact (proj1 (cell21_ev B fminbound m A s d RS w' p HR EA SA HI) y _ EF).
Qed.
Print Assumptions C98_integral_and_minimum.

(** ** The whole notebook *)

(** what a cell before 15 has found and drawn (if it could draw) *)
Definition found (rows N nb : nat) (spec : (nat -> nat) -> nd R -> nd R -> Prop) (XX F : nd R) (n : nat) (A : nd R) (p p' : pyplot) : Prop :=
  exists e V B S, spec (fun i => i) e V /\ active_part 10 n e V A /\ repeated rows 10 nb spec V B S /\ ((n <= 2)%nat -> all_drawn N 10 n XX F e B S A p p').

Lemma reported_found : forall {G : gen} {U T : Type} rows N nb spec XX F p (run : res T * ((world G U (nd R) * subspaces) * pyplot)) v n A,
  reported rows N 10 nb spec XX F p run v n A -> exists (w' : world G U (nd R)) s' p', s_W1 s' = Some A /\ shape A = [10%nat; n] /\ found rows N nb spec XX F n A p p' /\
    ((n <= 2)%nat -> run = (Ok v, ((w', s'), p'))) /\ ((2 < n)%nat -> run = (Err (Exc too_many), ((w', s'), p'))).
Proof.
  intros G U T rows N nb spec XX F p run v n A (e & V & B & S & H1 & H2 & H3 & w' & A2 & p' & K1 & K2). cbv zeta in *.
  exists w'. eexists. exists p'. split; [|split; [|split; [|split; [intros Hn; exact (proj1 (K1 Hn))|intros Hn; exact (proj1 (K2 Hn))]]]].
  - reflexivity.
  - apply H2.
  - exists e, V, B, S. repeat (split; [assumption|]). intros Hn. apply (K1 Hn).
Qed.

Theorem C98_notebook : forall eigh argsort lstsq norm2 det B convex_hull eig delaunay fminbound (G : gen) (U : Type) N nboot NQ K (w : world G U (nd R)) s p,
  eigh_contract eigh -> argsort_contract argsort -> eigh_total eigh -> lstsq_contract lstsq -> lstsq_total lstsq -> norm2_contract norm2 -> det_contract det ->
  fmin_converges fminbound -> (66 <= N)%nat -> (0 < nboot)%Z -> (1 <= NQ)%nat -> (2 <= K)%nat ->
  (* no two samples are the same *)
  (forall i i', (i < N)%nat -> (i' < N)%nat -> i <> i' -> exists j, (j < 10)%nat /\ unif_at (rng w) (j * N + i) <> unif_at (rng w) (j * N + i')) ->
  exists x f XX D11 D n2 n3 n4 A1 A2 A3 A4 p1 p2 p3 p4,
    (forall i, (i < N)%nat -> f.[i, 0%nat] = weight (fun j => x.[i, j]) /\ within wing_box (fun j => x.[i, j]) /\
       forall j, (j < 10)%nat -> x.[i, j] = lo j + (hi j - lo j) * unif_at (rng w) (j * N + i) /\ XX.[i, j] = 1 - 2 * unif_at (rng w) (j * N + i)) /\
    local_slopes N 10 17 XX f D11 /\ exact_gradients N XX D /\
    let nb := Z.to_nat nboot in
    found N N nb (fun ind => linear_axes N 10 (fun i j => XX.[ind i, j]) (fun i => f.[ind i, 0%nat])) XX f 1 A1 p p1 /\
    found N N nb (fun ind => quadratic_axes N 10 (fun i j => XX.[ind i, j]) (fun i => f.[ind i, 0%nat])) XX f n2 A2 p1 p2 /\
    found (nrows D11) N nb (fun ind => principal_axes (nrows D11) 10 (fun i j => D11.[ind i, j])) XX f n3 A3 p2 p3 /\
    found N N nb (fun ind => principal_axes N 10 (fun i j => D.[ind i, j])) XX f n4 A4 p3 p4 /\
    let run := basic_notebook eigh argsort lstsq norm2 det B convex_hull eig delaunay fminbound N nboot (Z.of_nat NQ) K ((w, s), p) in
    (* with at most two active variables, and one for cell 13, it runs to its end *)
    ((n2 <= 2)%nat -> (n3 <= 2)%nat -> n4 = 1%nat -> exists r st' p', run = (Ok r, (st', p')) /\
       b_x r = x /\ b_f r = f /\ b_XX r = XX /\ b_df11 r = D11 /\ b_df r = D /\
       (exists pic, displays p4 p' [pic] [] /\
          lines_of pic = [map (fun i => (active 10 XX A4 i 0, f.[i, 0%nat])) (seq 0 N);
                          map (fun k => let t := -2 + 4 * INR k / 199 in (t, surface (b_RS r) t)) (seq 0 200)]) /\
       fitted N (fun i => active 10 XX A4 i 0) f (b_RS r) /\
       (exists g : gst G, bin_mean 10 A4 (b_RS r) NQ (fun k => -1 + 2 * unif_at g k) (b_int r) /\
          monte_carlo K (fun k => unif_at g (points * 10 + k)) (b_X r) (b_mean r) (b_error r)) /\
       - reach 10 A4 <= b_ystar r <= reach 10 A4 /\ b_fstar r = surface (b_RS r) (b_ystar r)) /\
    (* otherwise it stops with an exception *)
    ((2 < n2)%nat \/ (2 < n3)%nat \/ (2 < n4)%nat -> exists st', run = (Err (Exc too_many), st')) /\
    ((n2 <= 2)%nat -> (n3 <= 2)%nat -> n4 = 2%nat -> exists st', run = (Err ValueError, st')).
Proof.
  intros eigh argsort lstsq norm2 det B convex_hull eig delaunay fminbound G U N nboot NQ K w s p HE HA HT HL HLT HN HD HF H66 Hb HQ HK HU.
  destruct (cell3_ev N w s p) as (x & f & ub & lb & XX & E3 & L & Sx & Sf & SX & V & Q).
  set (w1 := set_rng w (unif_state (N * 10) (rng w))) in *.
  assert (HX1 : forall i j, (i < N)%nat -> (j < 10)%nat -> XX.[i, j] <= 1).
  { intros i j Hi Hj. rewrite (proj2 (V i j Hi Hj)). pose proof (unif_at_range G (rng w) (j * N + i)). lra. }
  assert (HX : distinct_rows XX N).
  { intros i i' Hi Hi' D0 H0. destruct (HU i i' Hi Hi' D0) as (j & Hj & Hd). unfold sqdist in H0.
    rewrite (ncols_shape2 _ XX N 10 SX) in H0.
    assert (Z := sumf_sq_eq0 10 (fun j => XX.[i, j] - XX.[i', j]) H0 j Hj). cbv beta in Z.
    rewrite (proj2 (V i j Hi Hj)), (proj2 (V i' j Hi' Hj)) in Z. lra. }
  destruct (C98_linear_model eigh argsort lstsq norm2 det G U N 10 XX f nboot w1 s p HE HA HT HL HLT HN HD SX Sf ltac:(lia) ltac:(lia) Hb) as (A1 & R1 & _).
  destruct (reported_found _ _ _ _ _ _ _ _ _ _ _ R1) as (w2 & s2 & p1 & W1 & SA1 & F1 & K1 & _).
  destruct (C98_quadratic_model eigh argsort lstsq norm2 det G U N 10 XX f nboot w2 s2 p1 HE HA HT HL HLT HN HD SX Sf ltac:(lia) ltac:(lia) Hb HX1) as (n2 & A2 & R2).
  destruct (reported_found _ _ _ _ _ _ _ _ _ _ _ R2) as (w3 & s3 & p2 & W2 & SA2 & F2 & K2 & K2').
  destruct (C98_local_models eigh argsort lstsq norm2 det G U N 10 XX f nboot w3 s3 p2 HE HA HT HL HLT HN HD SX Sf ltac:(lia) ltac:(cbn; lia) Hb HX) as (D11 & n3 & A3 & HS & R3).
  destruct (reported_found _ _ _ _ _ _ _ _ _ _ _ R3) as (w4 & s4 & p3 & W3 & SA3 & F3 & K3 & K3').
  destruct (C98_exact_gradients eigh argsort lstsq norm2 det G U N nboot w s p x f ub lb XX _ HE HA HT HN HD ltac:(lia) Hb E3 w4 s4 p3) as (D & n4 & A4 & HG & R4).
  destruct (reported_found _ _ _ _ _ _ _ _ _ _ _ R4) as (w5 & s5 & p4 & W4 & SA4 & F4 & K4 & K4').
  exists x, f, XX, D11, D, n2, n3, n4, A1, A2, A3, A4, p1, p2, p3, p4. split.
  { intros i Hi. destruct (Q i Hi) as (Q1 & Q2). split; [exact Q2|]. split; [exact Q1|]. intros j Hj. apply V; auto. }
  split; [exact HS|]. split; [exact HG|]. cbv zeta. split; [exact F1|]. split; [exact F2|]. split; [exact F3|]. split; [exact F4|].
  assert (RUN : forall (k : nd R -> nd R -> nd R -> nd R -> nd R -> M ((world G U (nd R) * subspaces) * pyplot) basic_results),
    mbind (cell3 N) (fun '(x, f, ub, lb, XX) => k x f ub lb XX) ((w, s), p) = k x f ub lb XX ((w1, s), p)) by (intros k; rewrite (nb _ _ _ _ _ E3); reflexivity).
  unfold basic_notebook. rewrite RUN. rewrite (nb _ _ _ _ _ (K1 ltac:(lia))). split; [|split].
  - intros H2 H3 H4. rewrite (nb _ _ _ _ _ (K2 H2)), (nb _ _ _ _ _ (K3 H3)), (nb _ _ _ _ _ (K4 ltac:(lia))). subst n4.
    destruct (proj1 (C98_response_surface lstsq G U N 10 XX f A4 w5 s5 p4 HL HLT SX Sf W4) ltac:(lia) SA4) as (RS & pic & p' & E15 & HFit & HDis & HLin & _).
    rewrite (nb _ _ _ _ _ E15).
    destruct (C98_integral_and_minimum B convex_hull eig argsort delaunay fminbound G U 10 A4 RS NQ K lb ub w5 s5 p' (proj1 HFit) W4 SA4 HQ HK L HF)
      as (d & mu & X & mean & error & w' & y & E17 & E19 & HB & HM & E21 & Hy).
    rewrite (nb _ _ _ _ _ E17), (nb _ _ _ _ _ E19). cbv beta iota. rewrite (nb _ _ _ _ _ E21).
    eexists. exists (w', s5), p'. split; [reflexivity|]. cbn [b_x b_f b_XX b_df11 b_df b_RS b_int b_X b_mean b_error b_ystar b_fstar].
    do 5 (split; [reflexivity|]). split; [exists pic; auto|]. split; [exact HFit|]. split; [exists (rng w5); auto|]. auto.
  - intros C. assert (C2 : (n2 <= 2)%nat \/ (2 < n2)%nat) by lia. destruct C2 as [C2|C2].
    2:{ eexists. apply nberr. exact (K2' C2). }
    rewrite (nb _ _ _ _ _ (K2 C2)). assert (C3 : (n3 <= 2)%nat \/ (2 < n3)%nat) by lia. destruct C3 as [C3|C3].
    2:{ eexists. apply nberr. exact (K3' C3). }
    rewrite (nb _ _ _ _ _ (K3 C3)). eexists. apply nberr. apply K4'. lia.
  - intros H2 H3 H4. rewrite (nb _ _ _ _ _ (K2 H2)), (nb _ _ _ _ _ (K3 H3)), (nb _ _ _ _ _ (K4 ltac:(lia))). subst n4.
    destruct (proj2 (C98_response_surface lstsq G U N 10 XX f A4 w5 s5 p4 HL HLT SX Sf W4) ltac:(lia) SA4) as (p' & E15 & _).
    eexists. apply nberr. exact E15.
Qed.
Print Assumptions C98_notebook.

(** ** A case: the reference solvers, 100 samples from a generator that never
    repeats itself *)
Program Definition count_gen : gen := {|
  gst := nat; g_seed := fun k => k; g_normal := fun s => (0, S s); g_unif := fun s => (/ (INR s + 2), S s); g_randint := fun hi s => (Nat.modulo s hi, S s) |}.
Next Obligation.
  pose proof (pos_INR s). split; [left; apply Rinv_0_lt_compat; lra|]. assert (Q := Rinv_lt_contravar 1 (INR s + 2) ltac:(lra) ltac:(lra)). rewrite Rinv_1 in Q. exact Q.
Defined.
Next Obligation. apply Nat.mod_upper_bound. lia. Defined.
Lemma count_state : forall k s, unif_state (G := count_gen) k s = (s + k)%nat.
Proof. induction k as [|k IH]; intros s; [cbn; lia|]. transitivity (unif_state (G := count_gen) k (S s)); [reflexivity|]. rewrite IH. lia. Qed.
Lemma count_unif : forall k s, unif_at (G := count_gen) s k = / (INR (s + k) + 2).
Proof. intros k s. unfold unif_at. rewrite count_state. reflexivity. Qed.
(** an optimiser meeting the contract *)
Definition fminbound_ref (g : R -> res R) (a b : R) : res (R * R * bool) := do v <- g a; Ok (a, v, false).
Lemma fminbound_ref_converges : fmin_converges fminbound_ref.
Proof. intros g a b Hab Hg. destruct (Hg a) as (v & Ev). exists a, v. unfold fminbound_ref. rewrite Ev. split; [reflexivity|]. split; [lra|reflexivity]. Qed.

Lemma outcomes : forall {T S} (run : res T * S) (good : T -> Prop) n2 n3 n4, (1 <= n4)%nat ->
  ((n2 <= 2)%nat -> (n3 <= 2)%nat -> n4 = 1%nat -> exists r st, run = (Ok r, st) /\ good r) ->
  ((2 < n2)%nat \/ (2 < n3)%nat \/ (2 < n4)%nat -> exists st, run = (Err (Exc too_many), st)) ->
  ((n2 <= 2)%nat -> (n3 <= 2)%nat -> n4 = 2%nat -> exists st, run = (Err ValueError, st)) ->
  match fst run with
  | Ok r => (n2 <= 2)%nat /\ (n3 <= 2)%nat /\ n4 = 1%nat /\ good r
  | Err er => er = if (Nat.leb n2 2 && Nat.leb n3 2 && Nat.eqb n4 2)%bool then ValueError else Exc too_many
  end.
Proof.
  intros T S run good n2 n3 n4 H0 K1 K2 K3.
  destruct (Nat.leb_spec n2 2) as [C2|C2]; cbn [andb].
  2:{ destruct (K2 ltac:(lia)) as (st & ->). reflexivity. }
  destruct (Nat.leb_spec n3 2) as [C3|C3]; cbn [andb].
  2:{ destruct (K2 ltac:(lia)) as (st & ->). reflexivity. }
  destruct (Nat.eqb_spec n4 2) as [C5|C5].
  { destruct (K3 C2 C3 C5) as (st & ->). reflexivity. }
  destruct (Nat.eq_dec n4 1) as [C4|C4].
  { destruct (K1 C2 C3 C4) as (r & st & -> & Hf). cbn [fst]. auto. }
  destruct (K2 ltac:(lia)) as (st & ->). reflexivity.
Qed.

Lemma count_distinct : forall N i i', i <> i' -> exists j, (j < 10)%nat /\ unif_at (G := count_gen) 0%nat (j * N + i) <> unif_at (G := count_gen) 0%nat (j * N + i').
Proof.
  intros N i i' Hd. exists 0%nat. split; [lia|]. rewrite !count_unif, !Nat.add_0_l. intros Q. apply (f_equal Rinv) in Q. rewrite !Rinv_inv in Q.
  apply Hd, INR_eq. lra.
Qed.

(** the first sample has 175 for its first input; whatever dimensions the
    eigenvalues call for, the outcome is as described *)
Example C98_case : exists x f XX D11 D n2 n3 n4,
  local_slopes 70 10 17 XX f D11 /\ exact_gradients 70 XX D /\ x.[0%nat, 0%nat] = 175 /\ XX.[0%nat, 0%nat] = 0 /\ (1 <= n2 <= 9)%nat /\ (1 <= n3 <= 9)%nat /\ (1 <= n4 <= 9)%nat /\
  match fst (basic_notebook eigh_ref argsort_ref lstsq_ref norm2_ref det_ref backend_ref (fun _ => Err ValueError) (fun _ => Err ValueError) (fun _ => Err ValueError) fminbound_ref 70 50 (Z.of_nat 20) 40
    ((World (G := count_gen) (U := unit) 0%nat tt [] 0%nat, subs_new), PP [] [] [] false)) with
  | Ok r => (n2 <= 2)%nat /\ (n3 <= 2)%nat /\ n4 = 1%nat /\ b_f r = f
  | Err er => er = if (Nat.leb n2 2 && Nat.leb n3 2 && Nat.eqb n4 2)%bool then ValueError else Exc too_many
  end.
Proof.
  destruct (C98_notebook eigh_ref argsort_ref lstsq_ref norm2_ref det_ref backend_ref (fun _ => Err ValueError) (fun _ => Err ValueError) (fun _ => Err ValueError) fminbound_ref count_gen unit 70 50 20 40
    (World (G := count_gen) 0%nat tt [] 0%nat) subs_new (PP [] [] [] false)
    eigh_ref_contract argsort_ref_contract eigh_ref_total lstsq_ref_contract lstsq_ref_total norm2_ref_contract det_ref_contract fminbound_ref_converges
    ltac:(lia) ltac:(lia) ltac:(lia) ltac:(lia) (fun i i' _ _ Hd => count_distinct 70 i i' Hd))
    as (x & f & XX & D11 & D & n2 & n3 & n4 & A1 & A2 & A3 & A4 & p1 & p2 & p3 & p4 & HX & HS & HG & F1 & F2 & F3 & F4 & K1 & K2 & K3).
  assert (N2 : forall rows spec n A p p', found rows 70 (Z.to_nat 50) spec XX f n A p p' -> (1 <= n <= 9)%nat).
  { intros rows spec n A p p' (e & V & B & S & _ & (_ & _ & _ & _ & _ & _ & _ & FB) & _). apply FB. }
  assert (B2 := N2 _ _ _ _ _ _ F2). assert (B3 := N2 _ _ _ _ _ _ F3). assert (B4 := N2 _ _ _ _ _ _ F4).
  assert (G0 : x.[0%nat, 0%nat] = 175 /\ XX.[0%nat, 0%nat] = 0).
  { destruct (proj2 (proj2 (HX 0%nat ltac:(lia))) 0%nat ltac:(lia)) as (V1 & V2). rewrite V1, V2. cbn [rng]. rewrite count_unif.
    change (INR (0 + (0 * 70 + 0))) with 0. unfold lo, hi, wing_box. cbn [nth fst snd]. split; field. }
  exists x, f, XX, D11, D, n2, n3, n4. destruct G0 as (G1 & G2). do 7 (split; [assumption|]).
  refine (outcomes _ (fun r => b_f r = f) n2 n3 n4 (proj1 B4) _ K2 K3).
  intros C2 C3 C4. destruct (K1 C2 C3 C4) as (r & st & p' & ER & _ & Hf & _). exists r. eexists. split; [exact ER|exact Hf].
Qed.
