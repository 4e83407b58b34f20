(** Lemmas for C108: the unit tests of the surfaces and integrals over the active variables. *)
From Coq Require Import String Reals Lra Lia List Arith ZArith Bool.
From Verif Require Import Prelude Py NumArr LinAlg Lsq Sorting Spectral M_Misc P_Misc M_SimRunners M_Gradients M_QP M_RespSurf M_Subspaces M_Quadrature M_Domains M_Designs M_ASRS M_Integrals P_Subspaces P_Partition P_SubsState P_SubsLive
  P_Domains P_IndexSet P_Poly P_PolyTrain P_PolyFacts GaussPD P_Rbf SolveRef Cholesky Properties_RespSurf Properties_RbfObj Properties_Domains Properties_ASRS M_Tests P_Tests P_Notebooks M_TestsSpace P_TestsDomain M_TestsAS P_TestsSurf.
Import ListNotations.
Open Scope R_scope.

(** ** sub.compute(df=df0), then perhaps sub.partition(n) *)
Section Compute.
  Context {G : gen} {U : Type}.
  Notation W := (world G U (nd R)).
  Variable eigh : nd R -> res (nd R * nd R).
  Variable argsort : list R -> list nat.
  Variable lstsq : nd R -> nd R -> res (nd R).
  Variable norm2 : nd R -> R.
  Variable det : nd R -> R.
  Hypothesis HE : eigh_contract eigh.
  Hypothesis HT : eigh_total eigh.
  Hypothesis HA : argsort_contract argsort.

  (** as gradient_frame, with the eigenvalues kept by the object *)
  Lemma compute_frame : forall M m d (w : W) s, (1 <= M)%nat -> (2 <= m)%nat -> shape d = [M; m] ->
    exists sub n e Wm W1 W2 lam, ss_compute eigh argsort lstsq norm2 det None None (Some d) None "AS" "EVG" 0 (w, s) = (Ok tt, (w, sub)) /\
      frame sub m n Wm W1 W2 /\ s_eigenvals sub = Some e /\ (1 <= n < m)%nat /\ eigsorted m (gradC M (ent d) (fun _ => / INR M)) e Wm lam.
  Proof using HE HT HA.
    intros M m d w s HM Hm Hd. set (wt := mk2 M 1 (fun _ _ => / INR M)). assert (Swt : shape wt = [M; 1%nat]) by reflexivity.
    destruct (active_subspace_returns eigh argsort HE M m d wt HT ltac:(lia) Hd Swt) as ((e & V) & EA).
    destruct (active_subspace_spec eigh argsort HE HA M m d wt e V Hd Swt EA) as (lam & L).
    assert (Se := es_e _ _ _ _ _ L). assert (SV := es_V _ _ _ _ _ L).
    destruct (eig_partition_eq m e Se Hm) as (k & ed & EP & _ & _ & K1). assert (Hk : (k < m - 1)%nat) by apply K1.
    assert (EC : exists ws', ss_compute eigh argsort lstsq norm2 det None None (Some d) None "AS" "EVG" 0 (w, s) = ss_partition (IsA (Z.of_nat k + 1)%Z) ws' /\ fst ws' = w /\ s_eigenvecs (snd ws') = Some V /\ s_eigenvals (snd ws') = Some e).
    { eexists. split.
      - unfold ss_compute. rewrite (process_inputs_eq _ d M m Hd). cbn [rbind]. unfold mlift at 1, mbind at 1. fold wt.
        unfold liftW at 1, ssmethod at 1. cbn [String.eqb Ascii.eqb Bool.eqb fst snd]. unfold mlift at 1. rewrite EA. unfold mbind at 1.
        unfold mbind at 1, getS at 1. cbn [snd fst]. unfold mbind at 1, setS at 1. cbn [snd fst]. cbn [Z.ltb Z.compare String.eqb Ascii.eqb Bool.eqb orb]. unfold mbind at 1. cbn [mret].
        unfold mbind at 1, getS at 1. cbn [snd fst]. unfold mbind at 1, setS at 1. cbn [snd fst s_eigenvals s_eigenvecs s_W1 s_W2].
        unfold mlift at 1, choose_dim. cbn [String.eqb Ascii.eqb Bool.eqb]. rewrite EP. cbn [rbind]. unfold mbind at 1. reflexivity.
      - repeat split; reflexivity. }
    destruct EC as (ws1 & EC & Ef & EV & EE).
    destruct (proj2 (ss_partition_iff (IsA (Z.of_nat k + 1)%Z) ws1)) as (ws' & EQ). { exists (Z.of_nat k + 1)%Z, V. split; [reflexivity|]. split; [exact EV|]. rewrite (nrows_shape2 _ V m m SV). lia. }
    destruct (ss_partition_ok _ _ _ _ EQ) as (n' & V' & A & B & Q1 & Q2 & Q3 & Q4 & Q5 & Q6). injection Q1 as <-. rewrite EV in Q2. injection Q2 as <-.
    destruct (Q6 m SV) as (_ & _ & SA & SB & CA & CB). replace (Z.to_nat (Z.of_nat k + 1)) with (k + 1)%nat in * by lia.
    exists (snd ws'), (k + 1)%nat, e, V, A, B, lam. rewrite EC, EQ, <- Ef, <- Q3. split; [now destruct ws'|]. split.
    { rewrite Q4. constructor; auto; try lia. exact (es_orth _ _ _ _ _ L). }
    split; [rewrite Q4; exact EE|]. split; [lia|exact L].
  Qed.

  (** what partition(n) then leaves *)
  Lemma subspace_of_ok : forall M m d part (w : W), (1 <= M)%nat -> (2 <= m)%nat -> shape d = [M; m] ->
    match part with None => True | Some p => (1 <= p < Z.of_nat m)%Z end ->
    exists sub n e Wm W1 W2 lam, subspace_of eigh argsort lstsq norm2 det d part w = (Ok sub, w) /\
      frame sub m n Wm W1 W2 /\ s_eigenvals sub = Some e /\ (1 <= n < m)%nat /\ eigsorted m (gradC M (ent d) (fun _ => / INR M)) e Wm lam /\
      match part with None => True | Some p => Z.of_nat n = p end.
  Proof using HE HT HA.
    intros M m d part w HM Hm Hd Hp. destruct (compute_frame M m d w subs_new HM Hm Hd) as (sub & n & e & Wm & W1 & W2 & lam & EC & F & EE & Hn & L).
    destruct part as [p|].
    - assert (EV := fr_W _ _ _ _ _ _ F). assert (SV := fr_sW _ _ _ _ _ _ F).
      destruct (proj2 (ss_partition_iff (IsA p) (w, sub))) as (ws' & EQ). { exists p, Wm. split; [reflexivity|]. split; [exact EV|]. rewrite (nrows_shape2 _ Wm m m SV). lia. }
      destruct (ss_partition_ok _ _ _ _ EQ) as (n' & V' & A & B & Q1 & Q2 & Q3 & Q4 & Q5 & Q6). injection Q1 as <-. cbn [snd fst] in *. rewrite EV in Q2. injection Q2 as <-.
      destruct (Q6 m SV) as (_ & _ & SA & SB & CA & CB).
      exists (snd ws'), (Z.to_nat p), e, Wm, A, B, lam. split; [|split; [|split; [|split; [lia|split; [exact L|lia]]]]].
      + unfold subspace_of, on_new. rewrite (nb _ _ (w, subs_new) _ _ EC), EQ. destruct ws' as [w' s']. cbn [fst snd] in *. now subst w'.
      + rewrite Q4. constructor; auto; try lia. exact (es_orth _ _ _ _ _ L).
      + rewrite Q4. exact EE.
    - exists sub, n, e, Wm, W1, W2, lam. split; [|auto 10]. unfold subspace_of, on_new. rewrite (nb _ _ (w, subs_new) _ _ EC). reflexivity.
  Qed.
End Compute.

(** ** positive eigenvalues *)
(** the gradients span R^m: no direction is orthogonal to all of them *)
Definition spanning (M m : nat) (D : nat -> nat -> R) : Prop :=
  forall v : nat -> R, (forall i, (i < M)%nat -> sumf m (fun j => D i j * v j) = 0) -> forall j, (j < m)%nat -> v j = 0.

Lemma spanning_pos : forall M m D e V lam, (1 <= M)%nat -> spanning M m D -> eigsorted m (gradC M D (fun _ => / INR M)) e V lam -> forall j, (j < m)%nat -> 0 < e.[j, 0%nat].
Proof.
  intros M m D e V lam HM HS L j Hj. rewrite (es_abs _ _ _ _ _ L j Hj).
  assert (PM : 0 < / INR M) by (apply Rinv_0_lt_compat, lt_0_INR; lia).
  assert (Q : lam j = sumf M (fun s => / INR M * (dot m (D s) (fun i => V.[i, j]) * dot m (D s) (fun i => V.[i, j])))).
  { rewrite <- gradC_quad. assert (O := es_orth _ _ _ _ _ L j j Hj Hj). unfold kron_delta in O. rewrite Nat.eqb_refl in O.
    unfold quad. replace (lam j) with (lam j * sumf m (fun i => V.[i, j] * V.[i, j])) by (unfold ent in O; rewrite O; ring).
    rewrite <- sumf_scal_l. apply sumf_ext. intros i Hi. assert (K := es_eig _ _ _ _ _ L i j Hi Hj). unfold ent in K.
    transitivity (V.[i, j] * (lam j * V.[i, j])); [ring|]. rewrite <- K, <- sumf_scal_l. apply sumf_ext. intros; ring. }
  destruct (Req_dec (lam j) 0) as [Z|NZ]; [|now apply Rabs_pos_lt]. exfalso.
  assert (O := es_orth _ _ _ _ _ L j j Hj Hj). unfold kron_delta in O. rewrite Nat.eqb_refl in O. unfold ent in O.
  enough (sumf m (fun i => V.[i, j] * V.[i, j]) = 0) by lra. apply sumf_zero. intros i Hi. rewrite (HS (fun i => V.[i, j])) with (j := i); [ring| |exact Hi].
  intros s Hs. rewrite Q in Z. assert (T := sumf_term_le M (fun s => / INR M * (dot m (D s) (fun i => V.[i, j]) * dot m (D s) (fun i => V.[i, j]))) s).
  assert (0 <= / INR M * (dot m (D s) (fun i => V.[i, j]) * dot m (D s) (fun i => V.[i, j])) <= 0) as [A B].
  { split; [apply Rmult_le_pos; [lra|nra]|]. rewrite <- Z. apply T; auto. intros; apply Rmult_le_pos; [lra|nra]. }
  assert (dot m (D s) (fun i => V.[i, j]) * dot m (D s) (fun i => V.[i, j]) = 0) by (apply (Rmult_eq_reg_l (/ INR M)); lra).
  apply Rsqr_0_uniq. exact H.
Qed.

(** ** no quadric *)
(** a quadratic polynomial that vanishes at the K points vanishes everywhere *)
Definition no_quadric (K m : nat) (x : nat -> nat -> R) : Prop :=
  forall (c : R) (g : nat -> R) (H : nat -> nat -> R),
    let q (y : nat -> R) := c + sumf m (fun j => g j * y j) + sumf m (fun j => sumf m (fun k => H j k * (y j * y k))) in
    (forall i, (i < K)%nat -> q (x i) = 0) -> forall y, q y = 0.

(** then the images of the points in the active variables are poised for quadratics *)
Lemma images_poised : forall K n x (W1 Y : nd R), (n = 1 \/ n = 2)%nat -> shape Y = [K; n] ->
  (forall r j, (r < K)%nat -> (j < n)%nat -> Y.[r, j] = sumf 3 (fun i => x r i * W1.[i, j])) ->
  (forall a b, (a < n)%nat -> (b < n)%nat -> sumf 3 (fun i => W1.[i, a] * W1.[i, b]) = if Nat.eqb a b then 1 else 0) ->
  no_quadric K 3 x -> poised Y 2 K.
Proof.
  intros K n x W1 Y Hn SY VY OR NQ. destruct Hn as [->| ->].
  - apply (poised_of Y 2 K 1 [[0]; [1]; [2]]%nat SY ltac:(lia) eq_refl). intros c H. cbn [List.length] in *.
    assert (O := OR 0%nat 0%nat ltac:(lia) ltac:(lia)). cbn [Nat.eqb sumf] in O.
    assert (Q := NQ (c 0%nat) (fun j => c 1%nat * W1.[j, 0%nat]) (fun j k => c 2%nat * (W1.[j, 0%nat] * W1.[k, 0%nat]))). cbv zeta in Q.
    assert (Q0 : forall t, c 0%nat + c 1%nat * t + c 2%nat * (t * t) = 0).
    { intros t. specialize (Q ltac:(intros i Hi; etransitivity; [|exact (H i Hi)]; cbn [sumf nth]; rewrite !mono1, VY by lia; cbn [sumf pow]; ring) (fun j => t * W1.[j, 0%nat])).
      cbn [sumf] in Q. set (a := W1.[0%nat, 0%nat]) in *. set (b := W1.[1%nat, 0%nat]) in *. set (d := W1.[2%nat, 0%nat]) in *.
      transitivity (c 0%nat + c 1%nat * t * (0 + a * a + b * b + d * d) + c 2%nat * (t * t) * ((0 + a * a + b * b + d * d) * (0 + a * a + b * b + d * d))); [rewrite O; ring|]. etransitivity; [|exact Q]. ring. }
    assert (A0 := Q0 0). assert (A1 := Q0 1). assert (A2 := Q0 (-1)). intros [|[|[|i]]] Hi; try lia; lra.
  - apply (poised_of Y 2 K 2 [[0; 0]; [1; 0]; [0; 1]; [2; 0]; [1; 1]; [0; 2]]%nat SY ltac:(lia) eq_refl). intros c H. cbn [List.length] in *.
    assert (O1 := OR 0%nat 0%nat ltac:(lia) ltac:(lia)). assert (O2 := OR 1%nat 1%nat ltac:(lia) ltac:(lia)). assert (O3 := OR 0%nat 1%nat ltac:(lia) ltac:(lia)). cbn [Nat.eqb sumf] in O1, O2, O3.
    assert (Q := NQ (c 0%nat) (fun j => c 1%nat * W1.[j, 0%nat] + c 2%nat * W1.[j, 1%nat])
      (fun j k => c 3%nat * (W1.[j, 0%nat] * W1.[k, 0%nat]) + c 4%nat * (W1.[j, 0%nat] * W1.[k, 1%nat]) + c 5%nat * (W1.[j, 1%nat] * W1.[k, 1%nat]))). cbv zeta in Q.
    assert (Q0 : forall s t, c 0%nat + c 1%nat * s + c 2%nat * t + c 3%nat * (s * s) + c 4%nat * (s * t) + c 5%nat * (t * t) = 0).
    { intros s t. specialize (Q ltac:(intros i Hi; etransitivity; [|exact (H i Hi)]; cbn [sumf nth]; rewrite !mono2, !VY by lia; cbn [sumf pow]; ring) (fun j => s * W1.[j, 0%nat] + t * W1.[j, 1%nat])).
      cbn [sumf] in Q. set (a := W1.[0%nat, 0%nat]) in *. set (b := W1.[1%nat, 0%nat]) in *. set (d := W1.[2%nat, 0%nat]) in *.
      set (a' := W1.[0%nat, 1%nat]) in *. set (b' := W1.[1%nat, 1%nat]) in *. set (d' := W1.[2%nat, 1%nat]) in *.
      assert (P1 : a * (s * a + t * a') + b * (s * b + t * b') + d * (s * d + t * d') = s).
      { transitivity (s * (0 + a * a + b * b + d * d) + t * (0 + a * a' + b * b' + d * d')); [ring|]. rewrite O1, O3. ring. }
      assert (P2 : a' * (s * a + t * a') + b' * (s * b + t * b') + d' * (s * d + t * d') = t).
      { transitivity (s * (0 + a * a' + b * b' + d * d') + t * (0 + a' * a' + b' * b' + d' * d')); [ring|]. rewrite O2, O3. ring. }
      etransitivity; [|exact Q]. transitivity (c 0%nat + c 1%nat * (a * (s * a + t * a') + b * (s * b + t * b') + d * (s * d + t * d')) + c 2%nat * (a' * (s * a + t * a') + b' * (s * b + t * b') + d' * (s * d + t * d')) + c 3%nat * ((a * (s * a + t * a') + b * (s * b + t * b') + d * (s * d + t * d')) * (a * (s * a + t * a') + b * (s * b + t * b') + d * (s * d + t * d'))) + c 4%nat * ((a * (s * a + t * a') + b * (s * b + t * b') + d * (s * d + t * d')) * (a' * (s * a + t * a') + b' * (s * b + t * b') + d' * (s * d + t * d'))) + c 5%nat * ((a' * (s * a + t * a') + b' * (s * b + t * b') + d' * (s * d + t * d')) * (a' * (s * a + t * a') + b' * (s * b + t * b') + d' * (s * d + t * d')))); [now rewrite P1, P2|ring]. }
    assert (A0 := Q0 0 0). assert (A1 := Q0 1 0). assert (A2 := Q0 (-1) 0). assert (A3 := Q0 0 1). assert (A4 := Q0 0 (-1)). assert (A5 := Q0 1 1).
    intros [|[|[|[|[|[|i]]]]]] Hi; try lia; lra.
Qed.

(** ** the data *)
(** the numbers drawn: X0, and the gradients after X0 and f0; the first stream is uniform if the
    test is about a bounded domain *)
Definition input_at (G : gen) (bnd : bool) (i j : nat) : R :=
  if bnd then -1 + (1 - -1) * unif_at (g_seed G 42) (i * 3 + j) else normal_at (g_seed G 42) (i * 3 + j).
Definition after_inputs (G : gen) (bnd : bool) (K : nat) : gst G := if bnd then unif_state (K * 3) (g_seed G 42) else normal_state (K * 3) (g_seed G 42).
Definition gradient_at (G : gen) (bnd : bool) (K i j : nat) : R := normal_at (normal_state (K * 1) (after_inputs G bnd K)) (i * 3 + j).

Lemma draw_data_ok : forall (G : gen) (U : Type) bnd K (w : world G U (nd R)), exists X0 f0 df0 w1, draw_data bnd K w = (Ok (X0, f0, df0), w1) /\
  shape X0 = [K; 3%nat] /\ shape f0 = [K; 1%nat] /\ shape df0 = [K; 3%nat] /\
  (forall i j, (i < K)%nat -> (j < 3)%nat -> X0.[i, j] = input_at G bnd i j) /\ (forall i j, (i < K)%nat -> (j < 3)%nat -> df0.[i, j] = gradient_at G bnd K i j).
Proof.
  intros G U bnd K w. set (w0 := set_rng w (g_seed G 42)).
  assert (P : exists X0, points bnd K w0 = (Ok X0, set_rng w0 (after_inputs G bnd K)) /\ shape X0 = [K; 3%nat] /\ forall i j, (i < K)%nat -> (j < 3)%nat -> X0.[i, j] = input_at G bnd i j).
  { unfold points, after_inputs, input_at. destruct bnd; [apply (uniform2_ev G (U := U) (L := nd R) (-1) 1 K 3 w0)|apply (normal2_ev G (U := U) (L := nd R) K 3 w0)]. }
  destruct P as (X0 & EX & SX & VX). set (w1 := set_rng w0 _) in *.
  destruct (normal2_ev G (U := U) (L := nd R) K 1 w1) as (f0 & EF & SF & _). set (w2 := set_rng w1 _) in *.
  destruct (normal2_ev G (U := U) (L := nd R) K 3 w2) as (df0 & ED & SD & VD).
  exists X0, f0, df0. eexists. split; [unfold draw_data; rewrite seeded; fold w0; rewrite (nb _ _ w0 _ _ EX), (nb _ _ w1 _ _ EF), (nb _ _ w2 _ _ ED); reflexivity|]. auto.
Qed.

(** ** the map *)
Lemma map_of_ok : forall (G : gen) (U : Type) ch bnd sub n Wm W1 W2 (w : world G U (nd R)), frame sub 3 n Wm W1 W2 ->
  (exists avm w', map_of ch bnd sub w = (Ok avm, w') /\ d_subs (av_domain avm) = sub) \/
  (bnd = true /\ n <> 1%nat /\ exists Y e w', ch Y = Err e /\ map_of ch bnd sub w = (Err e, w')).
Proof.
  intros G U ch bnd sub n Wm W1 W2 w F. unfold map_of. destruct bnd.
  - destruct (bounded_cases ch sub 3 n Wm W1 W2 w F ltac:(lia)) as [B1 B2]. destruct (Nat.eq_dec n 1) as [E|NE].
    + destruct (B1 E) as (d & ED & SD). left. eexists _, _. split; [rewrite (nb _ _ w _ _ ED); reflexivity|exact SD].
    + destruct (B2 NE) as (Y & X & k & w' & _ & _ & _ & _ & C). destruct (ch Y) as [eqs|e] eqn:EH.
      * destruct C as (d & ED & SD). left. eexists _, _. split; [rewrite (nb _ _ w _ _ ED); reflexivity|exact SD].
      * right. split; [reflexivity|]. split; [exact NE|]. exists Y, e, w'. split; [exact EH|]. unfold mbind. now rewrite C.
  - left. eexists _, _. rewrite bind_lift, (unbounded_ok sub 3 n Wm W1 W2 F). split; reflexivity.
Qed.

(** ** training on data *)
Section Train.
  Variables (solve : nd R -> nd R -> res (nd R)) (cholesky : nd R -> res (nd R)) (fminbound : (R -> res R) -> res R) (lstsq : nd R -> nd R -> res (nd R)).
  Hypothesis HL : lstsq_contract lstsq.
  Hypothesis HLT : lstsq_total lstsq.
  Hypothesis HS : solve_contract solve.
  Hypothesis HS' : solve_sound solve.
  Hypothesis HC : cholesky_contract cholesky.
  Hypothesis HF : fminbound_ok fminbound.

  Lemma eigs_fine : forall sub n (e : nd R), s_eigenvals sub = Some e -> (1 <= n < 3)%nat -> shape e = [3%nat; 1%nat] -> (forall j, (j < 3)%nat -> 0 < e.[j, 0%nat]) -> eigs_ok n (s_eigenvals sub) /\ exists k, (n <= k < nrows e)%nat /\ 0 < e.[k, 0%nat].
  Proof using.
    intros sub n e -> Hn Se Pe. rewrite (nrows_shape2 _ e _ _ Se). cbn [eigs_ok]. rewrite (nrows_shape2 _ e _ _ Se). split; [|exists n; split; [lia|apply Pe; lia]].
    split; [intros; apply Pe; lia|]. split; [intros k Hk; left; now apply Pe|lia].
  Qed.

  Lemma data_trains : forall avm surf sub n e Wm W1 W2 X0 f0 K x, d_subs (av_domain avm) = sub -> frame sub 3 n Wm W1 W2 -> s_eigenvals sub = Some e -> (1 <= n < 3)%nat -> shape e = [3%nat; 1%nat] ->
    shape X0 = [K; 3%nat] -> shape f0 = [K; 1%nat] -> (6 <= K)%nat -> (forall i j, (i < K)%nat -> (j < 3)%nat -> X0.[i, j] = x i j) ->
    (surf = RSPoly 2 None \/ (surf = RSRbf 2 None /\ (forall j, (j < 3)%nat -> 0 < e.[j, 0%nat]) /\ no_quadric K 3 x)) ->
    exists s', train_with_data solve cholesky fminbound lstsq (ASRS surf avm) X0 f0 None = Ok s' /\ as_map s' = avm /\ true_gradient (asrs_predict s') 3 /\ true_gradient (predict_av s') n.
  Proof using HL HLT HS HS' HC HF.
    intros avm surf sub n e Wm W1 W2 X0 f0 K x Ed F Ee Hn Se HX Hf HK VX HU.
    assert (BN : (binom (2 + n) n <= K)%nat). { destruct n as [|[|[|n]]]; try lia; cbn; lia. }
    set (Y := mk2 K n (fun r j => sumf 3 (fun i => X0.[r, i] * W1.[i, j]))).
    assert (TR : train_with_data solve cholesky fminbound lstsq (ASRS surf avm) X0 f0 None = asrs_train solve cholesky fminbound lstsq (ASRS surf avm) Y f0 None).
    { unfold train_with_data, av_forward. rewrite (process_inputs_ok _ X0 K 3 HX). cbn [rbind as_map]. rewrite Ed, (fr_1 _ _ _ _ _ _ F), (fr_2 _ _ _ _ _ _ F). cbn [need rbind].
      rewrite (npdot2 X0 W1 K 3 n HX (fr_s1 _ _ _ _ _ _ F)), (npdot2 X0 W2 K 3 (3 - n) HX (fr_s2 _ _ _ _ _ _ F)). reflexivity. }
    assert (OK : exists r, rs_train solve cholesky fminbound lstsq surf Y f0 None (s_eigenvals sub) = Ok r /\ true_gradient (rs_predict r) n).
    { destruct HU as [->|(-> & Pe & NQ)]; unfold rs_train.
      - destruct (ptrain_returns lstsq HL HLT 2 Y f0 K n eq_refl Hf ltac:(lia) ltac:(lia) BN) as (q & Eq). unfold M_TestsSurf.ptrain in Eq. rewrite Eq. cbn [rbind]. eexists. split; [reflexivity|].
        destruct (poly_train_inv lstsq HL 2 Y f0 None K n eq_refl Hf ltac:(lia) ltac:(lia) Logic.I) as (L & EL & _ & Htr & _). exact (proj1 (poly_surface 2 q n ltac:(lia) (trained_shape 2 Y f0 None K n L q ltac:(lia) EL (Htr q Eq)))).
      - destruct (eigs_fine sub n e Ee Hn Se Pe) as [EO NO].
        destruct (C78_training_returns_partial solve cholesky fminbound 2 Y f0 None (s_eigenvals sub) K n HS HC HF eq_refl Hf ltac:(lia) BN) as (q & Eq); [|exact Logic.I|exact EO|left; rewrite Ee; exact NO|].
        + apply (images_poised K n x W1 Y ltac:(lia) eq_refl); [| |exact NQ].
          * intros r j Hr Hj. unfold Y. rewrite at_mk2. apply sumf_ext. intros i Hi. now rewrite VX.
          * intros a b Ha Hb. rewrite <- (fr_o _ _ _ _ _ _ F a b) by lia. apply sumf_ext. intros i Hi. now rewrite !(fr_e1 _ _ _ _ _ _ F) by auto.
        + rewrite Eq. cbn [rbind]. eexists. split; [reflexivity|].
          destruct (rbf_train_inv solve cholesky fminbound 2 Y f0 None _ K n q HS' eq_refl Hf ltac:(lia) Eq) as (L & l & nu & _ & _ & _ & _ & _ & T). exact (proj1 (rbf_surface 2 q n K ltac:(lia) (r_shape _ _ _ _ _ _ _ _ T))). }
    destruct OK as (r & Er & TG). exists (ASRS r avm). rewrite TR. unfold asrs_train. cbn [as_rs as_map]. rewrite Ed, Er. split; [reflexivity|]. split; [reflexivity|]. split; [|exact TG].
    apply (C41_gradient (ASRS r avm) 3 n Wm W1 W2); [cbn [as_map]; now rewrite Ed|exact TG].
  Qed.
End Train.

(** ** the tests that train on data *)
Section DataTests.
  Context {G : gen} {U : Type}.
  Notation W := (world G U (nd R)).
  Variables (eigh : nd R -> res (nd R * nd R)) (argsort : list R -> list nat) (lstsq : nd R -> nd R -> res (nd R)) (norm2 det : nd R -> R) (ch : nd R -> res (nd R))
    (solve : nd R -> nd R -> res (nd R)) (cholesky : nd R -> res (nd R)) (fminbound : (R -> res R) -> res R).
  Hypothesis HE : eigh_contract eigh.
  Hypothesis HT : eigh_total eigh.
  Hypothesis HA : argsort_contract argsort.
  Hypothesis HL : lstsq_contract lstsq.
  Hypothesis HLT : lstsq_total lstsq.
  Hypothesis HS : solve_contract solve.
  Hypothesis HS' : solve_sound solve.
  Hypothesis HC : cholesky_contract cholesky.
  Hypothesis HF : fminbound_ok fminbound.

  Lemma data_test_ok : forall bnd K part surf (XX : Py.M W (nd R)) (w : W), (6 <= K)%nat -> match part with None => True | Some p => (1 <= p < 3)%Z end ->
    (surf = Some pr \/ surf = None /\ spanning K 3 (gradient_at G bnd K) /\ no_quadric K 3 (input_at G bnd)) ->
    (forall w, exists X w', XX w = (Ok X, w') /\ shape X = [10%nat; 3%nat]) ->
    exists r w', data_test eigh argsort lstsq norm2 det ch solve cholesky fminbound bnd K part surf XX w = (r, w') /\
      (r = Ok tt \/ (bnd = true /\ part <> Some 1%Z /\ exists Y e, ch Y = Err e /\ r = Err e)).
  Proof using HE HT HA HL HLT HS HS' HC HF.
    intros bnd K part surf XX w HK Hp Hs HX. destruct (draw_data_ok G U bnd K w) as (X0 & f0 & df0 & w1 & ED & SX & Sf & Sd & VX & VD).
    destruct (subspace_of_ok (U := U) eigh argsort lstsq norm2 det HE HT HA K 3 df0 part w1 ltac:(lia) ltac:(lia) Sd Hp) as (sub & n & e & Wm & W1 & W2 & lam & ES & F & Ee & Hn & L & Hpart).
    unfold data_test. rewrite (nb _ _ w _ _ ED). cbv beta iota. rewrite (nb _ _ w1 _ _ ES).
    destruct (map_of_ok G U ch bnd sub n Wm W1 W2 w1 F) as [(avm & w2 & EM & Ed)|(Eb & NE & Y & ex & w2 & EY & EM)].
    - rewrite (nb _ _ w1 _ _ EM). unfold asrs_init, mlift. cbn [need]. unfold mbind at 1.
      destruct (data_trains solve cholesky fminbound lstsq HL HLT HS HS' HC HF avm (match surf with Some s => s | None => RSRbf 2 None end) sub n e Wm W1 W2 X0 f0 K (input_at G bnd) Ed F Ee Hn (es_e _ _ _ _ _ L) SX Sf HK VX) as (s' & E' & _ & TG & _).
      { destruct Hs as [->|(-> & SP & NQ)]; [now left|]. right. split; [reflexivity|]. split; [|exact NQ].
        apply (spanning_pos K 3 (ent df0) e Wm lam ltac:(lia)); [|exact L]. intros v H. apply SP. intros i Hi. rewrite <- (H i Hi). apply sumf_ext. intros j Hj. unfold ent. now rewrite VD. }
      exists (Ok tt). destruct surf as [s|]; cbn [rbind] in *.
      all: rewrite E'; destruct (HX w2) as (P & w3 & EP & SP'); unfold mbind at 1; rewrite (nb _ _ w2 _ _ EP); destruct (TG P 10%nat SP') as (FF & D & F' & E1 & _); rewrite E1; eexists; split; [reflexivity|now left].
    - exists (Err ex), w2. unfold mbind at 1. rewrite EM. split; [reflexivity|]. right. split; [exact Eb|]. split; [|exists Y, ex; auto]. intros ->. lia.
  Qed.
End DataTests.
