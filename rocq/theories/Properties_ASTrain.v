(** Final theorems for train_with_interface: C42 *)
From Coq Require Import String Reals Lra Lia List Arith ZArith Bool.
From Verif Require Import Prelude Py NumArr Toy M_Misc M_RespSurf M_SimRunners M_Gradients M_Subspaces M_Quadrature M_QP M_Domains M_Designs M_ASRS
  P_Misc P_SimRunners P_DomSample P_Domains P_CondExp P_Quiet P_Inverse Properties_Misc Properties_QP Properties_Domains Properties_Designs Properties_ASRS.
Import ListNotations.
Open Scope R_scope.

Lemma fold_max : forall (f : nat -> R) l a, let r := fold_left (fun a i => Rmax a (f i)) l a in
  a <= r /\ (forall i, In i l -> f i <= r) /\ (r = a \/ exists i, In i l /\ r = f i).
Proof.
  intros f l. induction l as [|x l IH]; intros a; cbn [fold_left].
  - split; [lra|]. split; [intros i []|auto].
  - destruct (IH (Rmax a (f x))) as (A & B & C). assert (M1 := Rmax_l a (f x)). assert (M2 := Rmax_r a (f x)). split; [lra|]. split.
    + intros i [<-|Hi]; [lra|auto].
    + destruct C as [C|(i & Hi & C)]; [|right; exists i; split; [now right|auto]]. rewrite C. destruct (Rmax_Rle a (f x) (Rmax a (f x))) as [_ _]. unfold Rmax. destruct (Rle_dec a (f x)); [right; exists x; split; [now left|auto]|auto].
Qed.

Lemma amax_design : forall ind NY K, shape ind = [(K * NY)%nat; 1%nat] -> (forall i l, (i < NY)%nat -> (l < K)%nat -> ind.[(i * K + l)%nat, 0%nat] = INR i) ->
  match amax_col ind with Ok mx => (0 < K)%nat /\ (0 < NY)%nat /\ mx = INR (NY - 1) | Err _ => (K * NY)%nat = 0%nat end.
Proof.
  intros ind NY K SI H. unfold amax_col. rewrite (nrows_shape2 _ ind _ _ SI). destruct (K * NY)%nat as [|q] eqn:EQ; auto.
  assert (HK : (0 < K)%nat) by nia. assert (HN : (0 < NY)%nat) by nia. split; auto. split; auto.
  set (f := fun i => ind.[i, 0%nat]). destruct (fold_max f (seq 1 q) (f 0%nat)) as (A & B & C). cbv zeta in *. fold (f 0%nat). set (r := fold_left _ _ _) in *. 
  assert (LE : forall i, (i < S q)%nat -> f i <= INR (NY - 1) /\ f i <= r).
  { intros i Hi. split.
    - unfold f. rewrite (Nat.div_mod i K) by lia. rewrite (Nat.mul_comm K). rewrite H; [apply le_INR| |apply Nat.mod_upper_bound; lia].
      + assert (i / K < NY)%nat by (apply Nat.div_lt_upper_bound; lia). lia.
      + apply Nat.div_lt_upper_bound; lia.
    - destruct i as [|i]; [exact A|]. apply B. apply in_seq. lia. }
  apply Rle_antisym.
  - destruct C as [->|(i & Hi & ->)]; [apply LE; lia|]. apply in_seq in Hi. apply LE. lia.
  - assert (Q := LE ((NY - 1) * K + 0)%nat ltac:(nia)). unfold f in Q at 2. rewrite H in Q by lia. tauto.
Qed.

Lemma vstack_ok : forall (X Y : nd R) r1 r2 c (Z : nd R), shape X = [r1; c] -> shape Y = [r2; c] ->
  exists Z, vstack X Y = Ok Z /\ shape Z = [(r1 + r2)%nat; c] /\ (forall i j, (i < r1)%nat -> Z.[i, j] = X.[i, j]) /\ (forall i j, (i < r2)%nat -> Z.[(r1 + i)%nat, j] = Y.[i, j]).
Proof.
  intros X Y r1 r2 c _ SX SY. unfold vstack. rewrite SX, SY, Nat.eqb_refl. eexists. split; [reflexivity|]. split; [reflexivity|]. split; intros i j Hi; rewrite at_mk2.
  - destruct (Nat.ltb_spec i r1); [auto|lia].
  - destruct (Nat.ltb_spec (r1 + i) r1); [lia|]. now replace (r1 + i - r1)%nat with i by lia.
Qed.

(** Whenever training returns: there is a design of NY points with K = NMC
    inputs for each (rows i*K+l of Xd go with row i of Yd), the training inputs
    are these followed by the NV vertices (none for unbounded domains), fn was
    called once on each row of X in order, and the surface was trained on the
    means and variances of the values of each point's own rows. *)
Theorem C42_interface_training : forall (G : gen) (U : Type) solve cholesky fminbound lstsq B ch eig argsort s fn N NMC m n Wm W1 W2 NV vX vY (w w' : world G U (nd R)) s',
  let a := as_map s in
  frame (d_subs (av_domain a)) m n Wm W1 W2 -> matched B a m n NV vX vY ->
  train_with_interface solve cholesky fminbound lstsq B ch eig argsort s (IsA fn) (IsA N) (IsA NMC) w = (Ok s', w') ->
  exists Yd Xd ind w1 NY K, av_design B ch eig argsort (IsA a) (IsA N) (IsA NMC) w = (Ok (Yd, Xd, ind), w1) /\
    NMC = Z.of_nat K /\ (0 < K)%nat /\ (0 < NY)%nat /\ shape Yd = [NY; n] /\ shape Xd = [(NY * K)%nat; m] /\
    (forall i l, (i < NY)%nat -> (l < K)%nat -> maps_to W1 Yd m n i (fun c => Xd.[(i * K + l)%nat, c])) /\
  exists X Y f (us : nat -> U), let T := (NY * K + NV)%nat in
    shape X = [T; m] /\ (forall r c, (r < NY * K)%nat -> X.[r, c] = Xd.[r, c]) /\ (forall j c, (j < NV)%nat -> X.[(NY * K + j)%nat, c] = vX.[j, c]) /\
    shape Y = [(NY + NV)%nat; n] /\ (forall i c, (i < NY)%nat -> Y.[i, c] = Yd.[i, c]) /\ (forall j c, (j < NV)%nat -> Y.[(NY + j)%nat, c] = vY.[j, c]) /\
    us 0%nat = usr w /\ (forall r, (r < T)%nat -> exists v, fn (rowarr X r) (us r) = (Ok v, us (S r)) /\ size v = 1%nat /\ f r = flat v 0) /\
    w' = World (rng w1) (us T) (calls w ++ map (rowarr X) (seq 0 T)) (files w) /\
  exists E V, shape E = [(NY + NV)%nat; 1%nat] /\ shape V = [(NY + NV)%nat; 1%nat] /\
    (forall i, (i < NY)%nat -> let mean := sumf K (fun l => f (i * K + l)%nat) / INR K in
       E.[i, 0%nat] = mean /\ V.[i, 0%nat] = sumf K (fun l => (f (i * K + l)%nat - mean) * (f (i * K + l)%nat - mean)) / INR K) /\
    (forall j, (j < NV)%nat -> E.[(NY + j)%nat, 0%nat] = f (NY * K + j)%nat /\ V.[(NY + j)%nat, 0%nat] = 0) /\
    asrs_train solve cholesky fminbound lstsq s Y E (Some V) = Ok s'.
Proof.
  intros G U solve cholesky fminbound lstsq B ch eig argsort s fn N NMC m n Wm W1 W2 NV vX vY w w' s' a F MT H. unfold train_with_interface in H. fold a in H.
  apply mbind_ok in H. destruct H as ([[Yd Xd] ind] & w1 & ED & H).
  destruct (design_returns _ _ _ _ _ _ _ _ _ _ _ _ _ _ _ _ _ _ _ _ _ _ F MT ED) as (NY & K & Zi & EN & SY & (SX & SI & VI & Y' & Z' & EF & FY & _)).
  assert (QD := quiet_design _ _ _ _ _ _ _ _ _ _ _ _ ED). destruct QD as (QU & QC & QF).
  exists Yd, Xd, ind, w1, NY, K. split; auto. split; auto.
  apply mbind_ok in H. destruct H as ([[Y X] ix] & w2 & EX & H).
  (* the training inputs *)
  assert (ST : w2 = w1 /\ shape X = [(NY * K + NV)%nat; m] /\ (forall r c, (r < NY * K)%nat -> X.[r, c] = Xd.[r, c]) /\ (forall j c, (j < NV)%nat -> X.[(NY * K + j)%nat, c] = vX.[j, c]) /\
    shape Y = [(NY + NV)%nat; n] /\ (forall i c, (i < NY)%nat -> Y.[i, c] = Yd.[i, c]) /\ (forall j c, (j < NV)%nat -> Y.[(NY + j)%nat, c] = vY.[j, c]) /\
    shape ix = [(NY * K + NV)%nat; 1%nat] /\ (forall i l, (i < NY)%nat -> (l < K)%nat -> ix.[(i * K + l)%nat, 0%nat] = INR i) /\
    (forall j, (j < NV)%nat -> ix.[(NY * K + j)%nat, 0%nat] = INR (NY + j)) /\ (NV = 0%nat \/ (0 < K)%nat /\ (0 < NY)%nat)).
  { rewrite (Nat.mul_comm K) in SX, SI. destruct MT as [(_ & DK & ->)|(_ & DK & _ & _ & (VX & VY & SVX & SVY))]; rewrite DK in EX.
    - apply mret_inv in EX. destruct EX as [EX ->]. injection EX as -> -> ->. rewrite !Nat.add_0_r. repeat (split; [solve [auto | intros; lia]|]). auto.
    - rewrite VX, VY in EX. apply mbind_ok in EX. destruct EX as (x1 & u1 & E & EX). apply mlift_inv in E. destruct E as [E ->]. injection E as <-.
      apply mbind_ok in EX. destruct EX as (x1 & u1 & E & EX). apply mlift_inv in E. destruct E as [E ->]. injection E as <-.
      apply mbind_ok in EX. destruct EX as (X1 & u1 & E & EX). apply mlift_inv in E. destruct E as [E ->].
      destruct (vstack_ok Xd vX _ _ _ X1 SX SVX) as (X2 & E' & SX2 & XA & XB). rewrite E in E'. injection E' as <-. clear E.
      apply mbind_ok in EX. destruct EX as (Y1 & u1 & E & EX). apply mlift_inv in E. destruct E as [E ->].
      destruct (vstack_ok Yd vY _ _ _ X1 SY SVY) as (X2 & E' & SY2 & YA & YB). rewrite E in E'. injection E' as <-. clear E.
      apply mbind_ok in EX. destruct EX as (mx & u1 & E & EX). apply mlift_inv in E. destruct E as [E ->].
      assert (AM := amax_design ind NY K ltac:(rewrite (Nat.mul_comm K); exact SI) VI). rewrite E in AM. destruct AM as (HK & HN & ->). clear E.
      apply mbind_ok in EX. destruct EX as (i1 & u1 & E & EX). apply mlift_inv in E. destruct E as [E ->].
      rewrite (nrows_shape2 _ vX _ _ SVX) in E. set (ii := mk2 NV 1 (fun k _ => INR (NY - 1) + 1 + INR k)) in E.
      destruct (vstack_ok ind ii _ NV _ X1 SI eq_refl) as (X2 & E' & SI2 & IA & IB). rewrite E in E'. injection E' as <-. clear E.
      apply mret_inv in EX. destruct EX as [EX ->]. injection EX as -> -> ->.
      repeat (split; [solve [auto]|]). split. { intros i l Hi Hl. rewrite IA by nia. auto. } split; [|auto].
      intros j Hj. rewrite IB by auto. unfold ii. rewrite at_mk2. rewrite plus_INR, minus_INR by lia. simpl INR. ring. }
  clear EX. destruct ST as (-> & SXX & XA & XB & SYY & YA & YB & SIX & IA & IB & POS).
  apply mbind_ok in H. destruct H as (fn' & w2 & E & H). apply mlift_inv in E. destruct E as [E ->]. injection E as <-.
  apply mbind_ok in H. destruct H as (FF & w2 & ER & H).
  destruct (C05_run_calls_rows_in_order G U fn X _ _ w1 SXX) as (us & U0 & [(F' & w3 & ER' & SF & EW & VF)|(k & e & w3 & _ & ER' & _)]); rewrite ER in ER'; [|discriminate].
  injection ER' as <- <-.
  apply mbind_ok in H. destruct H as ([E V] & w3 & EC & H). apply mlift_inv in EC. destruct EC as [EC ->]. apply mlift_inv in H. destruct H as [H ->].
  assert (HP : (0 < K)%nat /\ (0 < NY)%nat).
  { destruct POS as [->|?]; auto. destruct (Nat.eq_dec (NY * K) 0) as [Z0|Z0]; [|nia]. exfalso.
    unfold cond_exp in EC. rewrite (nrows_shape2 _ FF _ _ SF), (nrows_shape2 _ ix _ _ SIX), Z0 in EC. discriminate. }
  destruct HP as [HK HN]. split; auto. split; auto. split; auto. split; [rewrite Nat.mul_comm; exact SX|]. split.
  { intros i l Hi Hl j Hj. destruct (C21_forward a m n Wm W1 W2 Xd (K * NY) F SX) as (Y2 & Z2 & EF2 & _ & _ & FY2 & _). rewrite EF in EF2. injection EF2 as <- <-.
    rewrite <- (FY i l j) by auto. rewrite FY2 by (auto; nia). apply sumf_ext. intros; ring. }
  exists X, Y, (fun r => FF.[r, 0%nat]), us. cbv zeta. repeat (split; [solve [auto]|]). split; [congruence|]. split; [auto|]. split; [rewrite EW; congruence|].
  destruct (cond_exp_design FF ix NY K NV SF SIX IA IB HK HN) as (E2 & V2 & EC2 & SE & SV & C1 & C2). rewrite EC in EC2. injection EC2 as <- <-.
  exists E, V. split; auto. split; auto. split; [|auto].
  intros i Hi. cbv zeta. destruct (C1 i Hi) as [A Bv]. rewrite A in Bv. auto.
Qed.
Print Assumptions C42_interface_training.

(** Training returns whenever the design does and is not empty, the simulation
    returns numbers for rows and the surface can be trained at these points, with
    variances that are not negative. *)
Theorem C42_interface_returns : forall (G : gen) (U : Type) solve cholesky fminbound lstsq B ch eig argsort s (fn : ufun (U := U) (nd R) (nd R)) N NMC m n Wm W1 W2 NV vX vY (w w1 : world G U (nd R)) Yd Xd ind,
  let a := as_map s in
  frame (d_subs (av_domain a)) m n Wm W1 W2 -> matched B a m n NV vX vY ->
  av_design B ch eig argsort (IsA a) (IsA N) (IsA NMC) w = (Ok (Yd, Xd, ind), w1) -> (1 <= NMC)%Z -> (1 <= nrows Yd)%nat ->
  (forall x u, shape x = [1%nat; m] -> exists v u', fn x u = (Ok v, u') /\ size v = 1%nat) ->
  (forall Y E V, let K := (nrows Yd + NV)%nat in shape Y = [K; n] -> (forall i c, (i < nrows Yd)%nat -> Y.[i, c] = Yd.[i, c]) -> (forall j c, (j < NV)%nat -> Y.[(nrows Yd + j)%nat, c] = vY.[j, c]) ->
     shape E = [K; 1%nat] -> shape V = [K; 1%nat] -> (forall i, (i < K)%nat -> 0 <= V.[i, 0%nat]) -> exists s', asrs_train solve cholesky fminbound lstsq s Y E (Some V) = Ok s') ->
  exists s' w', train_with_interface solve cholesky fminbound lstsq B ch eig argsort s (IsA fn) (IsA N) (IsA NMC) w = (Ok s', w').
Proof.
  intros G U solve cholesky fminbound lstsq B ch eig argsort s fn N NMC m n Wm W1 W2 NV vX vY w w1 Yd Xd ind a F MT ED HN HY HF HT.
  destruct (design_returns _ _ _ _ _ _ _ _ _ _ _ _ _ _ _ _ _ _ _ _ _ _ F MT ED) as (NY & K & Zi & EN & SY & (SX & SI & VI & _)).
  rewrite (nrows_shape2 _ Yd _ _ SY) in HY, HT. assert (HK : (0 < K)%nat) by lia.
  assert (RUN : forall Y X ix q, shape X = [(NY * K + q)%nat; m] -> shape Y = [(NY + q)%nat; n] -> shape ix = [(NY * K + q)%nat; 1%nat] ->
    (forall i l, (i < NY)%nat -> (l < K)%nat -> ix.[(i * K + l)%nat, 0%nat] = INR i) -> (forall j, (j < q)%nat -> ix.[(NY * K + j)%nat, 0%nat] = INR (NY + j)) ->
    q = NV -> (forall i c, (i < NY)%nat -> Y.[i, c] = Yd.[i, c]) -> (forall j c, (j < NV)%nat -> Y.[(NY + j)%nat, c] = vY.[j, c]) ->
    exists s' w', (dom f <- mlift (SimulationRunner_init (IsA fn)); dom F <- sim_run f X; dom (Ef, Vf) <- mlift (cond_exp F ix); mlift (asrs_train solve cholesky fminbound lstsq s Y Ef (Some Vf))) w1 = (Ok s', w')).
  { intros Y X ix q SXX SYY SIX IA IB -> Y1 Y2. assert (RA : forall r, shape (rowarr X r) = [1%nat; m]) by (intros r; unfold rowarr; cbn [shape mk2]; now rewrite (ncols_shape2 _ _ _ _ SXX)). unfold mbind at 1, mlift at 1. cbn [SimulationRunner_init]. unfold mbind at 1.
    destruct (C05_run_calls_rows_in_order G U fn X _ _ w1 SXX) as (us & U0 & [(F' & w3 & ER & SF & _)|(k & e & w3 & _ & _ & _ & _ & [C|(v & C & SV & _)])]).
    - rewrite ER. destruct (cond_exp_design F' ix NY K NV SF SIX IA IB HK ltac:(lia)) as (E & V & EC & SE & SV & C1 & C2). unfold mbind, mlift. rewrite EC.
      destruct (HT Y E V SYY Y1 Y2 SE SV) as (s' & ->); [|eauto].
      intros i Hi. destruct (Nat.lt_ge_cases i NY) as [C|C].
      + rewrite (proj2 (C1 i C)). apply Rmult_le_pos; [apply sumf_nonneg; intros; apply Rle_0_sqr|left; apply Rinv_0_lt_compat, lt_0_INR; lia].
      + replace i with (NY + (i - NY))%nat by lia. rewrite (proj2 (C2 (i - NY)%nat ltac:(lia))). lra.
    - destruct (HF (rowarr X k) (us k) (RA k)) as (v & u' & E & _). rewrite E in C. discriminate.
    - destruct (HF (rowarr X k) (us k) (RA k)) as (v' & u' & E & S'). rewrite E in C. injection C as <- _. contradiction. }
  rewrite (Nat.mul_comm K) in SX, SI. unfold train_with_interface. fold a. unfold mbind at 1. rewrite ED. unfold mbind at 1.
  destruct MT as [(_ & DK & ->)|(_ & DK & _ & _ & (VX & VY & SVX & SVY))]; rewrite DK.
  - unfold mret. cbv beta iota. apply (RUN Yd Xd ind 0%nat); rewrite ?Nat.add_0_r; auto; intros; lia.
  - rewrite VX, VY. unfold mbind at 1, mlift at 1. cbn [need]. unfold mbind at 1, mlift at 1.
    destruct (vstack_ok Xd vX _ _ _ Xd SX SVX) as (X2 & E & SX2 & XA & XB). unfold mbind at 1, mlift at 1. rewrite E. clear E.
    destruct (vstack_ok Yd vY _ _ _ Xd SY SVY) as (Y2 & E & SY2 & YA & YB). unfold mbind at 1, mlift at 1. rewrite E. clear E.
    assert (AM := amax_design ind NY K ltac:(rewrite (Nat.mul_comm K); exact SI) VI). destruct (amax_col ind) as [mx|e]; [|nia]. destruct AM as (_ & _ & ->).
    unfold mbind at 1, mlift at 1. rewrite (nrows_shape2 _ vX _ _ SVX). cbv zeta. set (ii := mk2 NV 1 (fun k _ => INR (NY - 1) + 1 + INR k)).
    destruct (vstack_ok ind ii _ NV _ Xd SI eq_refl) as (i2 & E & SI2 & IA & IB). unfold mbind at 1, mlift at 1. rewrite E. clear E. unfold mret. cbv beta iota.
    apply (RUN Y2 X2 i2 NV); auto.
    + intros i l Hi Hl. rewrite IA by nia. auto.
    + intros j Hj. rewrite IB by auto. unfold ii. rewrite at_mk2. rewrite plus_INR, minus_INR by lia. simpl INR. ring.
Qed.
Print Assumptions C42_interface_returns.

(** no inactive variables: rejection sampling accepts at once *)
Lemma sample_full : forall (G : gen) (U L : Type) B m K y W1 W2 (w : world G U L), shape W1 = [m; m] -> shape W2 = [m; 0%nat] -> shape y = [m] ->
  (forall i, (i < m)%nat -> -1 <= sumf m (fun j => W1.[i, j] * y.[j]) <= 1) ->
  exists Z, sample_z B (IsA (Z.of_nat K)) y W1 W2 w = (Ok Z, w) /\ shape Z = [K; 0%nat].
Proof.
  intros G U L B m K y W1 W2 w H1 H2 Hy HS. unfold sample_z, rejection_sampling_z.
  unfold mbind at 1. unfold mbind at 1, mlift at 1. unfold shape2. rewrite H1.
  destruct (shift_of_ok W1 y m m H1 Hy) as (s & Es & Ss & Vs). unfold mbind at 1, mlift at 1. rewrite Es.
  destruct (polytope_ok W2 s m 0 H2 Ss) as (A & b & Ep & SA & Sb & _ & _ & B1 & B2). unfold mbind at 1, mlift at 1. rewrite Ep.
  unfold mbind at 1, mlift at 1. rewrite Nat.leb_refl. cbn [guard]. rewrite Nat.sub_diag. cbn [seq mmap]. unfold mbind at 1, mret at 1.
  destruct (reshape_ok _ [1%nat; 0%nat] (mk2 1 0 (fun _ j : nat => Fin (fst (nth j (@nil (R * R)) (0, 0))))) eq_refl) as (lb & El & Sl & _).
  destruct (reshape_ok _ [1%nat; 0%nat] (mk2 1 0 (fun _ j : nat => Fin (snd (nth j (@nil (R * R)) (0, 0))))) eq_refl) as (ub & Eu & Su & _).
  unfold mbind at 1, mlift at 1. unfold bounded_init. change (size (mk2 1 0 _)) with 0%nat at 1. cbv zeta. rewrite El. cbn [rbind]. 
  change (size (mk2 1 0 _)) with 0%nat at 1. rewrite Eu. cbn [rbind].
  unfold mbind at 1, mlift at 1. unfold dimZ. destruct (Z.ltb_spec (50 * Z.of_nat K) 0) as [C|_]; [lia|]. set (r := Z.to_nat (50 * Z.of_nat K)).
  unfold mbind at 1, uniform2, mbind at 1. rewrite Nat.mul_0_r. cbn [repeatM]. unfold mret at 1 2.
  unfold mbind at 1, mlift at 1. set (Zu := mk2 r 0 _). 
  assert (EZ : exists Zx, bounded_unnormalize {| bn_lb := lb; bn_ub := ub |} (amap Fin Zu) = Ok Zx /\ shape Zx = [r; 0%nat]).
  { unfold bounded_unnormalize. rewrite (process_inputs_ok _ (amap Fin Zu) r 0 eq_refl). cbn [rbind bn_lb bn_ub].
    assert (BD : bdim 1 r = Some r). { unfold bdim. destruct (Nat.eqb_spec 1 r) as [<-|]; auto. }
    assert (BD2 : bdim r 1 = Some r). { unfold bdim. destruct (Nat.eqb_spec r 1) as [->|]; [auto|]. destruct (Nat.eqb_spec r 1); auto. }
    unfold bcast2 at 1. rewrite Sl, Su. change (bdim 1 1) with (Some 1%nat). change (bdim 0 0) with (Some 0%nat). cbn [rbind].
    unfold bcast2 at 1. cbn [shape mk2 amap Zu]. rewrite BD. change (bdim 0 0) with (Some 0%nat). cbn [rbind].
    unfold bcast2. cbn [shape mk2 amap]. rewrite Sl, BD2. change (bdim 0 0) with (Some 0%nat). eexists. split; reflexivity. }
  destruct EZ as (Zx & EZ & SZ). rewrite EZ.
  unfold mbind at 1, mlift at 1.
  assert (SB : shape (amap fin Zx) = [r; 0%nat]) by exact SZ.
  assert (St : shape (tr (amap fin Zx)) = [0%nat; r]). { unfold tr. cbn [shape mk2]. now rewrite (ncols_shape2 _ _ _ _ SB), (nrows_shape2 _ _ _ _ SB). }
  rewrite (npdot2 A (tr (amap fin Zx)) (2 * m) 0 r SA St). cbn [sumf].
  unfold mbind at 1, mlift at 1. unfold bcast2. cbn [shape mk2]. rewrite Sb.
  assert (BD : bdim (2 * m) (2 * m) = Some (2 * m)%nat). { unfold bdim. now rewrite Nat.eqb_refl. } rewrite BD.
  assert (BD2 : bdim r 1 = Some r). { unfold bdim. destruct (Nat.eqb_spec r 1) as [->|]; [auto|]. destruct (Nat.eqb_spec r 1); auto. } rewrite BD2.
  cbv zeta. set (ge := mk2 (2 * m) r _). rewrite (nrows_shape2 _ _ _ _ SB). change (nrows ge) with (2 * m)%nat. change (ncols ge) with r.
  assert (IND : map (fun j => forallb (fun i => ge.[i, j]) (seq 0 (2 * m))) (seq 0 r) = map (fun _ => true) (seq 0 r)).
  { apply map_ext_in. intros j Hj. apply forallb_forall. intros i Hi. apply in_seq in Hi. unfold ge. rewrite at_mk2. apply Rleb_spec. rewrite at_mk2. change (bidx 1 j) with 0%nat.
    assert (BI : bidx (2 * m) i = i). { unfold bidx. destruct (Nat.eqb_spec (2 * m) 1); lia. } rewrite BI.
    destruct (Nat.lt_ge_cases i m) as [C|C].
    - rewrite B1 by auto. rewrite Vs by auto. specialize (HS i C). lra.
    - replace i with (m + (i - m))%nat by lia. rewrite B2 by lia. rewrite Vs by lia. specialize (HS (i - m)%nat ltac:(lia)). lra. }
  rewrite IND.
  assert (KP : mask_select (seq 0 r) (map (fun _ => true) (seq 0 r)) = seq 0 r).
  { unfold mask_select. generalize (seq 0 r). induction l as [|x l IH]; auto. cbn [map combine filter snd fst]. now rewrite IH. }
  rewrite KP, seq_length. destruct (Z.leb_spec (Z.of_nat K) (Z.of_nat r)) as [_|C]; [|unfold r in C; lia].
  rewrite Nat2Z.id.
  destruct (reshape_ok _ [K; 0%nat] (of_rows 0 (map (row1 (amap fin Zx)) (firstn K (seq 0 r))))) as (Z & E & SZZ & _).
  { unfold size, of_rows. cbn [shape mk2 prodn]. lia. }
  unfold mbind at 1, mlift at 1. rewrite E. exists Z. split; auto.
Qed.

(** a bounded domain with one input, which is the active variable *)
Definition id1 : nd R := mk2 1 1 (fun _ _ => 1).
Definition sub1 : subspaces := Subs None (Some id1) (Some id1) (Some (mk2 1 0 (fun _ _ => 0))) None None.
Definition ends1 : nd R := mk2 2 1 (fun i _ => if Nat.eqb i 0 then -1 else 1).
Definition d1 : avdomain := AVD DBounded sub1 1 1 (Some ends1) (Some ends1) None None.
Lemma frame1 : frame sub1 1 1 id1 id1 (mk2 1 0 (fun _ _ => 0)).
Proof. split; try reflexivity; try lia. intros a b Ha Hb. destruct a; [|lia]. destruct b; [|lia]. simpl. unfold kron_delta. simpl. lra. Qed.
(** a simulation with a counter: x^2 + number of calls so far *)
Definition sim1 : ufun (U := nat) (nd R) (nd R) := fun x u => (Ok (mk2 1 1 (fun _ _ => x.[0%nat, 0%nat] ^ 2 + INR u)), S u).
Definition surf1 : asrs := ASRS (RSUser (fun Y f => Ok (fun _ _ => Ok (f, None))) None) (AVM MBounded d1).

(** three design points with two samples each and two vertices: 8 calls *)
Example C42_case : exists s' w', train_with_interface (fun _ _ => Err ValueError) (fun _ => Err ValueError) (fun _ => Err ValueError) (fun _ _ => Err ValueError)
    backend_ref (fun _ => Err ValueError) (fun _ => Err ValueError) (fun _ => []) surf1 (IsA sim1) (IsA 3%Z) (IsA 2%Z) (toy_world 0%nat) = (Ok s', w') /\
  matched backend_ref (as_map surf1) 1 1 2 ends1 ends1 /\ List.length (calls w') = 8%nat /\ usr w' = 8%nat.
Proof.
  assert (MT : matched backend_ref (as_map surf1) 1 1 2 ends1 ends1).
  { right. split; auto. split; auto. split; [exact linprog_ref_ok|]. split; [intros P l H; discriminate|]. split; auto. }
  set (w := toy_world 0%nat : world toy_gen nat (nd R)).
  destruct (C33_interval_design (-1) 1 3 ltac:(lra)) as (D & ED & SD & VD & IN & _).
  assert (EI : exists X ind, av_inverse backend_ref (AVM MBounded d1) D (IsA 2%Z) w = (Ok (X, ind), w)).
  { assert (SZ : forall i, (i < 3)%nat -> exists Z, sample_z backend_ref (IsA 2%Z) (row1 D i) id1 (mk2 1 0 (fun _ _ => 0)) w = (Ok Z, w) /\ shape Z = [2; 0]%nat).
    { intros i Hi. apply (sample_full toy_gen nat (nd R) backend_ref 1 2 (row1 D i) id1 (mk2 1 0 (fun _ _ => 0)) w eq_refl eq_refl).
      - unfold row1. cbn [shape mk1]. now rewrite (ncols_shape2 _ D _ _ SD).
      - intros q Hq. cbn [sumf]. unfold row1, id1. rewrite at_mk1, at_mk2. specialize (IN i Hi). lra. }
    destruct (SZ 0%nat ltac:(lia)) as (Z0 & E0 & S0). destruct (SZ 1%nat ltac:(lia)) as (Z1 & E1 & S1). destruct (SZ 2%nat ltac:(lia)) as (Z2 & E2 & S2).
    set (Z := mk3 3 0 2 (fun i j l => (nth i [Z0; Z1; Z2] Z0).[l, j])).
    destruct (C21_inverse toy_gen nat (nd R) (AVM MBounded d1) 1 1 id1 id1 (mk2 1 0 (fun _ _ => 0)) (regularize_z backend_ref (AVM MBounded d1)) D Z 3 2 w w frame1 SD) as (X & ind & E & _); [|reflexivity|exists X, ind; exact E].
    unfold regularize_z. cbn [av_kind av_domain]. unfold regularize_bounded. unfold mbind at 1 2 3, mlift. cbn [d_subs d1 sub1 s_W1 s_W2 need shape2 id1 shape mk2].
    change (Z.of_nat 2) with 2%Z. rewrite (nrows_shape2 _ D _ _ SD). cbn [seq mmap]. unfold mbind. fold id1. rewrite E0, E1, E2. unfold mret. 
    rewrite (ncols_shape2 _ Z0 _ _ S0), (nrows_shape2 _ Z0 _ _ S0). reflexivity. }
  destruct EI as (X & ind & EI).
  assert (EDs : av_design backend_ref (fun _ => Err ValueError) (fun _ => Err ValueError) (fun _ => []) (IsA (as_map surf1)) (IsA 3%Z) (IsA 2%Z) w = (Ok (D, X, ind), w)).
  { unfold av_design. cbv zeta. unfold mbind at 1, mlift at 1. cbn [av_domain as_map surf1 d_subs d1 sub1 s_W1 need]. unfold mbind at 1, mlift at 1. change (shape2 id1) with (Ok (1%nat, 1%nat)).
    unfold mbind at 1. cbn [d_kind]. unfold mbind at 1, mlift at 1. cbn [d_vertY need Nat.eqb]. unfold mlift. 
    cbn [d_kind d1 d_vertY need Nat.eqb]. change (rbind (get2 ends1 0 0) _) with (interval_design (-1) 1 (Z.of_nat 3)). rewrite ED. unfold mbind. now rewrite EI. }
  destruct (C42_interface_returns toy_gen nat (fun _ _ => Err ValueError) (fun _ => Err ValueError) (fun _ => Err ValueError) (fun _ _ => Err ValueError) backend_ref (fun _ => Err ValueError) (fun _ => Err ValueError) (fun _ => [])
    surf1 sim1 3%Z 2%Z 1 1 id1 id1 (mk2 1 0 (fun _ _ => 0)) 2 ends1 ends1 w w D X ind frame1 MT EDs) as (s' & w' & E).
  { lia. } { rewrite (nrows_shape2 _ D _ _ SD). lia. } { intros x u _. eexists _, _. split; [reflexivity|reflexivity]. }
  { intros Y E V K _ _ _ _ _ _. eexists. reflexivity. }
  exists s', w'. split; [exact E|]. split; [exact MT|].
  destruct (C42_interface_training _ _ _ _ _ _ _ _ _ _ surf1 _ _ _ _ _ _ _ _ _ _ _ _ _ _ frame1 MT E) as (Y' & X' & i' & w2 & NY & K & ED2 & EK & HK & HN & SY & _ & _ & X2 & Y2 & f & us & _ & _ & _ & _ & _ & _ & U0 & US & EW & _).
  assert (Q := eq_trans (eq_sym EDs) ED2). injection Q as <- <- <- <-. rewrite SD in SY. injection SY as <-. assert (K = 2%nat) by lia. subst K.
  assert (UI : forall r, (r <= 8)%nat -> us r = r).
  { induction r; intros Hr; [exact U0|]. destruct (US r ltac:(simpl; lia)) as (v & EV & _). rewrite IHr in EV by lia. unfold sim1 in EV. injection EV as _ EV. auto. }
  rewrite EW. cbn [calls usr]. rewrite app_length, map_length, seq_length. split; [reflexivity|]. apply (UI 8%nat). lia.
Qed.
