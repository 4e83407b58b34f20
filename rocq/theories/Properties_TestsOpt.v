(** C109: how the unit tests of the optimizers end, and what minimize returns in one of them. *)
From Coq Require Import String Reals Lra Lia List Arith ZArith Bool Classical.
From Verif Require Import Prelude Py NumArr LinAlg Lsq Sorting Spectral M_Misc P_Misc M_SimRunners M_Gradients M_QP M_RespSurf M_Subspaces M_Quadrature M_Domains M_Designs M_ASRS M_Integrals M_Optimizers P_Subspaces P_Partition
  P_Domains P_IndexSet P_PolyTrain P_Rbf SolveRef Cholesky EighRef P_DomWitness P_QP P_Multistart P_Optimizers Properties_RespSurf Properties_RbfObj Properties_QP Properties_Domains Properties_ASRS Properties_Optimizers Properties_MinMap Properties_Minimize Properties_Callbacks
  M_Tests P_Tests P_Notebooks M_TestsSpace P_TestsDomain M_TestsAS P_TestsSurf P_TestsAS Properties_TestsAS M_TestsOpt P_TestsOpt P_TestsOpt2 P_TestsOpt3 P_TestsOpt4.
Import ListNotations.
Open Scope R_scope.

(** The unbounded test with two active variables passes, unless BFGS does not answer for some
    well-posed problem.  The returned point xstar has an inactive coordinate z of the wrong sign:
    with x_a its active part, the function is never smaller at xstar = x_a + z w than at x_a, it
    is larger unless z = 0, and it is not larger at x_a - z w. *)
Theorem C109_ubnd_2d : forall eigh argsort lstsq norm2 det B ch solve cholesky fminbound fm (G : gen) (U : Type) (w : world G U (nd R)),
  eigh_contract eigh -> eigh_total eigh -> argsort_contract argsort -> lstsq_contract lstsq -> lstsq_total lstsq -> solve_contract solve -> solve_sound solve -> cholesky_contract cholesky -> fminbound_ok fminbound ->
  no_quadric 50 3 (input_at G false) ->
  (passes (test_opt_ubnd_2d eigh argsort lstsq norm2 det B ch solve cholesky fminbound fm) w /\
   exists xs fs w' e V lam, opt_run eigh argsort lstsq norm2 det B ch solve cholesky fminbound fm false 2 w = (Ok (xs, fs), w') /\ shape xs = [1%nat; 3%nat] /\
     eigsorted 3 (gradC 50 (grads G false) (fun _ => / INR 50)) e V lam /\
     let q := fun x => 5 / 10 * sumf 3 (fun i => sumf 3 (fun j => x i * quad_matrix.[i, j] * x j)) in
     let u := fun i => V.[i, 2%nat] in let z := sumf 3 (fun i => u i * xs.[0%nat, i]) in let xa := fun i => xs.[0%nat, i] - z * u i in
     q xa <= q (fun i => xs.[0%nat, i]) /\ (q (fun i => xs.[0%nat, i]) = q xa -> z = 0) /\ q (fun i => xa i - z * u i) <= q xa) \/
  unanswered B 2 "BFGS".
Proof.
  intros eigh argsort lstsq norm2 det B ch solve cholesky fminbound fm G U w HE HT HA HL HLT HS HS' HC HF NQ.
  destruct (run_prefix (G := G) (U := U) eigh argsort lstsq norm2 det B ch solve cholesky fminbound fm HE HT HA HL HLT HS HS' HC HF false 2 w NQ ltac:(lia)) as (X0 & f0 & sub & e & Wm & W1 & W2 & lam & w1 & F & ES & SX & Sf & Vf & VX & RO & _).
  change (Z.to_nat 2) with 2%nat in *.
  destruct (map_unbounded ch sub 2 Wm W1 W2 w1 F) as (avm & EM & Ed & Ek). destruct (RO avm w1 EM Ed) as (s & Es & TG & EW & ER). subst avm.
  assert (F' : frame (d_subs (av_domain (as_map s))) 3 2 Wm W1 W2) by (now rewrite Ed).
  destruct (av_min_unbounded B fm s (av_domain (as_map s)) 3 2 Wm W1 W2 w1 TG EW F' Ek) as [(ys & fs & EA & SY)|UN]; [left|now right].
  destruct (mvm_train_returns lstsq (av_domain (as_map s)) 3 2 Wm W1 W2 X0 f0 50 HL HLT F' ltac:(lia) SX Sf ltac:(cbn; lia)) as (v & EV).
  destruct (mvm_two lstsq _ Wm W1 W2 X0 f0 50 _ v HL F' SX Sf Vf VX NQ EV) as (Sb & SA & SQ & VQ & VB).
  set (w2 := fun i => W2.[i, 0%nat]) in *. destruct (quadratic_pos w2) as [P2 _].
  destruct (umvm_runs solve (av_domain (as_map s)) 3 2 Wm W1 W2 v ys 1 w1 HS' F' SY Sb SA SQ) as (Z & EZ & SZ & VZ).
  { intros c Sc. destruct (HS 1%nat 1%nat (mv_zAz v) c SQ Sc) as (V & E & _); [|now exists V]. intros x Hx [|i] Hi; [|lia]. specialize (Hx 0%nat ltac:(lia)). cbn [sumf] in Hx. rewrite VQ in Hx. nra. }
  assert (RG : reg_of B solve (av_domain (as_map s)) v ys 1 w1 = (Ok Z, w1)) by (unfold reg_of; rewrite Ek; exact EZ).
  destruct (finish B fm lstsq solve s X0 f0 50 3 2 Wm W1 W2 ys fs v Z w1 F' ltac:(rewrite Ek; discriminate) SX Sf EA SY EV RG SZ) as (xs & EX & Sx & Vx).
  assert (RUN : opt_run eigh argsort lstsq norm2 det B ch solve cholesky fminbound fm false 2 w = (Ok (xs, fs), w1)) by (rewrite ER; exact EX).
  split; [exists w1; unfold test_opt_ubnd_2d, opt_test, mbind; rewrite RUN; reflexivity|].
  exists xs, fs, w1, e, Wm, lam. split; [exact RUN|]. split; [exact Sx|]. split; [exact ES|]. cbv beta zeta.
  set (z0 := Z.[0%nat, 0%nat, 0%nat]). set (a := fun i => sumf 2 (fun j => W1.[i, j] * ys.[0%nat, j])).
  assert (E2 : forall i, (i < 3)%nat -> w2 i = Wm.[i, 2%nat]) by (intros i Hi; unfold w2; rewrite (fr_e2 _ _ _ _ _ _ F) by lia; reflexivity).
  assert (XS : forall i, (i < 3)%nat -> xs.[0%nat, i] = a i + z0 * Wm.[i, 2%nat]). { intros i Hi. rewrite Vx by auto. rewrite <- E2 by auto. unfold a, z0, w2. change (3 - 2)%nat with 1%nat. cbn [sumf]. ring. }
  assert (OW := fr_o _ _ _ _ _ _ F).
  assert (ZE : sumf 3 (fun i => Wm.[i, 2%nat] * xs.[0%nat, i]) = z0).
  { transitivity (ys.[0%nat, 0%nat] * sumf 3 (fun i => Wm.[i, 2%nat] * Wm.[i, 0%nat]) + ys.[0%nat, 1%nat] * sumf 3 (fun i => Wm.[i, 2%nat] * Wm.[i, 1%nat]) + z0 * sumf 3 (fun i => Wm.[i, 2%nat] * Wm.[i, 2%nat])).
    - rewrite <- !sumf_scal_l, <- !sumf_plus. apply sumf_ext. intros i Hi. rewrite XS by auto. unfold a. cbn [sumf]. rewrite !(fr_e1 _ _ _ _ _ _ F) by lia. ring.
    - rewrite !OW by lia. cbn [Nat.eqb]. ring. }
  rewrite ZE. specialize (VZ 0%nat 0%nat ltac:(lia) ltac:(lia)). change (3 - 2)%nat with 1%nat in VZ. cbn [sumf] in VZ. fold z0 in VZ. rewrite VQ in VZ. assert (VB' := VB (fun j => ys.[0%nat, j])). cbn [sumf] in VB'. rewrite VB' in VZ. clear VB VB'.
  assert (QT : forall t x, (forall i, (i < 3)%nat -> x i = a i + t * w2 i) -> 5 / 10 * sumf 3 (fun i => sumf 3 (fun j => x i * quad_matrix.[i, j] * x j)) = / 2 * bil a a + t * ((bil w2 w2 + 1 / 100) * z0) + / 2 * t * t * bil w2 w2).
  { intros t x Hx. transitivity (/ 2 * bil x x); [unfold bil, qA; lra|]. rewrite (bil_ext x x (fun i => 1 * a i + t * w2 i) (fun i => 1 * a i + t * w2 i)) by (intros i Hi; rewrite Hx by auto; ring).
    rewrite (proj1 (bil_lin _ _ _ _ _)), !(proj2 (bil_lin _ _ _ _ _)), (bil_sym a w2). assert (BA : bil w2 a = (bil w2 w2 + 1 / 100) * z0); [|rewrite BA; field].
    etransitivity; [|symmetry; etransitivity; [|exact VZ]; ring]. apply bil_ext; [auto|]. intros i Hi. unfold a. reflexivity. }
  rewrite (QT 0), (QT z0 (fun i => xs.[0%nat, i])), (QT (- z0)).
  2, 3, 4: intros i Hi; cbv beta; rewrite E2, ?XS by auto; ring.
  assert (ZZ := Rle_0_sqr z0). unfold Rsqr in ZZ.
  split; [nra|]. split; [|nra]. intros EQ. assert (z0 * z0 = 0) by nra. nra.
Qed.
Print Assumptions C109_ubnd_2d.

(** The unbounded test with one active variable passes, unless BFGS does not answer for some
    well-posed problem or the linear solver raises for a singular matrix. *)
Theorem C109_ubnd : forall eigh argsort lstsq norm2 det B ch solve cholesky fminbound fm (G : gen) (U : Type) (w : world G U (nd R)),
  eigh_contract eigh -> eigh_total eigh -> argsort_contract argsort -> lstsq_contract lstsq -> lstsq_total lstsq -> solve_contract solve -> solve_sound solve -> cholesky_contract cholesky -> fminbound_ok fminbound ->
  no_quadric 50 3 (input_at G false) ->
  passes (test_opt_ubnd eigh argsort lstsq norm2 det B ch solve cholesky fminbound fm) w \/ unanswered B 1 "BFGS" \/
  exists A c ex, shape A = [2%nat; 2%nat] /\ shape c = [2%nat; 1%nat] /\ A.[0%nat, 0%nat] = 0 /\ A.[0%nat, 1%nat] = 0 /\ A.[1%nat, 0%nat] = 0 /\ A.[1%nat, 1%nat] = 1 / 100 /\ solve A c = Err ex.
Proof.
  intros eigh argsort lstsq norm2 det B ch solve cholesky fminbound fm G U w HE HT HA HL HLT HS HS' HC HF NQ.
  destruct (run_prefix (G := G) (U := U) eigh argsort lstsq norm2 det B ch solve cholesky fminbound fm HE HT HA HL HLT HS HS' HC HF false 1 w NQ ltac:(lia)) as (X0 & f0 & sub & e & Wm & W1 & W2 & lam & w1 & F & ES & SX & Sf & Vf & VX & RO & _).
  change (Z.to_nat 1) with 1%nat in *.
  destruct (map_unbounded ch sub 1 Wm W1 W2 w1 F) as (avm & EM & Ed & Ek). destruct (RO avm w1 EM Ed) as (s & Es & TG & EW & ER). subst avm.
  assert (F' : frame (d_subs (av_domain (as_map s))) 3 1 Wm W1 W2) by (now rewrite Ed).
  destruct (av_min_unbounded B fm s (av_domain (as_map s)) 3 1 Wm W1 W2 w1 TG EW F' Ek) as [(ys & fs & EA & SY)|UN]; [|now right; left].
  destruct (mvm_train_returns lstsq (av_domain (as_map s)) 3 1 Wm W1 W2 X0 f0 50 HL HLT F' ltac:(lia) SX Sf ltac:(cbn; lia)) as (v & EV).
  destruct (mvm_one lstsq _ Wm W1 W2 X0 f0 50 v HL F' SX Sf EV) as (Sb & SA & SQ & V01 & V10 & V11).
  destruct (classic (exists c ex, shape c = [2%nat; 1%nat] /\ solve (mv_zAz v) c = Err ex)) as [(c & ex & Sc & Ec)|NS].
  - destruct (Req_dec ((mv_zAz v).[0%nat, 0%nat]) 0) as [Z0|NZ]; [right; right; exists (mv_zAz v), c, ex; auto 10|exfalso].
    destruct (HS 2%nat 1%nat (mv_zAz v) c SQ Sc) as (V & E & _); [|congruence]. intros x Hx. assert (H0 := Hx 0%nat ltac:(lia)). assert (H1 := Hx 1%nat ltac:(lia)). cbn [sumf] in H0, H1. rewrite V01 in H0. rewrite V10, V11 in H1.
    assert (x 0%nat = 0). { apply (Rmult_eq_reg_l ((mv_zAz v).[0%nat, 0%nat])); [|exact NZ]. rewrite Rmult_0_r. etransitivity; [|exact H0]. ring. } intros [|[|i]] Hi; try lia; lra.
  - left. destruct (umvm_runs solve (av_domain (as_map s)) 3 1 Wm W1 W2 v ys 1 w1 HS' F' SY Sb SA SQ) as (Z & EZ & SZ & _).
    { intros c Sc. destruct (solve (mv_zAz v) c) as [V|ex] eqn:E; [now exists V|exfalso; apply NS; eauto]. }
    assert (RG : reg_of B solve (av_domain (as_map s)) v ys 1 w1 = (Ok Z, w1)) by (unfold reg_of; rewrite Ek; exact EZ).
    destruct (finish B fm lstsq solve s X0 f0 50 3 1 Wm W1 W2 ys fs v Z w1 F' ltac:(rewrite Ek; discriminate) SX Sf EA SY EV RG SZ) as (xs & EX & _).
    exists w1. unfold test_opt_ubnd, opt_test, mbind. rewrite ER, EX. reflexivity.
Qed.
Print Assumptions C109_ubnd.

(** The bounded test with one active variable passes, unless fminbound does not answer for some
    function, or a feasible quadratic program raises. *)
Theorem C109_bnd : forall eigh argsort lstsq norm2 det B ch solve cholesky fminbound fm (G : gen) (U : Type) (w : world G U (nd R)),
  eigh_contract eigh -> eigh_total eigh -> argsort_contract argsort -> lstsq_contract lstsq -> lstsq_total lstsq -> solve_contract solve -> solve_sound solve -> cholesky_contract cholesky -> fminbound_ok fminbound ->
  no_quadric 50 3 (input_at G true) ->
  passes (test_opt_bnd eigh argsort lstsq norm2 det B ch solve cholesky fminbound fm) w \/ fmin_unanswered fm \/
  exists w1 : world G U (nd R), qp_raises B 2 (fun Q A b => Q.[0%nat, 1%nat] = 0 /\ Q.[1%nat, 0%nat] = 0 /\ Q.[1%nat, 1%nat] = 1 / 100 /\ exists z, doc_ineq A b 6 2 z) w1.
Proof.
  intros eigh argsort lstsq norm2 det B ch solve cholesky fminbound fm G U w HE HT HA HL HLT HS HS' HC HF NQ.
  destruct (run_prefix (G := G) (U := U) eigh argsort lstsq norm2 det B ch solve cholesky fminbound fm HE HT HA HL HLT HS HS' HC HF true 1 w NQ ltac:(lia)) as (X0 & f0 & sub & e & Wm & W1 & W2 & lam & w1 & F & ES & SX & Sf & Vf & VX & RO & _).
  change (Z.to_nat 1) with 1%nat in *.
  destruct (map_interval ch sub Wm W1 W2 w1 F) as (avm & Y & EM & Ed & Ek & EY & SY' & LY & RY). destruct (RO avm w1 EM Ed) as (s & Es & TG & EW & ER). subst avm.
  assert (F' : frame (d_subs (av_domain (as_map s))) 3 1 Wm W1 W2) by (now rewrite Ed).
  destruct (av_min_interval B fm s (av_domain (as_map s)) 3 Wm W1 W2 Y w1 TG F' Ek EY SY' LY) as [(ys & fs & EA & SY & IY)|UN]; [|now right; left].
  destruct (mvm_train_returns lstsq (av_domain (as_map s)) 3 1 Wm W1 W2 X0 f0 50 HL HLT F' ltac:(lia) SX Sf ltac:(cbn; lia)) as (v & EV).
  destruct (mvm_one lstsq _ Wm W1 W2 X0 f0 50 v HL F' SX Sf EV) as (Sb & SA & SQ & V01 & V10 & V11).
  destruct (bmvm_runs B (av_domain (as_map s)) 1 Wm W1 W2 v ys (fun Q A b => Q.[0%nat, 1%nat] = 0 /\ Q.[1%nat, 0%nat] = 0 /\ Q.[1%nat, 1%nat] = 1 / 100 /\ exists z, doc_ineq A b 6 2 z) w1 F' SY Sb SA SQ) as [(Z & EZ & SZ)|QR].
  - intros A b HD. split; [exact V01|]. split; [exact V10|]. split; [exact V11|]. destruct (RY _ IY) as (x & Cx & Ex). change (3 - 1)%nat with 2%nat in HD.
    exists (fun j => sumf 3 (fun i => W2.[i, j] * x i)). apply HD. intros i Hi.
    assert (E : xpt W1 W2 1 2 (fun j => ys.[0%nat, j]) (fun j => sumf 3 (fun i => W2.[i, j] * x i)) i = x i); [|rewrite E; auto].
    rewrite (ortho_expand 3 _ (frame_ortho _ _ _ _ _ _ F) x i Hi). unfold xpt. replace (sumf 1 (fun j => W1.[i, j] * ys.[0%nat, j])) with (W1.[i, 0%nat] * sumf 3 (fun i => W1.[i, 0%nat] * x i)) by (rewrite Ex; cbn [sumf]; ring).
    rewrite (sumf_ext 3 (fun i => W1.[i, 0%nat] * x i) (fun i => Wm.[i, 0%nat] * x i)) by (intros; rewrite (fr_e1 _ _ _ _ _ _ F) by lia; reflexivity). rewrite (fr_e1 _ _ _ _ _ _ F) by lia.
    rewrite (sumf_ext 2 _ (fun j => Wm.[i, (1 + j)%nat] * sumf 3 (fun i => Wm.[i, (1 + j)%nat] * x i))).
    2: { intros j Hj. rewrite (fr_e2 _ _ _ _ _ _ F) by lia. f_equal. apply sumf_ext. intros k Hk. now rewrite (fr_e2 _ _ _ _ _ _ F) by lia. }
    cbn [sumf Nat.add]. ring.
  - left. assert (RG : reg_of B solve (av_domain (as_map s)) v ys 1 w1 = (Ok Z, w1)) by (unfold reg_of; rewrite Ek; exact EZ).
    destruct (finish B fm lstsq solve s X0 f0 50 3 1 Wm W1 W2 ys fs v Z w1 F' ltac:(rewrite Ek; discriminate) SX Sf EA SY EV RG SZ) as (xs & EX & _).
    exists w1. unfold test_opt_bnd, opt_test, mbind. rewrite ER, EX. reflexivity.
  - right. right. now exists w1.
Qed.
Print Assumptions C109_bnd.

(** The bounded test with two active variables passes, unless qhull gives no equations, SLSQP
    does not answer for some well-posed problem, or a quadratic program in one variable, with a
    positive coefficient of its square, raises. *)
Theorem C109_bnd_2d : forall eigh argsort lstsq norm2 det B ch solve cholesky fminbound fm (G : gen) (U : Type) (w : world G U (nd R)),
  eigh_contract eigh -> eigh_total eigh -> argsort_contract argsort -> lstsq_contract lstsq -> lstsq_total lstsq -> solve_contract solve -> solve_sound solve -> cholesky_contract cholesky -> fminbound_ok fminbound ->
  no_quadric 50 3 (input_at G true) ->
  passes (test_opt_bnd_2d eigh argsort lstsq norm2 det B ch solve cholesky fminbound fm) w \/
  (exists Y k, shape Y = [k; 2%nat] /\ ~ exists eqs k', ch Y = Ok eqs /\ shape eqs = [k'; 3%nat]) \/ unanswered B 2 "SLSQP" \/
  exists w1 : world G U (nd R), qp_raises B 1 (fun Q _ _ => 0 < Q.[0%nat, 0%nat]) w1.
Proof.
  intros eigh argsort lstsq norm2 det B ch solve cholesky fminbound fm G U w HE HT HA HL HLT HS HS' HC HF NQ.
  destruct (run_prefix (G := G) (U := U) eigh argsort lstsq norm2 det B ch solve cholesky fminbound fm HE HT HA HL HLT HS HS' HC HF true 2 w NQ ltac:(lia)) as (X0 & f0 & sub & e & Wm & W1 & W2 & lam & w1 & F & ES & SX & Sf & Vf & VX & RO & _).
  change (Z.to_nat 2) with 2%nat in *.
  destruct (map_zonotope ch sub Wm W1 W2 w1 F) as (Y & k & SY' & HY).
  destruct (classic (exists eqs k', ch Y = Ok eqs /\ shape eqs = [k'; 3%nat])) as [(eqs & k' & EH & SH)|NH]; [|right; left; eauto]. rewrite EH in HY.
  destruct HY as (avm & w2 & EM & Ed & Ek & EC). destruct (RO avm w2 EM Ed) as (s & Es & TG & EW & ER). subst avm.
  assert (F' : frame (d_subs (av_domain (as_map s))) 3 2 Wm W1 W2) by (now rewrite Ed).
  destruct (av_min_zonotope B fm s (av_domain (as_map s)) 3 2 Wm W1 W2 eqs k' w2 TG EW F' Ek ltac:(lia) SH EC) as [(ys & fs & EA & SY)|UN]; [|now right; right; left].
  destruct (mvm_train_returns lstsq (av_domain (as_map s)) 3 2 Wm W1 W2 X0 f0 50 HL HLT F' ltac:(lia) SX Sf ltac:(cbn; lia)) as (v & EV).
  destruct (mvm_two lstsq _ Wm W1 W2 X0 f0 50 _ v HL F' SX Sf Vf VX NQ EV) as (Sb & SA & SQ & VQ & _).
  destruct (bmvm_runs B (av_domain (as_map s)) 2 Wm W1 W2 v ys (fun Q _ _ => 0 < Q.[0%nat, 0%nat]) w2 F' SY Sb SA SQ) as [(Z & EZ & SZ)|QR].
  - intros A b _. rewrite VQ. destruct (quadratic_pos (fun i => W2.[i, 0%nat])) as [P2 _]. lra.
  - left. assert (RG : reg_of B solve (av_domain (as_map s)) v ys 1 w2 = (Ok Z, w2)) by (unfold reg_of; rewrite Ek; exact EZ).
    destruct (finish B fm lstsq solve s X0 f0 50 3 2 Wm W1 W2 ys fs v Z w2 F' ltac:(rewrite Ek; discriminate) SX Sf EA SY EV RG SZ) as (xs & EX & _).
    exists w2. unfold test_opt_bnd_2d, opt_test, mbind. rewrite ER, EX. reflexivity.
  - right. right. right. now exists w2.
Qed.
Print Assumptions C109_bnd_2d.

(** Solvers that answer: zeros with value 0, and the middle of the interval. *)
Definition zeros_backend : backend := Backend false (fun _ => Err ValueError) (fun p => Ok (MR true (XArr (mk1 (size (mp_x0 p)) (fun _ => 0))) 0)) (fun _ => Err ValueError).
Definition middle (g : R -> res R) (a b : R) : res (R * R * bool) := do v <- g ((a + b) / 2); Ok ((a + b) / 2, v, false).

Lemma zeros_answer : forall n method, ~ unanswered zeros_backend n method.
Proof. intros n method (p & (_ & _ & _ & H0) & _ & NA). apply NA. exists (mk1 n (fun _ => 0)), 0. split; [cbn [sp_minimize zeros_backend]; now rewrite H0|]. split; [reflexivity|]. apply pow_lt. lra. Qed.
Lemma zeros_qp : forall (G : gen) (U : Type) k ok (w : world G U (nd R)), ~ qp_raises zeros_backend k ok w.
Proof.
  intros G U k ok w (c & Q & A & b & e & w' & Sc & SQ & SA & Sb & _ & E).
  destruct (C51_quadratic_program_ineq_posed (G := G) (U := U) (L := nd R) zeros_backend 6 k c Q A b Sc SQ SA Sb) as [(P3 & _ & _ & X0 & _ & _ & R3) _].
  change (qp_init zeros_backend "GUROBI") with "SCIPY"%string in E. rewrite R3 in E. unfold mp_outcome in E. cbn [sp_minimize zeros_backend mr_success mr_x as_array] in E.
  destruct X0 as [X0 _]. assert (SZ : size (mp_x0 P3) = k) by (unfold size; rewrite X0; cbn; lia). rewrite SZ in E.
  destruct (reshape_ok R [k; 1%nat] (mk1 k (fun _ => 0))) as (Z & EZ & _); [unfold size; cbn; lia|]. rewrite EZ in E. discriminate E.
Qed.
Lemma middle_answers : ~ fmin_unanswered middle.
Proof. intros (g & a & b & H & L & NA). destruct (H ((a + b) / 2)) as (v & E). apply NA. exists ((a + b) / 2), v. unfold middle. rewrite E. split; [reflexivity|lra]. Qed.

(** With these, the reference solvers and the generator of C108 (and any hull of equations of the
    right shape), three of the tests pass, and the fourth does unless its matrix is singular. *)
Example C109_case : forall norm2 det ch (w : world table_gen unit (nd R)), (forall Y k, shape Y = [k; 2%nat] -> exists eqs k', ch Y = Ok eqs /\ shape eqs = [k'; 3%nat]) ->
  passes (test_opt_ubnd_2d eigh_ref argsort_ref lstsq_ref norm2 det zeros_backend ch solve_ref cholesky_ref fmin_ref middle) w /\
  passes (test_opt_bnd eigh_ref argsort_ref lstsq_ref norm2 det zeros_backend ch solve_ref cholesky_ref fmin_ref middle) w /\
  passes (test_opt_bnd_2d eigh_ref argsort_ref lstsq_ref norm2 det zeros_backend ch solve_ref cholesky_ref fmin_ref middle) w /\
  (passes (test_opt_ubnd eigh_ref argsort_ref lstsq_ref norm2 det zeros_backend ch solve_ref cholesky_ref fmin_ref middle) w \/
   exists A c ex, shape A = [2%nat; 2%nat] /\ A.[0%nat, 0%nat] = 0 /\ A.[0%nat, 1%nat] = 0 /\ solve_ref A c = Err ex).
Proof.
  intros norm2 det ch w HH.
  assert (T := fun (P : Prop) (f : _ -> _ -> _ -> _ -> _ -> _ -> _ -> _ -> _ -> P) => f eigh_ref_contract eigh_ref_total argsort_ref_contract lstsq_ref_contract lstsq_ref_total solve_ref_contract solve_ref_sound cholesky_ref_contract fmin_ref_ok).
  assert (NQ : forall bnd, no_quadric 50 3 (input_at table_gen bnd)) by (intros bnd; exact (proj2 (proj1 (table_general bnd)))).
  split; [|split; [|split]].
  - destruct (T _ (C109_ubnd_2d eigh_ref argsort_ref lstsq_ref norm2 det zeros_backend ch solve_ref cholesky_ref fmin_ref middle table_gen unit w) (NQ false)) as [[P _]|C]; [exact P|exfalso; exact (zeros_answer _ _ C)].
  - destruct (T _ (C109_bnd eigh_ref argsort_ref lstsq_ref norm2 det zeros_backend ch solve_ref cholesky_ref fmin_ref middle table_gen unit w) (NQ true)) as [P|[C|(w1 & C)]]; [exact P|exfalso; exact (middle_answers C)|exfalso; exact (zeros_qp _ _ _ _ _ C)].
  - destruct (T _ (C109_bnd_2d eigh_ref argsort_ref lstsq_ref norm2 det zeros_backend ch solve_ref cholesky_ref fmin_ref middle table_gen unit w) (NQ true)) as [P|[(Y & k & SY & C)|[C|(w1 & C)]]];
      [exact P|exfalso; exact (C (HH Y k SY))|exfalso; exact (zeros_answer _ _ C)|exfalso; exact (zeros_qp _ _ _ _ _ C)].
  - destruct (T _ (C109_ubnd eigh_ref argsort_ref lstsq_ref norm2 det zeros_backend ch solve_ref cholesky_ref fmin_ref middle table_gen unit w) (NQ false)) as [P|[C|(A & c & ex & SA & _ & A0 & A1 & _ & _ & E)]]; [left; exact P|exfalso; exact (zeros_answer _ _ C)|right; exists A, c, ex; auto].
Qed.
