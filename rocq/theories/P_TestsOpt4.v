(** Lemmas for C109: the tests of the optimizers up to the point where the domain is made. *)
From Coq Require Import String Reals Lra Lia List Arith ZArith Bool Classical.
From Verif Require Import Prelude Py NumArr LinAlg Lsq Sorting Spectral M_Misc P_Misc M_SimRunners M_Gradients M_QP M_RespSurf M_Subspaces M_Quadrature M_Domains M_Designs M_ASRS M_Integrals M_Optimizers P_Subspaces P_Partition P_SubsState P_SubsLive
  P_Domains P_DomSample P_IndexSet P_Poly P_PolyTrain P_PolyFacts GaussPD P_Rbf SolveRef Cholesky P_QP P_Multistart P_Optimizers P_ASRS Properties_RespSurf Properties_RbfObj Properties_QP Properties_Domains Properties_Zonotope Properties_ASRS Properties_Optimizers Properties_MinMap Properties_Minimize Properties_Callbacks
  M_Tests P_Tests P_Notebooks M_TestsSpace P_TestsDomain M_TestsAS P_TestsSurf P_TestsAS M_TestsOpt P_TestsOpt P_TestsOpt2 P_TestsOpt3.
Import ListNotations.
Open Scope R_scope.

(** the gradients of the fifty inputs *)
Definition grads (G : gen) (bnd : bool) (i j : nat) : R := sumf 3 (fun k => qA j k * input_at G bnd i k).

Section Run.
  Context {G : gen} {U : Type}.
  Notation W := (world G U (nd R)).
  Variables (eigh : nd R -> res (nd R * nd R)) (argsort : list R -> list nat) (lstsq : nd R -> nd R -> res (nd R)) (norm2 det : nd R -> R) (B : backend) (ch : nd R -> res (nd R))
    (solve : nd R -> nd R -> res (nd R)) (cholesky : nd R -> res (nd R)) (fminbound : (R -> res R) -> res R) (fm : (R -> res R) -> R -> R -> res (R * R * bool)).
  Hypothesis HE : eigh_contract eigh.
  Hypothesis HT : eigh_total eigh.
  Hypothesis HA : argsort_contract argsort.
  Hypothesis HL : lstsq_contract lstsq.
  Hypothesis HLT : lstsq_total lstsq.
  Hypothesis HS : solve_contract solve.
  Hypothesis HS' : solve_sound solve.
  Hypothesis HC : cholesky_contract cholesky.
  Hypothesis HF : fminbound_ok fminbound.

  Lemma gradC_ext : forall M m D D' w, (forall i j, (i < M)%nat -> (j < m)%nat -> D i j = D' i j) -> forall i j, (i < m)%nat -> (j < m)%nat -> gradC M D w i j = gradC M D' w i j.
  Proof. intros M m D D' w H i j Hi Hj. unfold gradC. apply sumf_ext. intros k Hk. now rewrite !H. Qed.

  Lemma run_prefix : forall bnd part (w : W), no_quadric 50 3 (input_at G bnd) -> (1 <= part < 3)%Z ->
    exists X0 f0 sub e Wm W1 W2 lam w1, let n := Z.to_nat part in frame sub 3 n Wm W1 W2 /\ eigsorted 3 (gradC 50 (grads G bnd) (fun _ => / INR 50)) e Wm lam /\ shape X0 = [50%nat; 3%nat] /\ shape f0 = [50%nat; 1%nat] /\
      (forall i, (i < 50)%nat -> f0.[i, 0%nat] = quadratic (fun j => X0.[i, j])) /\ (forall i j, (i < 50)%nat -> (j < 3)%nat -> X0.[i, j] = input_at G bnd i j) /\
      (forall avm w2, map_of ch bnd sub w1 = (Ok avm, w2) -> d_subs (av_domain avm) = sub ->
         exists s, as_map s = avm /\ true_gradient (rs_predict (as_rs s)) n /\ entrywise (rs_predict (as_rs s)) n /\
           opt_run eigh argsort lstsq norm2 det B ch solve cholesky fminbound fm bnd part w = opt_minimize B lstsq solve fm s X0 f0 w2) /\
      (forall e w2, map_of ch bnd sub w1 = (Err e, w2) -> opt_run eigh argsort lstsq norm2 det B ch solve cholesky fminbound fm bnd part w = (Err e, w2)).
  Proof using HE HT HA HL HLT HS HS' HC HF.
    intros bnd part w NQ Hp.
    assert (DX : exists X0 w1, (dom _ <- seed 42; points bnd 50) w = (Ok X0, w1) /\ shape X0 = [50%nat; 3%nat] /\ forall i j, (i < 50)%nat -> (j < 3)%nat -> X0.[i, j] = input_at G bnd i j).
    { destruct (draw_data_ok G U bnd 50 w) as (X0 & f0 & df0 & w1 & ED & SX & _ & _ & VX & _). unfold draw_data in ED. rewrite seeded in ED |- *. unfold mbind at 1 in ED. destruct (points bnd 50 (set_rng w (g_seed G 42))) as [[X|e] w2]; [|discriminate]. exists X, w2. split; [reflexivity|].
      revert ED. unfold mbind. repeat match goal with |- context [match ?t with _ => _ end] => destruct t as [[?|?] ?]; try discriminate end. intros ED. injection ED as <- _ _ _. auto. }
    destruct DX as (X0 & w1 & EX & SX & VX). destruct (fill_ok X0 w1 SX) as (f0 & df0 & EF & Sf & Sd & Vf & Vd).
    destruct (subspace_of_ok (U := U) eigh argsort lstsq norm2 det HE HT HA 50 3 df0 (Some part) w1 ltac:(lia) ltac:(lia) Sd Hp) as (sub & n & e & Wm & W1 & W2 & lam & ES & F & Ee & Hn & L & Hpart).
    assert (En : n = Z.to_nat part) by lia. subst n. set (n := Z.to_nat part) in *.
    exists X0, f0, sub, e, Wm, W1, W2, lam, w1. cbv zeta. split; [exact F|].
    assert (GE : forall i j, (i < 50)%nat -> (j < 3)%nat -> ent df0 i j = grads G bnd i j). { intros i j Hi Hj. unfold ent, grads. rewrite Vd by auto. apply sumf_ext. intros k Hk. now rewrite VX. }
    assert (L' : eigsorted 3 (gradC 50 (grads G bnd) (fun _ => / INR 50)) e Wm lam). { apply (eigsorted_ext 3 (gradC 50 (ent df0) (fun _ => / INR 50))); [|exact L]. intros i j Hi Hj. apply (gradC_ext 50 3); auto. }
    split; [exact L'|]. split; [exact SX|]. split; [exact Sf|]. split; [exact Vf|]. split; [exact VX|].
    assert (PR : opt_run eigh argsort lstsq norm2 det B ch solve cholesky fminbound fm bnd part w = (dom avm <- map_of ch bnd sub; dom s <- mlift (asrs_init (IsA avm) None); dom s <- mlift (train_with_data solve cholesky fminbound lstsq s X0 f0 None); opt_minimize B lstsq solve fm s X0 f0) w1).
    { unfold opt_run. rewrite seeded in EX |- *. rewrite (nb _ _ _ _ _ EX), (nb _ _ w1 _ _ EF). cbv beta iota. rewrite (nb _ _ w1 _ _ ES). reflexivity. }
    split.
    - intros avm w2 EM Ed.
      destruct (data_trains solve cholesky fminbound lstsq HL HLT HS HS' HC HF avm (RSRbf 2 None) sub n e Wm W1 W2 X0 f0 50 (input_at G bnd) Ed F Ee Hn (es_e _ _ _ _ _ L) SX Sf ltac:(lia) VX) as (s & Es & Em & _ & TG).
      { right. split; [reflexivity|]. split; [|exact NQ]. exact (spanning_pos 50 3 (grads G bnd) e Wm lam ltac:(lia) (gradients_span 50 _ NQ) L'). }
      exists s. split; [exact Em|]. split; [exact TG|]. split.
      + clear TG. unfold train_with_data, av_forward in Es. rewrite (process_inputs_ok _ X0 50 3 SX) in Es. cbn [rbind as_map] in Es. rewrite Ed, (fr_1 _ _ _ _ _ _ F), (fr_2 _ _ _ _ _ _ F) in Es. cbn [need rbind] in Es.
        rewrite (npdot2 X0 W1 50 3 n SX (fr_s1 _ _ _ _ _ _ F)), (npdot2 X0 W2 50 3 (3 - n) SX (fr_s2 _ _ _ _ _ _ F)) in Es. cbn [rbind] in Es. unfold asrs_train in Es. cbn [as_rs as_map] in Es. rewrite Ed in Es.
        apply rbind_ok in Es. destruct Es as (r & Er & Es). injection Es as <-. cbn [as_rs]. unfold rs_train in Er. apply rbind_ok in Er. destruct Er as (q & Eq & Er). injection Er as <-.
        destruct (rbf_train_inv solve cholesky fminbound 2 (mk2 50 n (fun r j => sumf 3 (fun i => X0.[r, i] * W1.[i, j]))) f0 None _ 50 n q HS' eq_refl Sf ltac:(lia) Eq) as (LL & l & nu & _ & _ & _ & _ & _ & T). exact (proj2 (rbf_surface 2 q n 50 ltac:(lia) (r_shape _ _ _ _ _ _ _ _ T))).
      + rewrite PR, (nb _ _ w1 _ _ EM), bind_lift. cbn [asrs_init]. rewrite bind_lift, Es. reflexivity.
    - intros ex w2 EM. rewrite PR. unfold mbind at 1. now rewrite EM.
  Qed.

  (** the domains *)
  Lemma map_unbounded : forall sub n Wm W1 W2 (w : W), frame sub 3 n Wm W1 W2 -> exists avm, map_of ch false sub w = (Ok avm, w) /\ d_subs (av_domain avm) = sub /\ d_kind (av_domain avm) = DUnbounded.
  Proof. intros sub n Wm W1 W2 w F. unfold map_of. rewrite bind_lift, (unbounded_ok sub 3 n Wm W1 W2 F). eexists. split; [reflexivity|]. split; reflexivity. Qed.

  Lemma map_interval : forall sub Wm W1 W2 (w : W), frame sub 3 1 Wm W1 W2 -> exists avm Y, map_of ch true sub w = (Ok avm, w) /\ d_subs (av_domain avm) = sub /\ d_kind (av_domain avm) = DBounded /\ d_vertY (av_domain avm) = Some Y /\ shape Y = [2%nat; 1%nat] /\
    Y.[0%nat, 0%nat] <= Y.[1%nat, 0%nat] /\ forall y, Y.[0%nat, 0%nat] <= y <= Y.[1%nat, 0%nat] -> exists x, in_cube 3 x /\ sumf 3 (fun i => W1.[i, 0%nat] * x i) = y.
  Proof.
    intros sub Wm W1 W2 w F. assert (H1 := fr_s1 _ _ _ _ _ _ F). assert (E1 := fr_1 _ _ _ _ _ _ F). destruct (C23_interval_endpoints W1 3 H1) as (Y & X & EI & SY & _ & LY & _ & _ & _ & _ & RY).
    assert (EB : bounded_domain ch (IsA sub) w = (Ok (AVD DBounded sub 3 1 (Some Y) (Some X) None None), w)).
    { unfold bounded_domain. rewrite E1, bind_lift. unfold shape2. rewrite H1. unfold compute_boundary. cbn [d_subs]. rewrite E1, bind_lift. cbn [need]. rewrite bind_lift. unfold shape2. rewrite H1. cbn [Nat.eqb]. rewrite bind_lift, EI. reflexivity. }
    eexists _, Y. unfold map_of. rewrite (nb _ _ w _ _ EB). split; [reflexivity|]. split; [reflexivity|]. split; [reflexivity|]. split; [reflexivity|]. split; [exact SY|]. split; [exact LY|]. intros y Hy. exact (proj1 (RY y) Hy).
  Qed.

  Lemma map_zonotope : forall sub Wm W1 W2 (w : W), frame sub 3 2 Wm W1 W2 -> exists Y k, shape Y = [k; 2%nat] /\
    match ch Y with
    | Err e => exists w', map_of ch true sub w = (Err e, w')
    | Ok eqs => exists avm w', map_of ch true sub w = (Ok avm, w') /\ d_subs (av_domain avm) = sub /\ d_kind (av_domain avm) = DBounded /\ d_cons (av_domain avm) = Some (hull_cons eqs 2)
    end.
  Proof.
    intros sub Wm W1 W2 w F. assert (H1 := fr_s1 _ _ _ _ _ _ F). assert (E1 := fr_1 _ _ _ _ _ _ F).
    destruct (C24_zonotope_vertices_partial G U (nd R) W1 3 2 (Z.to_nat 10000) 100000 w H1 ltac:(lia)) as (Y & X & V & r & EZ & SY & _). exists Y, V. split; [exact SY|].
    assert (EB : bounded_domain ch (IsA sub) w = mbind (mlift (ch Y)) (fun eqs => mret (AVD DBounded sub 3 2 (Some Y) (Some X) (Some eqs) (Some (hull_cons eqs 2)))) (set_rng w (snd (normals ((1 + r) * (Z.to_nat 10000 * 2)) (rng w))))).
    { unfold bounded_domain. rewrite E1, bind_lift. unfold shape2. rewrite H1. unfold compute_boundary. cbn [d_subs]. rewrite E1, bind_lift. cbn [need]. rewrite bind_lift. unfold shape2. rewrite H1. cbn [Nat.eqb].
      rewrite Z2Nat.id in EZ by lia. rewrite (nb _ _ w _ _ EZ). reflexivity. }
    rewrite bind_lift in EB. unfold map_of, mbind. rewrite EB. destruct (ch Y) as [eqs|e]; [|eexists; reflexivity]. eexists _, _. split; [reflexivity|]. split; [reflexivity|]. split; reflexivity.
  Qed.
End Run.
