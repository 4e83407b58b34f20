(** C114: how the unit tests of the surfaces and integrals end over the bounded domain. *)
From Coq Require Import String Reals Lra Lia List Arith ZArith Bool.
From Verif Require Import Properties_QP Prelude Py NumArr LinAlg Lsq Sorting Spectral LPRef M_Misc P_Misc M_SimRunners M_Gradients M_QP M_RespSurf M_Subspaces M_Quadrature M_Domains M_Designs M_ASRS M_Integrals P_Subspaces P_Partition
  P_Quadrature P_PolyTrain P_Rbf SolveRef Cholesky EighRef P_DomWitness Toy Properties_RbfObj Properties_Domains Properties_Samplers Properties_Tests Properties_RespSurf Properties_ASRS M_Tests P_Tests P_Notebooks M_TestsSpace P_TestsDomain M_TestsAS P_TestsSurf P_TestsAS P_TestsAS2 Properties_TestsAS Properties_TestsDomain P_TestsBnd.
Import ListNotations.
Open Scope R_scope.

(** Y: what the columns of A make of points of the cube *)
Definition images (n : nat) (A : nat -> nat -> R) (Y : nd R) : Prop := exists k (x : nat -> nat -> R), shape Y = [k; n] /\
  (forall v i, (v < k)%nat -> (i < 3)%nat -> -1 <= x v i <= 1) /\ forall v j, (v < k)%nat -> (j < n)%nat -> Y.[v, j] = sumf 3 (fun i => x v i * A i j).
(** what a test makes of the call of inverse in it *)
Definition outcome {A : Type} (r : res A) : res unit := match r with Ok _ => Ok tt | Err e => Err e end.
(** r is what comes of inverse for ten points of the open interval that the active variable
    fills over the cube; it is a pass or one of the two errors of the samplers *)
Definition by_inverse {G : gen} {U : Type} (B : backend) (r : res unit) : Prop := exists (A : nat -> R) a P (w1 : world G U (nd R)),
  sumf 3 (fun c => A c * A c) = 1 /\ av_kind a = MBounded /\ shape P = [10; 1]%nat /\ (forall i, (i < 10)%nat -> Rabs (P.[i, 0%nat]) < sumf 3 (fun c => Rabs (A c))) /\
  r = outcome (fst (av_inverse B a P (IsA 10%Z) w1)) /\ (r = Ok tt \/ r = Err ValueError \/ r = Err OverflowError).

(** Two active variables: the six tests build the same vertices, and where the hull raises for
    them all six end in its error.  Otherwise the two that train on data pass. *)
Theorem C114_two_variables : forall eigh argsort lstsq norm2 det B ch solve cholesky fminbound eig (delaunay : nd R -> res (list (list nat) * (nd R -> list Z))) (G : gen) (U : Type) (w : world G U (nd R)),
  eigh_contract eigh -> eigh_total eigh -> argsort_contract argsort -> lstsq_contract lstsq -> lstsq_total lstsq -> solve_contract solve -> solve_sound solve -> cholesky_contract cholesky -> fminbound_ok fminbound ->
  exists A Y, orthonormal 3 2 A /\ images 2 A Y /\
    match ch Y with
    | Err e =>
        fst (test_rs_data_train_gp_bnd_2d eigh argsort lstsq norm2 det ch solve cholesky fminbound w) = Err e /\
        fst (test_rs_data_train_pr_bnd_2d eigh argsort lstsq norm2 det ch solve cholesky fminbound w) = Err e /\
        fst (test_rs_fun_train_gp_bnd_2d eigh argsort lstsq norm2 det B ch solve cholesky fminbound eig w) = Err e /\
        fst (test_rs_fun_train_pr_bnd_2d eigh argsort lstsq norm2 det B ch solve cholesky fminbound eig w) = Err e /\
        fst (test_rs_bnd_2d_int eigh argsort lstsq norm2 det B ch solve cholesky fminbound eig delaunay w) = Err e /\
        fst (test_fun_bnd_2d_int eigh argsort lstsq norm2 det B ch eig delaunay w) = Err e
    | Ok _ =>
        passes (test_rs_data_train_pr_bnd_2d eigh argsort lstsq norm2 det ch solve cholesky fminbound) w /\
        (general G true 50 -> passes (test_rs_data_train_gp_bnd_2d eigh argsort lstsq norm2 det ch solve cholesky fminbound) w)
    end.
Proof.
  intros eigh argsort lstsq norm2 det B ch solve cholesky fminbound eig delaunay G U w HE HT HA HL HLT HS HS' HC HF.
  destruct (start_ok (G := G) (U := U) eigh argsort lstsq norm2 det HE HT HA true 50 (Some 2%Z) w ltac:(lia) ltac:(cbn; lia)) as (X0 & f0 & df0 & w1 & sub & n & e & Wm & W1 & W2 & ED & ES & SX & Sf & VX & F & Ee & Hn & Se & Pe & Hpart).
  assert (n = 2%nat) by lia. subst n. clear Hpart.
  destruct (proj2 (bounded_cases ch sub 3 2 Wm W1 W2 w1 F ltac:(lia)) ltac:(lia)) as (Y & X & k & w2 & SY & SXv & BX & VY & CH).
  exists (fun i j => W1.[i, j]), Y. split; [|split].
  - intros a b Ha Hb. rewrite <- (frame_ortho _ _ _ _ _ _ F a b) by lia. apply sumf_ext. intros i Hi. now rewrite !(fr_e1 _ _ _ _ _ _ F).
  - exists k, (fun v i => X.[v, i]). auto.
  - destruct (ch Y) as [eqs|ex].
    + destruct CH as (d & EB & Ed). assert (EM : map_of ch true sub w1 = (Ok (AVM MBounded d), w2)) by (unfold map_of; rewrite (nb _ _ w1 _ _ EB); reflexivity).
      assert (T : forall surf, (surf = Some pr \/ surf = None /\ general G true 50) -> passes (data_test eigh argsort lstsq norm2 det ch solve cholesky fminbound true 50 (Some 2%Z) surf (normal2 10 3)) w).
      { intros surf Hs. unfold passes, data_test. rewrite (nb _ _ w _ _ ED). cbv beta iota. rewrite (nb _ _ w1 _ _ ES), (nb _ _ w1 _ _ EM), bind_lift. cbn [asrs_init].
        destruct (data_trains solve cholesky fminbound lstsq HL HLT HS HS' HC HF (AVM MBounded d) (match surf with Some s => s | None => RSRbf 2 None end) sub 2 e Wm W1 W2 X0 f0 50 (input_at G true) Ed F Ee Hn Se SX Sf ltac:(lia) VX) as (s' & E' & _ & TG & _).
        { destruct Hs as [->|(-> & SP & NQ)]; [now left|right]. split; [reflexivity|]. split; [exact (Pe SP)|exact NQ]. }
        rewrite bind_lift, E'. destruct (normal2_ev G (U := U) (L := nd R) 10 3 w2) as (XX & EX & SXX & _). rewrite (nb _ _ w2 _ _ EX).
        destruct (TG XX 10%nat SXX) as (FF & D & F' & E1 & _). rewrite bind_lift, E1. eexists. reflexivity. }
      split; [apply T; now left|]. intros Gn. apply T. auto.
    + assert (EM : map_of ch true sub w1 = (Err ex, w2)) by (unfold map_of, mbind; now rewrite CH).
      assert (S : forall A (k : avmap -> Py.M (world G U (nd R)) A), fst (mbind (draw_data true 50) (fun '(_, _, df0) => mbind (subspace_of eigh argsort lstsq norm2 det df0 (Some 2%Z)) (fun sub => mbind (map_of ch true sub) k)) w) = Err ex).
      { intros A k'. rewrite (nb _ _ w _ _ ED). cbv beta iota. rewrite (nb _ _ w1 _ _ ES). unfold mbind. now rewrite EM. }
      unfold test_rs_data_train_gp_bnd_2d, test_rs_data_train_pr_bnd_2d, test_rs_fun_train_gp_bnd_2d, test_rs_fun_train_pr_bnd_2d, test_rs_bnd_2d_int, test_fun_bnd_2d_int, data_test, fun_test, rs_int_test, fun_int_test.
      assert (S' : forall A (k : nd R -> nd R -> avmap -> Py.M (world G U (nd R)) A), fst (mbind (draw_data true 50) (fun '(X, f, df0) => mbind (subspace_of eigh argsort lstsq norm2 det df0 (Some 2%Z)) (fun sub => mbind (map_of ch true sub) (k X f))) w) = Err ex).
      { intros A k'. rewrite (nb _ _ w _ _ ED). cbv beta iota. rewrite (nb _ _ w1 _ _ ES). unfold mbind. now rewrite EM. }
      repeat split; first [apply S'|apply S].
Qed.
Print Assumptions C114_two_variables.

Section One.
  Variables (eigh : nd R -> res (nd R * nd R)) (argsort : list R -> list nat) (lstsq : nd R -> nd R -> res (nd R)) (norm2 det : nd R -> R) (B : backend) (ch : nd R -> res (nd R))
    (solve : nd R -> nd R -> res (nd R)) (cholesky : nd R -> res (nd R)) (fminbound : (R -> res R) -> res R) (eig : nd R -> res (nd R * nd R)) (delaunay : nd R -> res (list (list nat) * (nd R -> list Z))).
  Hypothesis HE : eigh_contract eigh.
  Hypothesis HTo : eigh_total eigh.
  Hypothesis HA : argsort_contract argsort.
  Hypothesis HG : has_gurobi B = false.
  Hypothesis HL : linprog_ok (linprog B).
  Hypothesis HT : linprog_total (linprog B).
  Hypothesis HO : gurobi_ok (gurobi B).

  (** what comes of inverse for points of the interval *)
  Lemma by_inverse_intro : forall (G : gen) (U : Type) sub Wm W1 W2 Y X c h x P (w1 : world G U (nd R)) (r : res unit),
    frame sub 3 1 Wm W1 W2 -> interval_endpoints W1 = Ok (Y, X) ->
    (forall y, Y.[0%nat, 0%nat] <= y <= Y.[1%nat, 0%nat] -> (forall c, (c < 3)%nat -> -1 <= x y c <= 1) /\ y = sumf 3 (fun c => x y c * W1.[c, 0%nat])) ->
    shape P = [10; 1]%nat -> (forall i, (i < 10)%nat -> Y.[0%nat, 0%nat] < P.[i, 0%nat] < Y.[1%nat, 0%nat]) ->
    r = outcome (fst (av_inverse B (AVM MBounded (AVD DBounded sub 3 1 (Some Y) (Some X) c h)) P (IsA 10%Z) w1)) -> by_inverse (G := G) (U := U) B r.
  Proof using HG HL HT HO.
    intros G U sub Wm W1 W2 Y X c h x P w1 r F EI CX SP HP ER. eexists (fun c => W1.[c, 0%nat]), _, P, w1. split; [|split; [|split; [exact SP|split; [|split; [exact ER|]]]]]; [|reflexivity| |].
    - transitivity (sumf 3 (fun i => Wm.[i, 0%nat] * Wm.[i, 0%nat])); [|exact (fr_o _ _ _ _ _ _ F 0%nat 0%nat ltac:(lia) ltac:(lia))]. apply sumf_ext. intros i Hi. now rewrite !(fr_e1 _ _ _ _ _ _ F) by lia.
    - destruct (C23_interval_endpoints W1 3 (fr_s1 _ _ _ _ _ _ F)) as (Y' & X' & EI' & _ & _ & C). rewrite EI in EI'. injection EI' as <- <-. cbv zeta in C. destruct C as (_ & CS & CV & _). rewrite <- CV.
      intros i Hi. assert (Q := HP i Hi). apply Rabs_def1; lra.
    - rewrite ER. assert (Q := inside_ends (G := G) (U := U) B sub Wm W1 W2 F HG HL HT HO Y X c h x CX P 10 w1 ltac:(lia) SP ltac:(intros i Hi; assert (Q := HP i Hi); lra)).
      destruct Q as [(a & ->)|[-> | ->]]; cbn [outcome]; auto.
  Qed.

  (** The integral of quad_fun with one active variable: the test passes exactly when inverse
      finds points above the midpoints of the ten bins. *)
  Theorem C114_integral : forall (G : gen) (U : Type) (w : world G U (nd R)), by_inverse (G := G) (U := U) B (fst (test_fun_bnd_int eigh argsort lstsq norm2 det B ch eig delaunay w)).
  Proof using HE HTo HA HG HL HT HO.
    intros G U w. destruct (start_ok (G := G) (U := U) eigh argsort lstsq norm2 det HE HTo HA true 50 (Some 1%Z) w ltac:(lia) ltac:(cbn; lia)) as (X0 & f0 & df0 & w1 & sub & n & e & Wm & W1 & W2 & ED & ES & _ & _ & _ & F & _ & Hn & _ & _ & Hpart).
    assert (n = 1%nat) by lia. subst n. destruct (interval_map (G := G) (U := U) ch sub Wm W1 W2 F) as (Y & X & c & h & EM & EI & SY & SX & AB & x & CX). cbv zeta in EM.
    destruct (integrate_bnd (G := G) (U := U) argsort B ch eig delaunay sub Wm W1 W2 F HL HO Y X c h EI SY AB w1) as (P & w2 & SP & IN & Q).
    apply (by_inverse_intro G U sub Wm W1 W2 Y X c h x P w2 _ F EI CX SP IN).
    unfold test_fun_bnd_int, fun_int_test. rewrite (nb _ _ w _ _ ED). cbv beta iota. rewrite (nb _ _ w1 _ _ ES), (nb _ _ w1 _ _ (EM w1)).
    destruct (av_inverse B _ P (IsA 10%Z) w2) as [[[Xp ind]|ex] w3]; cbn [fst outcome].
    - destruct Q as (r & w4 & EQ). rewrite (nb _ _ w1 _ _ EQ). reflexivity.
    - unfold mbind. now rewrite Q.
  Qed.

  Hypothesis HQ : lstsq_contract lstsq.
  Hypothesis HLT : lstsq_total lstsq.
  Hypothesis HS : solve_contract solve.
  Hypothesis HS' : solve_sound solve.
  Hypothesis HC : cholesky_contract cholesky.
  Hypothesis HF : fminbound_ok fminbound.

  (** The two tests that train with quad_fun and leave the number n of active variables to the
      gaps.  With one active variable the polynomial test passes exactly when inverse finds
      points above the design, and so does the Gaussian one if the gradients span the space.
      With two they end in the error of the hull if it raises. *)
  Theorem C114_interface : forall (G : gen) (U : Type) (w : world G U (nd R)), exists sub n W1 w1,
    (dom (X0, f0, df0) <- draw_data true 50; subspace_of eigh argsort lstsq norm2 det df0 None) w = (Ok sub, w1) /\ s_W1 sub = Some W1 /\ shape W1 = [3%nat; n] /\ (n = 1 \/ n = 2)%nat /\ orthonormal 3 n (fun i j => W1.[i, j]) /\
    let pr_test := fst (test_rs_fun_train_pr_bnd eigh argsort lstsq norm2 det B ch solve cholesky fminbound eig w) in
    let gp_test := fst (test_rs_fun_train_gp_bnd eigh argsort lstsq norm2 det B ch solve cholesky fminbound eig w) in
    (n = 1%nat -> by_inverse (G := G) (U := U) B pr_test /\ (spanning 50 3 (gradient_at G true 50) -> by_inverse (G := G) (U := U) B gp_test)) /\
    (n = 2%nat -> exists Y, images 2 (fun i j => W1.[i, j]) Y /\ forall e, ch Y = Err e -> pr_test = Err e /\ gp_test = Err e).
  Proof using HE HTo HA HG HL HT HO HQ HLT HS HS' HC HF delaunay.
    intros G U w. destruct (start_ok (G := G) (U := U) eigh argsort lstsq norm2 det HE HTo HA true 50 None w ltac:(lia) Logic.I) as (X0 & f0 & df0 & w1 & sub & n & e & Wm & W1 & W2 & ED & ES & _ & _ & _ & F & Ee & Hn & Se & Pe & _).
    exists sub, n, W1, w1. split; [rewrite (nb _ _ w _ _ ED); exact ES|]. split; [exact (fr_1 _ _ _ _ _ _ F)|]. split; [exact (fr_s1 _ _ _ _ _ _ F)|]. split; [lia|]. split.
    { intros a b Ha Hb. rewrite <- (frame_ortho _ _ _ _ _ _ F a b) by lia. apply sumf_ext. intros i Hi. now rewrite !(fr_e1 _ _ _ _ _ _ F). }
    cbv zeta. split; intros ->.
    - destruct (interval_map (G := G) (U := U) ch sub Wm W1 W2 F) as (Y & X & c & h & EM & EI & SY & SX & AB & x & CX). cbv zeta in EM.
      assert (T : forall surf, (surf = Some pr \/ surf = None /\ spanning 50 3 (gradient_at G true 50)) -> by_inverse (G := G) (U := U) B (fst (fun_test eigh argsort lstsq norm2 det B ch solve cholesky fminbound eig true None surf w))).
      { intros surf Hs. destruct (interface_bnd (G := G) (U := U) argsort lstsq B ch solve cholesky fminbound eig delaunay sub Wm W1 W2 F HL HO Y X c h EI SY SX AB e (match surf with None => RSRbf 2 None | Some r => r end) HQ HLT HS HS' HC HF Ee Se) with (w := w1) as (P & SP & IN & Q).
        { destruct Hs as [->|(-> & SP)]; [now left|right; split; [reflexivity|exact (Pe SP)]]. }
        apply (by_inverse_intro G U sub Wm W1 W2 Y X c h x P w1 _ F EI CX SP IN).
        unfold fun_test. rewrite (nb _ _ w _ _ ED). cbv beta iota. rewrite (nb _ _ w1 _ _ ES), (nb _ _ w1 _ _ (EM w1)), bind_lift. cbn [asrs_init].
        destruct (av_inverse B _ P (IsA 10%Z) w1) as [[[Xp ind]|ex] w3]; cbn [fst outcome].
        - destruct Q as (s' & w4 & EQ & TG). rewrite (nb _ _ w1 _ _ EQ). unfold points. destruct (uniform2_ev G (U := U) (L := nd R) (-1) 1 10 3 w4) as (XX & EX & SXX & _). rewrite (nb _ _ w4 _ _ EX).
          destruct (TG XX 10%nat SXX) as (FF & D & F' & E1 & _). rewrite bind_lift, E1. reflexivity.
        - unfold mbind at 1. now rewrite Q. }
      split; [apply T; now left|]. intros SP. apply T. auto.
    - destruct (proj2 (bounded_cases ch sub 3 2 Wm W1 W2 w1 F ltac:(lia)) ltac:(lia)) as (Y & X & k & w2 & SY & SXv & BX & VY & CH).
      exists Y. split; [exists k, (fun v i => X.[v, i]); auto|]. intros ex EX. rewrite EX in CH.
      assert (EM : map_of ch true sub w1 = (Err ex, w2)) by (unfold map_of, mbind; now rewrite CH).
      unfold test_rs_fun_train_pr_bnd, test_rs_fun_train_gp_bnd, fun_test. split; (rewrite (nb _ _ w _ _ ED); cbv beta iota; rewrite (nb _ _ w1 _ _ ES); unfold mbind; now rewrite EM).
  Qed.
End One.
Print Assumptions C114_integral.
Print Assumptions C114_interface.

(** ** Cases *)
Example C114_case : forall delaunay (w : world table_gen unit (nd R)),
  fst (test_fun_bnd_2d_int eigh_ref argsort_ref lstsq_ref norm2_ref det_ref backend_ref (fun _ => Err (Exc "QhullError")) eigh_ref delaunay w) = Err (Exc "QhullError") /\
  passes (test_rs_data_train_gp_bnd_2d eigh_ref argsort_ref lstsq_ref norm2_ref det_ref (fun Y => Ok Y) solve_ref cholesky_ref fmin_ref) w /\
  by_inverse (G := table_gen) (U := unit) backend_ref (fst (test_fun_bnd_int eigh_ref argsort_ref lstsq_ref norm2_ref det_ref backend_ref (fun Y => Ok Y) eigh_ref delaunay w)).
Proof.
  intros delaunay w.
  assert (T := fun ch => C114_two_variables eigh_ref argsort_ref lstsq_ref norm2_ref det_ref backend_ref ch solve_ref cholesky_ref fmin_ref eigh_ref delaunay table_gen unit w eigh_ref_contract eigh_ref_total argsort_ref_contract lstsq_ref_contract lstsq_ref_total solve_ref_contract solve_ref_sound cholesky_ref_contract fmin_ref_ok).
  split; [|split].
  - destruct (T (fun _ => Err (Exc "QhullError"))) as (A & Y & _ & _ & Q). apply Q.
  - destruct (T (fun Y => Ok Y)) as (A & Y & _ & _ & Q). apply Q, table_general.
  - apply C114_integral; [apply eigh_ref_contract|apply eigh_ref_total|apply argsort_ref_contract|reflexivity|exact linprog_ref_ok|exact linprog_ref_succeeds|intros P l H; discriminate].
Qed.
(** the tests that leave the number of active variables to the gaps, for a hull that fails *)
Example C114_interface_case : forall (w : world table_gen unit (nd R)), let ch := fun _ : nd R => Err (Exc "QhullError") in
  let r := fst (test_rs_fun_train_gp_bnd eigh_ref argsort_ref lstsq_ref norm2_ref det_ref backend_ref ch solve_ref cholesky_ref fmin_ref eigh_ref w) in
  r = Err (Exc "QhullError") \/ by_inverse (G := table_gen) (U := unit) backend_ref r.
Proof.
  intros w ch r. destruct (C114_interface eigh_ref argsort_ref lstsq_ref norm2_ref det_ref backend_ref ch solve_ref cholesky_ref fmin_ref eigh_ref (fun _ => Err ValueError)
    eigh_ref_contract eigh_ref_total argsort_ref_contract eq_refl linprog_ref_ok linprog_ref_succeeds ltac:(intros P l H; discriminate) lstsq_ref_contract lstsq_ref_total solve_ref_contract solve_ref_sound cholesky_ref_contract fmin_ref_ok table_gen unit w)
    as (sub & n & W1 & w1 & _ & _ & _ & [-> | ->] & _ & A & C).
  - right. apply (proj2 (A eq_refl)), table_general.
  - left. destruct (C eq_refl) as (Y & _ & Q). exact (proj2 (Q _ eq_refl)).
Qed.
