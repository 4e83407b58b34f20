(** Lemmas for C109: how minimize ends. *)
From Coq Require Import String Reals Lra Lia List Arith ZArith Bool Classical.
From Verif Require Import Prelude Py NumArr LinAlg Lsq Sorting Spectral M_Misc P_Misc M_SimRunners M_Gradients M_QP M_RespSurf M_Subspaces M_Quadrature M_Domains M_Designs M_ASRS M_Integrals M_Optimizers P_Subspaces P_Partition P_SubsState P_SubsLive
  P_Domains P_DomSample P_IndexSet P_Poly P_PolyTrain P_PolyFacts GaussPD P_Rbf SolveRef Cholesky P_QP P_Multistart P_Optimizers P_ASRS Properties_RespSurf Properties_RbfObj Properties_QP Properties_Domains Properties_ASRS Properties_Optimizers Properties_MinMap Properties_Minimize Properties_Callbacks
  M_Tests P_Tests P_Notebooks M_TestsSpace P_TestsDomain M_TestsAS P_TestsSurf P_TestsAS M_TestsOpt P_TestsOpt P_TestsOpt2.
Import ListNotations.
Open Scope R_scope.

(** scipy.optimize.minimize finds a point, an array of n entries, with a value below 1e100 *)
Definition answered (n : nat) (r : res mres) : Prop := exists x v, r = Ok (MR true (XArr x) v) /\ shape x = [n] /\ v < 10 ^ 100.
(** ... or does not, for some well-posed problem *)
Definition unanswered (B : backend) (n : nat) (method : string) : Prop := exists p, well_posed n p /\ mp_method p = method /\ ~ answered n (sp_minimize B p).
(** fminbound raises, gives up or leaves the interval, for some function defined everywhere *)
Definition fmin_unanswered (fm : (R -> res R) -> R -> R -> res (R * R * bool)) : Prop :=
  exists g a b, (forall y, exists v, g y = Ok v) /\ a <= b /\ ~ exists y v, fm g a b = Ok (y, v, false) /\ a <= y <= b.
(** a quadratic program in k variables with six inequalities raises; [ok] says which *)
Definition qp_raises {G : gen} {U : Type} (B : backend) (k : nat) (ok : nd R -> nd R -> nd R -> Prop) (w : world G U (nd R)) : Prop :=
  exists c Q A b e w', shape c = [k; 1%nat] /\ shape Q = [k; k] /\ shape A = [6%nat; k] /\ shape b = [6%nat; 1%nat] /\ ok Q A b /\
    quadratic_program_ineq B (qp_init B "GUROBI") c Q A b w = (Err e, w').

Section Min.
  Context {G : gen} {U : Type}.
  Notation W := (world G U (nd R)).

  Lemma ten_answers : forall n sol msg (w : W), (exists x v, ten n sol msg w = (Ok (XArr x, v), w) /\ shape x = [n]) \/ exists y0, shape y0 = [1%nat; n] /\ ~ answered n (sol y0).
  Proof.
    intros n sol msg w. destruct (ten_run n sol msg w) as [(i & e & _ & (_ & FA) & _)|(H & o & Bt & E)].
    - right. exists (start 1 n (g_seed G 42) i). split; [reflexivity|]. intros (x & v & E & _). destruct FA as [FA|(v' & FA & Fs & _)]; rewrite E in FA; [discriminate|]. injection FA as <-. discriminate Fs.
    - destruct Bt as [[-> Bt]|(j & v & Hj & -> & (Gv & Gs) & Lv & _)].
      + right. exists (start 1 n (g_seed G 42) 0). split; [reflexivity|]. intros (x & v & Ex & _ & Lv). assert (Q := Bt 0%nat _ ltac:(lia) (conj Ex eq_refl)). cbn [mr_fun] in Q. lra.
      + cbn [unpack] in E. destruct (mr_x v) as [x|x] eqn:EX.
        * destruct (list_eq_dec Nat.eq_dec (shape x) [n]) as [Sx|NS]; [left; eexists _, _; split; [exact E|exact Sx]|].
          right. exists (start 1 n (g_seed G 42) j). split; [reflexivity|]. intros (x' & v' & Ex & Sx & _). rewrite Ex in Gv. injection Gv as <-. cbn [mr_x] in EX. injection EX as <-. exact (NS Sx).
        * right. exists (start 1 n (g_seed G 42) j). split; [reflexivity|]. intros (x' & v' & Ex & _). rewrite Ex in Gv. injection Gv as <-. discriminate EX.
  Qed.

  Lemma row_of_ok : forall x n, shape x = [n] -> exists Y, row_of (XArr x) = Ok Y /\ shape Y = [1%nat; n].
  Proof. intros x n Sx. destruct (row1_eq x n Sx) as (Y & E & S). exists Y. split; assumption. Qed.

  Variable B : backend.
  Variable fm : (R -> res R) -> R -> R -> res (R * R * bool).

  Lemma posed : forall s n y0 method c, true_gradient (rs_predict (as_rs s)) n -> entrywise (rs_predict (as_rs s)) n -> shape y0 = [1%nat; n] ->
    c = None \/ (exists eqs k, shape eqs = [k; S n] /\ c = Some (hull_cons eqs n)) -> well_posed n (MP (avfun_of s) y0 method (Some (avdfun_of s)) [] c).
  Proof.
    intros s n y0 method c TG EW S0 HC. split; [|split; [|split]]; cbn [mp_fun mp_jac mp_cons mp_x0].
    - intros y Hy. destruct (callbacks s n TG EW y Hy) as (v & g & F & E & _). eauto.
    - intros y Hy. destruct (callbacks s n TG EW y Hy) as (v & g & F & _ & E & Sg & _ & _ & H). exists g. auto.
    - destruct HC as [->|(eqs & k & SE & ->)]; [exact Logic.I|]. destruct (hull_cons eqs n) as [c jc] eqn:EC. exists k. intros y Hy.
      destruct (hull_cons_posed eqs n k SE y Hy) as (v & J & Q). rewrite EC in Q. exists v, J. exact Q.
    - unfold size. rewrite S0. cbn. lia.
  Qed.

  Lemma av_min_unbounded : forall s d m n Wm W1 W2 (w : W), true_gradient (rs_predict (as_rs s)) n -> entrywise (rs_predict (as_rs s)) n -> frame (d_subs d) m n Wm W1 W2 -> d_kind d = DUnbounded ->
    (exists ys fs, av_minimize B fm (avfun_of s) d (Some (avdfun_of s)) w = (Ok (ys, fs), w) /\ shape ys = [1%nat; n]) \/ unanswered B n "BFGS".
  Proof.
    intros s d m n Wm W1 W2 w TG EW F ED. set (sol := fun y0 => sp_minimize B (MP (avfun_of s) y0 "BFGS" (Some (avdfun_of s)) [] None)).
    assert (EU : unbounded_minimize B (avfun_of s) d (Some (avdfun_of s)) w = ten n sol ("BFGS" ++ " failed with message") w).
    { unfold unbounded_minimize. unfold mbind at 1, mlift at 1. rewrite (fr_1 _ _ _ _ _ _ F). cbn [need]. unfold mbind at 1, mlift at 1, shape2. rewrite (fr_s1 _ _ _ _ _ _ F). reflexivity. }
    destruct (ten_answers n sol ("BFGS" ++ " failed with message") w) as [(x & v & E & Sx)|(y0 & S0 & NA)].
    - left. destruct (row_of_ok x n Sx) as (Y & EY & SY). exists Y, v. split; [|exact SY]. unfold av_minimize. rewrite ED. unfold mbind at 1. rewrite EU, E. cbv beta iota. rewrite bind_lift, EY. reflexivity.
    - right. exists (MP (avfun_of s) y0 "BFGS" (Some (avdfun_of s)) [] None). split; [apply posed; auto|]. split; [reflexivity|exact NA].
  Qed.

  Lemma av_min_zonotope : forall s d m n Wm W1 W2 eqs k (w : W), true_gradient (rs_predict (as_rs s)) n -> entrywise (rs_predict (as_rs s)) n -> frame (d_subs d) m n Wm W1 W2 -> d_kind d = DBounded -> n <> 1%nat ->
    shape eqs = [k; S n] -> d_cons d = Some (hull_cons eqs n) ->
    (exists ys fs, av_minimize B fm (avfun_of s) d (Some (avdfun_of s)) w = (Ok (ys, fs), w) /\ shape ys = [1%nat; n]) \/ unanswered B n "SLSQP".
  Proof.
    intros s d m n Wm W1 W2 eqs k w TG EW F ED NE SE EC. set (sol := fun y0 => sp_minimize B (MP (avfun_of s) y0 "SLSQP" (Some (avdfun_of s)) [] (Some (hull_cons eqs n)))).
    assert (EU : zonotope_minimize B (avfun_of s) d (Some (avdfun_of s)) w = ten n sol "SLSQP failed with message" w).
    { unfold zonotope_minimize. unfold mbind at 1, mlift at 1. rewrite (fr_1 _ _ _ _ _ _ F). cbn [need]. unfold mbind at 1, mlift at 1, shape2. rewrite (fr_s1 _ _ _ _ _ _ F), EC. reflexivity. }
    destruct (ten_answers n sol "SLSQP failed with message" w) as [(x & v & E & Sx)|(y0 & S0 & NA)].
    - left. destruct (row_of_ok x n Sx) as (Y & EY & SY). exists Y, v. split; [|exact SY]. unfold av_minimize. rewrite ED. unfold mbind at 1. rewrite bind_lift, (fr_1 _ _ _ _ _ _ F). cbn [need]. rewrite bind_lift. unfold shape2. rewrite (fr_s1 _ _ _ _ _ _ F).
      destruct (Nat.eqb_spec n 1); [contradiction|]. rewrite EU, E. cbv beta iota. rewrite bind_lift, EY. reflexivity.
    - right. exists (MP (avfun_of s) y0 "SLSQP" (Some (avdfun_of s)) [] (Some (hull_cons eqs n))). split; [apply posed; auto; right; eauto|]. split; [reflexivity|exact NA].
  Qed.

  Lemma av_min_interval : forall s d m Wm W1 W2 V (w : W), true_gradient (rs_predict (as_rs s)) 1 -> frame (d_subs d) m 1 Wm W1 W2 -> d_kind d = DBounded ->
    d_vertY d = Some V -> shape V = [2%nat; 1%nat] -> V.[0%nat, 0%nat] <= V.[1%nat, 0%nat] ->
    (exists ys fs, av_minimize B fm (avfun_of s) d (Some (avdfun_of s)) w = (Ok (ys, fs), w) /\ shape ys = [1%nat; 1%nat] /\ V.[0%nat, 0%nat] <= ys.[0%nat, 0%nat] <= V.[1%nat, 0%nat]) \/ fmin_unanswered fm.
  Proof.
    intros s d m Wm W1 W2 V w TG F ED EV SV LV. set (g := fun y => avfun_of s (ND [] (fun _ => y))).
    assert (DG : forall y, exists v, g y = Ok v).
    { intros y. unfold g, avfun_of. destruct (reshape_ok R [1%nat; size (ND [] (fun _ : list nat => y))] (ND [] (fun _ => y)) eq_refl) as (Y & EY & SY & _). rewrite EY. cbn [rbind]. change (size (ND [] (fun _ : list nat => y))) with 1%nat in SY.
      destruct (TG Y 1%nat SY) as (Fv & D & F' & _ & E2 & SF & _ & EF & _). unfold predict_av. rewrite E2. cbn [rbind]. assert (SF' : shape F' = [1%nat; 1%nat]) by (destruct EF; congruence). unfold get2. rewrite SF'. cbn. eauto. }
    destruct (classic (exists y v, fm g (V.[0%nat, 0%nat]) (V.[1%nat, 0%nat]) = Ok (y, v, false) /\ V.[0%nat, 0%nat] <= y <= V.[1%nat, 0%nat])) as [(y & v & E & LY)|NA].
    - left. destruct (proj1 (C47_interval_minimize fm (avfun_of s) d V 0 EV SV) y v E) as (Y & EI & SY & VY). exists Y, v. rewrite VY. split; [|split; [exact SY|exact LY]].
      unfold av_minimize. rewrite ED. unfold mbind at 1. rewrite bind_lift, (fr_1 _ _ _ _ _ _ F). cbn [need]. rewrite bind_lift. unfold shape2. rewrite (fr_s1 _ _ _ _ _ _ F). cbn [Nat.eqb]. rewrite bind_lift, EI. unfold mret at 1.
      rewrite bind_lift. cbn [row_of]. assert (SZ : size Y = 1%nat) by (unfold size; rewrite SY; reflexivity). rewrite SZ, (reshape_same Y _ SY). reflexivity.
    - right. exists g, (V.[0%nat, 0%nat]), (V.[1%nat, 0%nat]). auto.
  Qed.

  (** ** from the active minimiser to the point *)
  Variable lstsq : nd R -> nd R -> res (nd R).
  Variable solve : nd R -> nd R -> res (nd R).
  Definition reg_of (d : avdomain) (v : mvm) : nd R -> Z -> Py.M W (nd R) := match d_kind d with DUnbounded => umvm_regularize solve d v | _ => bmvm_regularize B d v end.
  Lemma finish : forall s X f K m n Wm W1 W2 ys fs v Z (w : W), let d := av_domain (as_map s) in frame (d_subs d) m n Wm W1 W2 -> d_kind d <> DBase -> shape X = [K; m] -> shape f = [K; 1%nat] ->
    av_minimize B fm (avfun_of s) d (Some (avdfun_of s)) w = (Ok (ys, fs), w) -> shape ys = [1%nat; n] -> mvm_train lstsq d X f = Ok v ->
    reg_of d v ys 1 w = (Ok Z, w) -> shape Z = [1%nat; (m - n)%nat; 1%nat] ->
    exists xs, opt_minimize B lstsq solve fm s X f w = (Ok (xs, fs), w) /\ shape xs = [1%nat; m] /\
      forall i, (i < m)%nat -> xs.[0%nat, i] = sumf n (fun j => W1.[i, j] * ys.[0%nat, j]) + sumf (m - n) (fun j => W2.[i, j] * Z.[0%nat, j, 0%nat]).
  Proof.
    intros s X f K m n Wm W1 W2 ys fs v Z w d F ND SX Sf EA SY ET ER SZ.
    destruct (rotate_inverse (as_map s) m n 1 1 Wm W1 W2 ys Z F SY SZ) as (xs & ind & EX & (Sx & _) & VX).
    exists xs. split; [|split; [exact Sx|intros i Hi; exact (VX 0%nat 0%nat i ltac:(lia) ltac:(lia) Hi)]].
    unfold opt_minimize. rewrite bind_lift, (process_io_eq _ X f K m SX Sf). fold d.
    unfold reg_of in ER. destruct (d_kind d); [| |contradiction]; unfold mbind at 1, mret at 1; rewrite (nb _ _ w _ _ EA); rewrite bind_lift, ET; unfold mbind at 1, av_inverse_with; rewrite bind_lift, (process_inputs_ok _ ys 1 n SY), (nb _ _ w _ _ ER), bind_lift, (fr_W _ _ _ _ _ _ F); cbn [need]; unfold mlift; rewrite EX; reflexivity.
  Qed.

  Lemma umvm_runs : forall d m n Wm W1 W2 v Y NY (w : W), solve_sound solve -> frame (d_subs d) m n Wm W1 W2 -> shape Y = [NY; n] ->
    shape (mv_bz v) = [(m - n)%nat; 1%nat] -> shape (mv_zAy v) = [(m - n)%nat; n] -> shape (mv_zAz v) = [(m - n)%nat; (m - n)%nat] ->
    (forall c, shape c = [(m - n)%nat; 1%nat] -> exists V, solve (mv_zAz v) c = Ok V) ->
    exists Z, umvm_regularize solve d v Y 1 w = (Ok Z, w) /\ shape Z = [NY; (m - n)%nat; 1%nat] /\ forall i l, (i < NY)%nat -> (l < m - n)%nat ->
      sumf (m - n) (fun j => (mv_zAz v).[l, j] * Z.[i, j, 0%nat]) = (mv_bz v).[l, 0%nat] + sumf n (fun j => (mv_zAy v).[l, j] * Y.[i, j]).
  Proof.
    intros d m n Wm W1 W2 v Y NY w HS F SY Sb SA SQ HN. set (k := (m - n)%nat) in *.
    assert (R : exists Z, umvm_regularize solve d v Y 1 w = (Ok Z, w)).
    { unfold umvm_regularize. cbn [Z.eqb Pos.eqb negb]. rewrite bind_lift, (fr_1 _ _ _ _ _ _ F). cbn [need]. rewrite bind_lift. unfold shape2. rewrite (fr_s1 _ _ _ _ _ _ F), bind_lift, (proj2 (Nat.leb_le n m) (fr_le _ _ _ _ _ _ F)). cbn [guard].
      rewrite (nrows_shape2 _ Y _ _ SY). fold k.
      match goal with |- context [mmap ?g (seq 0 NY)] => destruct (mmap_all _ _ _ g (seq 0 NY) w) as (zs & E & EL) end.
      { intros i _. unfold mbind, mlift. destruct (mvm_c_ok v (row1 Y i) k n Sb SA) as (c & Ec & Sc & _); [unfold row1; cbn [shape mk1]; now rewrite (ncols_shape2 _ Y _ _ SY)|].
        rewrite Ec. destruct (HN c Sc) as (V & EV). rewrite EV. now exists V. }
      unfold mbind at 1. rewrite E. rewrite seq_length in EL. destruct (stack_z_ok zs NY k EL) as (Z0 & E0 & _). unfold mlift. rewrite E0. now exists Z0. }
    destruct R as (Z & EZ). exists Z. split; [exact EZ|]. exact (proj2 (umvm_spec solve d m n Wm W1 W2 v Y NY Z w w HS F SY Sb SA SQ EZ)).
  Qed.

  Lemma qp_still : forall m n c Q A b (w w' : W) z, shape c = [n; 1%nat] -> shape Q = [n; n] -> shape A = [m; n] -> shape b = [m; 1%nat] ->
    quadratic_program_ineq B (qp_init B "GUROBI") c Q A b w = (Ok z, w') -> w' = w.
  Proof.
    intros m n c Q A b w w' z Sc SQ SA Sb H.
    assert (K : qp_init B "GUROBI" = "SCIPY"%string \/ qp_init B "GUROBI" = "GUROBI"%string) by (unfold qp_init; destruct (_ && _)%bool; auto).
    destruct (C51_quadratic_program_ineq_posed (G := G) (U := U) (L := nd R) B m n c Q A b Sc SQ SA Sb) as [(P3 & F3 & O3 & _ & _ & _ & R3) (P4 & W4 & F4 & O4 & R4)].
    destruct K as [K|K]; rewrite K in H; [rewrite R3 in H; unfold mp_outcome in H|rewrite R4 in H; unfold gm_outcome in H].
    - destruct (sp_minimize B P3) as [r|e]; [|discriminate]. destruct (mr_success r); [|discriminate]. congruence.
    - destruct (gurobi B P4) as [[l|]|e]; try discriminate. congruence.
  Qed.

  Lemma bmvm_runs : forall d n Wm W1 W2 v Y (ok : nd R -> nd R -> nd R -> Prop) (w : W), frame (d_subs d) 3 n Wm W1 W2 -> shape Y = [1%nat; n] ->
    shape (mv_bz v) = [(3 - n)%nat; 1%nat] -> shape (mv_zAy v) = [(3 - n)%nat; n] -> shape (mv_zAz v) = [(3 - n)%nat; (3 - n)%nat] ->
    (forall A b, (forall x, doc_ineq A b 6 (3 - n) x <-> in_cube 3 (xpt W1 W2 n (3 - n) (fun j => Y.[0%nat, j]) x)) -> ok (mv_zAz v) A b) ->
    (exists Z, bmvm_regularize B d v Y 1 w = (Ok Z, w) /\ shape Z = [1%nat; (3 - n)%nat; 1%nat]) \/ qp_raises B (3 - n) ok w.
  Proof.
    intros d n Wm W1 W2 v Y ok w F SY Sb SA SQ HO. destruct (classic (qp_raises B (3 - n) ok w)) as [Q|NQ]; [now right|left].
    destruct (bmvm_returns B d 3 n Wm W1 W2 v Y 1 w F SY Sb SA) as (Z & EZ).
    { intros i c A b Hi Sc SAi Sbi _ HD. replace i with 0%nat in HD by lia. change (2 * 3)%nat with 6%nat in *.
      destruct (quadratic_program_ineq B (qp_init B "GUROBI") c (mv_zAz v) A b w) as [[z|e] w'] eqn:E.
      - exists z. now rewrite (qp_still 6 (3 - n) c _ A b w w' z Sc SQ SAi Sbi E).
      - exfalso. apply NQ. exists c, (mv_zAz v), A, b, e, w'. auto 10. }
    exists Z. split; [exact EZ|].
    destruct (bmvm_spec B d 3 n Wm W1 W2 v Y 1 Z w w (fun _ _ _ _ => True) F SY Sb SA) as (_ & SZ & _); [|exact EZ|exact SZ].
    intros c A b z wa wb Sc SAi Sbi EQ. split; [exact Logic.I|]. exact (qp_still (2 * 3) (3 - n) c _ A b wa wb z Sc SQ SAi Sbi EQ).
  Qed.
End Min.
