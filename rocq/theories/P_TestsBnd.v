(** Lemmas for C114: the tests that sample over the bounded domain with one active variable. *)
From Coq Require Import String Reals Lra Lia List Arith ZArith Bool.
From Verif Require Import Properties_QP Prelude Py NumArr LinAlg Lsq Sorting Spectral M_Misc P_Misc M_SimRunners M_Gradients M_QP M_RespSurf M_Subspaces M_Quadrature M_Domains M_Designs M_ASRS M_Integrals P_Subspaces P_Partition P_SubsState P_SubsLive
  P_Domains P_IndexSet P_Poly P_PolyTrain P_PolyFacts GaussPD P_Rbf SolveRef Cholesky P_Quadrature P_SimRunners P_Tensor P_CondExp P_Inverse P_Integrate Properties_Misc Properties_RespSurf Properties_RbfObj Properties_Domains Properties_Designs Properties_Quadrature Properties_ASRS Properties_ASTrain Properties_Integrals Properties_Integrate M_Tests P_Tests P_Notebooks M_TestsSpace P_TestsDomain M_TestsAS P_TestsSurf P_TestsAS P_TestsAS2 Properties_TestsDomain.
Import ListNotations.
Open Scope R_scope.

Section Interval.
  Context {G : gen} {U : Type}.
  Notation W := (world G U (nd R)).
  Variables (argsort : list R -> list nat) (lstsq : nd R -> nd R -> res (nd R)) (B : backend) (ch : nd R -> res (nd R))
    (solve : nd R -> nd R -> res (nd R)) (cholesky : nd R -> res (nd R)) (fminbound : (R -> res R) -> res R) (eig : nd R -> res (nd R * nd R)) (delaunay : nd R -> res (list (list nat) * (nd R -> list Z))).
  Variables (sub : subspaces) (Wm W1 W2 : nd R).
  Hypothesis F : frame sub 3 1 Wm W1 W2.

  (** the domain, its ends and the points of the cube above a value between them *)
  Lemma interval_map : exists Y X c h, let d := AVD DBounded sub 3 1 (Some Y) (Some X) c h in (forall w : W, map_of ch true sub w = (Ok (AVM MBounded d), w)) /\
    interval_endpoints W1 = Ok (Y, X) /\ shape Y = [2%nat; 1%nat] /\ shape X = [2%nat; 3%nat] /\ Y.[0%nat, 0%nat] < Y.[1%nat, 0%nat] /\
    exists x : R -> nat -> R, forall y, Y.[0%nat, 0%nat] <= y <= Y.[1%nat, 0%nat] -> (forall c, (c < 3)%nat -> -1 <= x y c <= 1) /\ y = sumf 3 (fun c => x y c * W1.[c, 0%nat]).
  Proof using F.
    assert (H1 := fr_s1 _ _ _ _ _ _ F). assert (E1 := fr_1 _ _ _ _ _ _ F). destruct (C23_interval_endpoints W1 3 H1) as (Y & X & EI & SY & SX & C). cbv zeta in C. destruct C as (_ & CS & CV & CM & CX & _).
    exists Y, X. set (b := Y.[1%nat, 0%nat]) in *.
    assert (Hb : 0 < b).
    { assert (O := fr_o _ _ _ _ _ _ F 0%nat 0%nat ltac:(lia) ltac:(lia)). cbn [Nat.eqb] in O. rewrite CV.
      rewrite (sumf_ext 3 _ (fun i => W1.[i, 0%nat] * W1.[i, 0%nat])) in O by (intros i Hi; now rewrite !(fr_e1 _ _ _ _ _ _ F) by lia).
      cbn [sumf] in *. assert (A0 := Rabs_pos (W1.[0%nat, 0%nat])). assert (A1 := Rabs_pos (W1.[1%nat, 0%nat])). assert (A2 := Rabs_pos (W1.[2%nat, 0%nat])).
      destruct (Req_dec (W1.[0%nat, 0%nat]) 0) as [Z0|N0]; [|assert (P := Rabs_pos_lt _ N0); lra]. destruct (Req_dec (W1.[1%nat, 0%nat]) 0) as [Z1|N1]; [|assert (P := Rabs_pos_lt _ N1); lra].
      destruct (Req_dec (W1.[2%nat, 0%nat]) 0) as [Z2|N2]; [|assert (P := Rabs_pos_lt _ N2); lra]. rewrite Z0, Z1, Z2 in O. lra. }
    assert (EB : exists c h, forall w : W, map_of ch true sub w = (Ok (AVM MBounded (AVD DBounded sub 3 1 (Some Y) (Some X) c h)), w)).
    { eexists _, _. intros w. unfold map_of, bounded_domain. unfold mbind at 1. rewrite E1, bind_lift. unfold shape2. rewrite H1. unfold compute_boundary. cbn [d_subs]. rewrite E1, bind_lift. cbn [need]. rewrite bind_lift. unfold shape2. rewrite H1. cbn [Nat.eqb]. rewrite bind_lift, EI. reflexivity. }
    destruct EB as (c & h & EB). exists c, h. cbv zeta. split; [exact EB|]. split; [exact EI|]. split; [exact SY|]. split; [exact SX|]. split; [lra|].
    exists (fun y i => y / b * X.[1%nat, i]). intros y Hy. split.
    - intros i Hi. assert (T : -1 <= y / b <= 1). { assert (Q : y = y / b * b) by (field; lra). split; (apply Rmult_le_reg_r with b; [exact Hb|lra]). }
      destruct (CX 1%nat i ltac:(lia) Hi) as [->|[->|(-> & _)]]; lra.
    - rewrite (sumf_ext 3 _ (fun i => y / b * (X.[1%nat, i] * W1.[i, 0%nat]))) by (intros; ring). rewrite sumf_scal_l. rewrite (CM 1%nat ltac:(lia)). fold b. field. lra.
  Qed.

  Hypothesis HG : has_gurobi B = false.
  Hypothesis HL : linprog_ok (linprog B).
  Hypothesis HT : linprog_total (linprog B).
  Hypothesis HO : gurobi_ok (gurobi B).

  Section Domain.
    Variables (Y X : nd R) (c : option (nd R)) (h : option ((nd R -> res (nd R)) * (nd R -> res (nd R)))).
    Let d := AVD DBounded sub 3 1 (Some Y) (Some X) c h.
    Hypothesis EI : interval_endpoints W1 = Ok (Y, X).
    Hypothesis SY : shape Y = [2%nat; 1%nat].
    Hypothesis SX : shape X = [2%nat; 3%nat].
    Hypothesis AB : Y.[0%nat, 0%nat] < Y.[1%nat, 0%nat].
    Variable x : R -> nat -> R.
    Hypothesis CX : forall y, Y.[0%nat, 0%nat] <= y <= Y.[1%nat, 0%nat] -> (forall c, (c < 3)%nat -> -1 <= x y c <= 1) /\ y = sumf 3 (fun c => x y c * W1.[c, 0%nat]).

    (** points of the interval: inverse returns, or raises one of the two errors *)
    Lemma inside_ends : forall P NY (w : W), (1 <= NY)%nat -> shape P = [NY; 1%nat] -> (forall i, (i < NY)%nat -> Y.[0%nat, 0%nat] <= P.[i, 0%nat] <= Y.[1%nat, 0%nat]) ->
      ends_well (fst (av_inverse B (AVM MBounded d) P (IsA 10%Z) w)).
    Proof using F HG HL HT HO CX.
      intros P NY w HN SP HP. apply (inverse_ends B HG HL HT HO G U d 3 1 NY Wm W1 W2 P (fun i => x (P.[i, 0%nat])) w F ltac:(lia) HN SP).
      - intros i j Hi Hj. replace j with 0%nat by lia. exact (proj2 (CX _ (HP i Hi))).
      - intros i k Hi Hk. exact (proj1 (CX _ (HP i Hi)) k Hk).
    Qed.

    (** mu, lb and ub exist when inverse returns *)
    Lemma integrate_bnd : forall w : W, exists P w1, shape P = [10%nat; 1%nat] /\ (forall i, (i < 10)%nat -> Y.[0%nat, 0%nat] < P.[i, 0%nat] < Y.[1%nat, 0%nat]) /\
      match av_inverse B (AVM MBounded d) P (IsA 10%Z) w1 with
      | (Ok _, _) => exists r w', integrate B ch eig argsort delaunay (IsA quad_fun) (IsA (AVM MBounded d)) (IsA 10%Z) (IsA 10%Z) w = (Ok r, w')
      | (Err e, w2) => integrate B ch eig argsort delaunay (IsA quad_fun) (IsA (AVM MBounded d)) (IsA 10%Z) (IsA 10%Z) w = (Err e, w2)
      end.
    Proof using F HL HO EI SY AB.
      intros w. assert (H1 := fr_s1 _ _ _ _ _ _ F). assert (E1 := fr_1 _ _ _ _ _ _ F). destruct ten_thousand as (NX & EX & HX).
      destruct (C44_interval_rule G U d 3 W1 Y X 10 NX w E1 H1 EI eq_refl ltac:(lia) HX) as (P & Q & ER & SP & SQ & _ & _ & _ & VP & _). change (Z.of_nat 10) with 10%Z in ER. set (w1 := set_rng w _) in ER.
      assert (ER' : av_quadrature_rule B ch eig argsort delaunay (AVM MBounded d) 10 w = (Ok (P, Q), w1)).
      { unfold av_quadrature_rule. cbn [av_domain d d_subs]. rewrite E1, bind_lift. cbn [need]. rewrite bind_lift. unfold shape2. rewrite H1. cbn [d_kind Nat.eqb]. rewrite EX. exact ER. }
      exists P, w1. split; [exact SP|]. split.
      { intros i Hi. rewrite (VP i Hi). set (a := Y.[0%nat, 0%nat]) in *. set (b := Y.[1%nat, 0%nat]) in *. cbv beta. rewrite (S_INR i). assert (I0 := pos_INR i). assert (I9 : INR i <= 9) by (replace 9 with (INR 9) by (cbn; lra); apply le_INR; lia). replace (INR 10) with 10 by (cbn; lra).
        assert (P0 : 0 <= INR i * (b - a)) by (apply Rmult_le_pos; lra). assert (P9 : INR i * (b - a) <= 9 * (b - a)) by (apply Rmult_le_compat_r; lra). lra. }
      destruct (av_inverse B (AVM MBounded d) P (IsA 10%Z) w1) as [[[Xp ind]|e] w2] eqn:EV.
      - assert (EQ : exists Xw, quadrature_rule B ch eig argsort delaunay (IsA (AVM MBounded d)) (IsA 10%Z) (IsA (Z.of_nat 10)) w = (Ok (Xp, Xw, ind), w2)).
        { unfold quadrature_rule. unfold mbind at 1. rewrite ER'. unfold mbind at 1. change (Z.of_nat 10) with 10%Z in *. rewrite EV. eexists. reflexivity. }
        destruct EQ as (Xw & EQ).
        destruct (rule_returns _ _ _ _ _ _ _ (AVM MBounded d) _ _ _ _ _ _ _ _ _ _ _ _ F (or_intror (conj eq_refl (conj HL HO))) EQ) as (Yp' & Yw' & w1' & q' & K' & ER2 & EK & RU). apply Nat2Z.inj in EK. subst K'.
        rewrite ER' in ER2. injection ER2 as <- <- <-. assert (q' = 10%nat) by (assert (A := ru_Yw _ _ _ _ _ _ _ _ _ _ _ RU); rewrite SQ in A; now injection A). subst q'.
        assert (SXp := ru_Xp _ _ _ _ _ _ _ _ _ _ _ RU).
        assert (RA : forall r, shape (rowarr Xp r) = [1%nat; 3%nat]) by (intros r; unfold rowarr; cbn [shape mk2]; now rewrite (ncols_shape2 _ _ _ _ SXp)).
        destruct (C05_run_calls_rows_in_order G U quad_fun Xp _ _ w2 SXp) as (us & _ & [(FF & w3 & EF & SF & _ & VF)|(r & e & w3 & _ & _ & _ & _ & [C|(v & C & SV & _)])]).
        + assert (Q' := integrate_run G U B ch eig argsort delaunay quad_fun (AVM MBounded d) 10%Z w w2 w3 W1 P Q Xp Xw ind 3 1 10 10 FF EQ RU ltac:(lia) ltac:(lia) EF SF). cbv zeta in Q'. eexists _, _. exact Q'.
        + destruct (quad_fun_ok U (rowarr Xp r) (us r) (RA r)) as (v & u' & E & _). rewrite E in C. discriminate.
        + destruct (quad_fun_ok U (rowarr Xp r) (us r) (RA r)) as (v' & u' & E & S'). rewrite E in C. injection C as <- _. contradiction.
      - unfold integrate. unfold mbind at 1. unfold quadrature_rule. unfold mbind at 1. rewrite ER'. unfold mbind at 1. now rewrite EV.
    Qed.

    Section Train.
      Variables (e : nd R) (surf : respsurf).
      Hypothesis HQ : lstsq_contract lstsq.
      Hypothesis HLT : lstsq_total lstsq.
      Hypothesis HS : solve_contract solve.
      Hypothesis HS' : solve_sound solve.
      Hypothesis HC : cholesky_contract cholesky.
      Hypothesis HF : fminbound_ok fminbound.
      Hypothesis He : s_eigenvals sub = Some e.
      Hypothesis Se : shape e = [3%nat; 1%nat].
      Hypothesis Hs : surf = pr \/ surf = RSRbf 2 None /\ forall j, (j < 3)%nat -> 0 < e.[j, 0%nat].

      Lemma interface_bnd : forall w : W, exists P, shape P = [10%nat; 1%nat] /\ (forall i, (i < 10)%nat -> Y.[0%nat, 0%nat] < P.[i, 0%nat] < Y.[1%nat, 0%nat]) /\
        match av_inverse B (AVM MBounded d) P (IsA 10%Z) w with
        | (Ok _, _) => exists s' w', train_with_interface solve cholesky fminbound lstsq B ch eig argsort (ASRS surf (AVM MBounded d)) (IsA quad_fun) (IsA 10%Z) (IsA 10%Z) w = (Ok s', w') /\ true_gradient (asrs_predict s') 3
        | (Err ex, w2) => train_with_interface solve cholesky fminbound lstsq B ch eig argsort (ASRS surf (AVM MBounded d)) (IsA quad_fun) (IsA 10%Z) (IsA 10%Z) w = (Err ex, w2)
        end.
      Proof using F HL HO EI SY SX AB HQ HLT HS HS' HC HF He Se Hs delaunay.
        intros w. assert (H1 := fr_s1 _ _ _ _ _ _ F). assert (E1 := fr_1 _ _ _ _ _ _ F).
        destruct (C33_interval_design _ _ 10 AB) as (P & EP & SP & _ & IN & INC & _). change (Z.of_nat 10) with 10%Z in EP. exists P. split; [exact SP|]. split; [exact IN|].
        assert (ED : av_design B ch eig argsort (IsA (AVM MBounded d)) (IsA 10%Z) (IsA 10%Z) w = mbind (av_inverse B (AVM MBounded d) P (IsA 10%Z)) (fun '(X, ind) => mret (P, X, ind)) w).
        { unfold av_design. cbn [av_domain d d_subs]. rewrite E1. unfold mbind at 1, mlift at 1. cbn [need]. unfold mbind at 1, mlift at 1. unfold shape2. rewrite H1. change (d_kind d) with DBounded. change (d_vertY d) with (Some Y). cbn [Nat.eqb need]. unfold mbind, mlift. cbv beta iota.
          assert (G0 : get2 Y 0 0 = Ok (Y.[0%nat, 0%nat])) by (unfold get2; rewrite SY; reflexivity). assert (G1 : get2 Y 1 0 = Ok (Y.[1%nat, 0%nat])) by (unfold get2; rewrite SY; reflexivity). rewrite G0, G1. cbn [rbind]. rewrite EP. reflexivity. }
        assert (TR : forall Y' E V, shape Y' = [12%nat; 1%nat] -> (forall i c, (i < 10)%nat -> Y'.[i, c] = P.[i, c]) -> (forall j c, (j < 2)%nat -> Y'.[(10 + j)%nat, c] = Y.[j, c]) -> shape E = [12%nat; 1%nat] -> shape V = [12%nat; 1%nat] -> (forall i, (i < 12)%nat -> 0 <= V.[i, 0%nat]) ->
          exists r, rs_train solve cholesky fminbound lstsq surf Y' E (Some V) (s_eigenvals sub) = Ok r /\ true_gradient (rs_predict r) 1).
        { intros Y' E V SY' EY EY2 SE SV PV.
          assert (NE : forall i j, (i < j < 12)%nat -> Y'.[i, 0%nat] <> Y'.[j, 0%nat]).
          { intros i j Hij. destruct (Nat.lt_ge_cases j 10) as [Hj|Hj].
            - rewrite !EY by lia. assert (Q := INC i j ltac:(lia)). lra.
            - replace j with (10 + (j - 10))%nat by lia. rewrite EY2 by lia. destruct (Nat.lt_ge_cases i 10) as [Hi|Hi].
              + rewrite EY by lia. assert (Q := IN i Hi). assert (j = 10 \/ j = 11)%nat as [-> | ->] by lia; cbn [Nat.sub]; lra.
              + assert (i = 10 /\ j = 11)%nat as [-> ->] by lia. change 10%nat with (10 + 0)%nat at 1. rewrite EY2 by lia. cbn [Nat.sub]. lra. }
          destruct Hs as [->|(-> & Pe)]; unfold rs_train, pr.
          - destruct (C38_training_returns lstsq 2 Y' E None 12 1 HQ HLT SY' SE ltac:(lia) ltac:(lia) Logic.I ltac:(cbn; lia)) as (q & Eq). rewrite Eq. cbn [rbind]. eexists. split; [reflexivity|].
            destruct (poly_train_inv lstsq HQ 2 Y' E None 12 1 SY' SE ltac:(lia) ltac:(lia) Logic.I) as (L & EL & _ & Htr & _). exact (proj1 (poly_surface 2 q 1 ltac:(lia) (trained_shape 2 Y' E None 12 1 L q ltac:(lia) EL (Htr q Eq)))).
          - destruct (eigs_fine sub 1 e He ltac:(lia) Se Pe) as [EO NO].
            destruct (C78_training_returns_partial solve cholesky fminbound 2 Y' E (Some V) (s_eigenvals sub) 12 1 HS HC HF SY' SE ltac:(lia) ltac:(cbn; lia)) as (q & Eq); [| |exact EO| |].
            + apply poised_2_1; [exact SY'|]. exists 0%nat, 1%nat, 2%nat. repeat split; try lia; apply NE; lia.
            + unfold size. rewrite SV. cbn. lia.
            + right. split; [|intros i j Hij; exists 0%nat; split; [lia|now apply NE]].
              intros i Hi. rewrite (flat_column V 12 i SV Hi). now apply PV.
            + rewrite Eq. cbn [rbind]. eexists. split; [reflexivity|].
              destruct (rbf_train_inv solve cholesky fminbound 2 Y' E (Some V) _ 12 1 q HS' SY' SE ltac:(lia) Eq) as (L & l & nu & _ & _ & _ & _ & _ & T). exact (proj1 (rbf_surface 2 q 1 12 ltac:(lia) (r_shape _ _ _ _ _ _ _ _ T))). }
        assert (MT : matched B (AVM MBounded d) 3 1 2 X Y) by (right; split; [reflexivity|]; split; [reflexivity|]; split; [exact HL|]; split; [exact HO|]; repeat split; assumption).
        destruct (av_inverse B (AVM MBounded d) P (IsA 10%Z) w) as [[[Xd ind]|ex] w2] eqn:EV; unfold mbind in ED; rewrite EV in ED.
        - cbn [mret] in ED. destruct (C42_interface_returns G U solve cholesky fminbound lstsq B ch eig argsort (ASRS surf (AVM MBounded d)) quad_fun 10%Z 10%Z 3 1 Wm W1 W2 2 X Y w w2 P Xd ind F MT ED ltac:(lia)) as (s' & w' & ET).
          + rewrite (nrows_shape2 _ P _ _ SP). lia.
          + intros z u. apply quad_fun_ok.
          + intros Y' E V K SY' EY EY2 SE SV PV. unfold K in *. rewrite (nrows_shape2 _ P _ _ SP) in *. destruct (TR Y' E V SY' EY EY2 SE SV PV) as (r & Er & _).
            unfold asrs_train. cbn [as_rs as_map av_domain d d_subs]. rewrite Er. eexists. reflexivity.
          + exists s', w'. split; [exact ET|].
            destruct (C42_interface_training G U solve cholesky fminbound lstsq B ch eig argsort (ASRS surf (AVM MBounded d)) quad_fun 10%Z 10%Z 3 1 Wm W1 W2 2 X Y w w' s' F MT ET)
              as (Yd & Xd' & ind' & w1 & NY' & K & ED' & EK & HK & HY & SYd & _ & _ & X' & Y' & f & us & T). cbv zeta in T. destruct T as (_ & _ & _ & SY' & EY & EY2 & _ & _ & _ & E & V & SE & SV & C1 & C2 & EA).
            cbn [as_map] in ED'. rewrite ED in ED'. injection ED' as <- <- <- <-. rewrite SP in SYd. injection SYd as <-.
            destruct (TR Y' E V SY' EY EY2 SE SV) as (r & Er & TG).
            { intros i Hi. destruct (Nat.lt_ge_cases i 10) as [L|L].
              - rewrite (proj2 (C1 i L)). apply Rmult_le_pos; [apply sumf_nonneg; intros; apply Rle_0_sqr|left; apply Rinv_0_lt_compat, lt_0_INR; lia].
              - replace i with (10 + (i - 10))%nat by lia. rewrite (proj2 (C2 (i - 10)%nat ltac:(lia))). lra. }
            unfold asrs_train in EA. cbn [as_rs as_map av_domain d d_subs] in EA. rewrite Er in EA. injection EA as <-.
            exact (proj1 (C41_gradient (ASRS r (AVM MBounded d)) 3 1 Wm W1 W2 F TG)).
        - unfold train_with_interface. cbn [as_map]. unfold mbind at 1. now rewrite ED.
      Qed.
    End Train.
  End Domain.
End Interval.
