(** Lemmas for C108: the tests that evaluate quad_fun over the unbounded domain. *)
From Coq Require Import String Reals Lra Lia List Arith ZArith Bool.
From Verif Require Import Prelude Py NumArr LinAlg Lsq Sorting Spectral M_Misc P_Misc M_SimRunners M_Gradients M_QP M_RespSurf M_Subspaces M_Quadrature M_Domains M_Designs M_ASRS M_Integrals P_Subspaces P_Partition P_SubsState P_SubsLive
  P_Domains P_IndexSet P_Poly P_PolyTrain P_PolyFacts GaussPD P_Rbf SolveRef Cholesky P_Quadrature P_SimRunners P_Tensor P_CondExp P_Inverse P_Integrate Properties_Misc Properties_RespSurf Properties_RbfObj Properties_Domains Properties_Quadrature Properties_ASRS Properties_ASTrain Properties_Integrals Properties_Integrate M_Tests P_Tests P_Notebooks M_TestsSpace P_TestsDomain M_TestsAS P_TestsSurf P_TestsAS.
Import ListNotations.
Open Scope R_scope.

(** quad_fun returns one number for a row of three *)
Lemma quad_fun_ok : forall (U : Type) x (u : U), shape x = [1%nat; 3%nat] -> exists v u', quad_fun x u = (Ok v, u') /\ size v = 1%nat.
Proof.
  intros U x u Hx. unfold quad_fun, reshape. rewrite Hx. destruct (list_eq_dec Nat.eq_dec [3%nat; 1%nat] [1%nat; 3%nat]) as [C|_]; [discriminate C|].
  unfold size. rewrite Hx. cbn [prodn fold_right Nat.mul Nat.add Nat.eqb]. eexists _, _. split; reflexivity.
Qed.

Lemma poised_ext : forall X Y N M m, shape X = [M; m] -> shape Y = [M; m] -> (1 <= m)%nat -> (forall i j, (i < M)%nat -> Y.[i, j] = X.[i, j]) -> poised X N M -> poised Y N M.
Proof.
  intros X Y N M m HX HY Hm E P B L EB. destruct (polynomial_bases_ok X N M m HX Hm) as (L1 & E1 & EX). destruct (polynomial_bases_ok Y N M m HY Hm) as (L2 & E2 & EY). rewrite E1 in E2. injection E2 as <-.
  rewrite EY in EB. injection EB as <- <-. cbn [ncols mk2 shape nth]. intros x H. apply (P _ _ EX). intros i Hi. cbn [ncols mk2 shape nth]. rewrite <- (H i Hi). apply sumf_ext. intros j Hj. rewrite !at_mk2. f_equal. apply prodf_ext. intros k Hk. now rewrite E.
Qed.
Lemma flat_column : forall (V : nd R) K i, shape V = [K; 1%nat] -> (i < K)%nat -> flat V i = V.[i, 0%nat].
Proof. intros V K i S Hi. unfold flat. rewrite S. cbn [unravel prodn fold_right]. now rewrite Nat.div_1_r, Nat.mod_1_r, Nat.div_1_r. Qed.

(** the nodes for 10 points: ten different ones in one variable, a grid of three by three in two *)
Lemma hermite_nodes : forall eig argsort n, eig_contract eig -> eig_total eig -> argsort_contract argsort -> (n = 1 \/ n = 2)%nat ->
  exists NY Y w, roots 10 n = Ok (repeat (if Nat.eqb n 1 then 10%Z else 3%Z) n) /\ gauss_hermite eig argsort (NList (repeat (if Nat.eqb n 1 then 10%Z else 3%Z) n)) = Ok (Y, w) /\
    shape Y = [NY; n] /\ shape w = [NY; 1%nat] /\ (9 <= NY)%nat /\ (forall i j, (i < j < NY)%nat -> exists k, (k < n)%nat /\ Y.[i, k] <> Y.[j, k]) /\ poised Y 2 NY.
Proof.
  intros eig argsort n HE HT HA Hn. set (p := if Nat.eqb n 1 then 10%Z else 3%Z). assert (Hp : (1 <= p <= 10 ^ 24)%Z) by (unfold p; destruct (Nat.eqb n 1); lia).
  assert (Er : iroot 10 n = Ok p). { apply iroot_floor; [lia|lia|]. unfold p. destruct Hn as [->| ->]; cbn; lia. }
  destruct (C31_gauss_hermite_tensor eig argsort (repeat p n) HE HT HA ltac:(apply Forall_forall; intros z Hz; apply repeat_spec in Hz; lia)) as (Y & wt & EG & SY & SW & ND & UQ & _).
  destruct (C29_returns eig argsort p HE HT HA) as (x & w & E1). destruct (C29_gauss_hermite_exact eig argsort p x w HE HA ltac:(lia) ltac:(lia) E1) as [INC _].
  rewrite repeat_length in *. exists (prodn (map Z.to_nat (repeat p n))), Y, wt. split; [now apply roots_repeat|]. split; [exact EG|]. split; [exact SY|]. split; [exact SW|].
  assert (NE : forall i j, (i < Z.to_nat p)%nat -> (j < Z.to_nat p)%nat -> i <> j -> x.[i, 0%nat] <> x.[j, 0%nat]).
  { intros i j Hi Hj Hij. destruct (Nat.lt_ge_cases i j); [assert (A := INC i j ltac:(lia) Hj)|assert (A := INC j i ltac:(lia) Hi)]; lra. }
  destruct Hn as [->| ->]; cbn [Nat.eqb] in p; subst p.
  - assert (V : forall i, (i < 10)%nat -> Y.[i, 0%nat] = x.[i, 0%nat]).
    { intros i Hi. destruct (ND [i] ltac:(constructor; [exact Hi|constructor])) as (_ & A & _). specialize (A 0%nat ltac:(lia)). unfold node1 in A. cbn [repeat nth] in A. rewrite E1 in A. exact A. }
    change (prodn (map Z.to_nat (repeat 10%Z 1))) with 10%nat in *. change (Z.to_nat 10) with 10%nat in NE. split; [lia|]. split.
    + intros i j Hij. exists 0%nat. split; [lia|]. rewrite !V by lia. apply NE; lia.
    + apply poised_2_1; [exact SY|]. exists 0%nat, 1%nat, 2%nat. rewrite !V by lia. repeat split; try lia; apply NE; lia.
  - assert (V : forall i j, (i < 3)%nat -> (j < 3)%nat -> Y.[(i * 3 + j)%nat, 0%nat] = x.[i, 0%nat] /\ Y.[(i * 3 + j)%nat, 1%nat] = x.[j, 0%nat]).
    { intros i j Hi Hj. destruct (ND [i; j] ltac:(constructor; [exact Hi|constructor; [exact Hj|constructor]])) as (_ & A & _). assert (A0 := A 0%nat ltac:(lia)). assert (A1 := A 1%nat ltac:(lia)). unfold node1 in A0, A1. cbn [repeat nth] in A0, A1. rewrite E1 in A0, A1.
      change (horner (map Z.to_nat (repeat 3%Z 2)) [i; j]) with ((0 * 3 + i) * 3 + j)%nat in A0, A1. replace (0 * 3 + i)%nat with i in A0, A1 by lia. auto. }
    change (prodn (map Z.to_nat (repeat 3%Z 2))) with 9%nat in *. change (Z.to_nat 3) with 3%nat in NE. split; [lia|]. split.
    + intros i j Hij. assert (Ei := Nat.div_mod i 3 ltac:(lia)). assert (Ej := Nat.div_mod j 3 ltac:(lia)). assert (Mi := Nat.mod_upper_bound i 3 ltac:(lia)). assert (Mj := Nat.mod_upper_bound j 3 ltac:(lia)).
      set (a := (i / 3)%nat) in *. set (b := (i mod 3)%nat) in *. set (c := (j / 3)%nat) in *. set (d := (j mod 3)%nat) in *.
      destruct (V a b ltac:(lia) Mi) as [P1 P2]. destruct (V c d ltac:(lia) Mj) as [P3 P4]. replace (a * 3 + b)%nat with i in P1, P2 by lia. replace (c * 3 + d)%nat with j in P3, P4 by lia.
      destruct (Nat.eq_dec a c) as [E|N]; [exists 1%nat|exists 0%nat]; (split; [lia|]); [rewrite P2, P4|rewrite P1, P3]; apply NE; lia.
    + apply poised_2_2; [exact SY|]. intros c0 c1 c2 c3 c4 c5 H.
      assert (Q : forall i j, (i < 3)%nat -> (j < 3)%nat -> c0 + c1 * x.[i, 0%nat] + c2 * x.[j, 0%nat] + c3 * x.[i, 0%nat] * x.[i, 0%nat] + c4 * x.[i, 0%nat] * x.[j, 0%nat] + c5 * x.[j, 0%nat] * x.[j, 0%nat] = 0).
      { intros i j Hi Hj. destruct (V i j Hi Hj) as [P1 P2]. rewrite <- P1, <- P2. apply H. lia. }
      assert (N01 := NE 0%nat 1%nat ltac:(lia) ltac:(lia) ltac:(lia)). assert (N02 := NE 0%nat 2%nat ltac:(lia) ltac:(lia) ltac:(lia)). assert (N12 := NE 1%nat 2%nat ltac:(lia) ltac:(lia) ltac:(lia)).
      set (a := x.[0%nat, 0%nat]) in *. set (b := x.[1%nat, 0%nat]) in *. set (d := x.[2%nat, 0%nat]) in *.
      assert (quad0 : forall u v z, u + v * a + z * a * a = 0 -> u + v * b + z * b * b = 0 -> u + v * d + z * d * d = 0 -> u = 0 /\ v = 0 /\ z = 0).
      { intros u v z K1 K2 K3. assert (A1 : v + z * (a + b) = 0) by (apply (Rmult_eq_reg_l (a - b)); [|lra]; nra). assert (A2 : v + z * (a + d) = 0) by (apply (Rmult_eq_reg_l (a - d)); [|lra]; nra).
        assert (Z0 : z = 0) by (apply (Rmult_eq_reg_l (b - d)); [|lra]; nra). subst z. assert (v = 0) by lra. subst v. repeat split; lra. }
      assert (R0 := fun i Hi => quad0 (c0 + c1 * x.[i, 0%nat] + c3 * x.[i, 0%nat] * x.[i, 0%nat]) (c2 + c4 * x.[i, 0%nat]) c5 
         ltac:(etransitivity; [|exact (Q i 0%nat Hi ltac:(lia))]; fold a; ring) ltac:(etransitivity; [|exact (Q i 1%nat Hi ltac:(lia))]; fold b; ring) ltac:(etransitivity; [|exact (Q i 2%nat Hi ltac:(lia))]; fold d; ring)).
      destruct (R0 0%nat ltac:(lia)) as (S1 & S2 & S3). destruct (R0 1%nat ltac:(lia)) as (T1 & T2 & _). destruct (R0 2%nat ltac:(lia)) as (V1 & V2 & _). fold a in S1, S2. fold b in T1, T2. fold d in V1, V2.
      destruct (quad0 c0 c1 c3 S1 T1 V1) as (-> & -> & ->). destruct (quad0 c2 c4 0) as (-> & -> & _); [lra|lra|lra|]. repeat split; lra.
Qed.

Section FunTests.
  Context {G : gen} {U : Type}.
  Notation W := (world G U (nd R)).
  Variables (eigh : nd R -> res (nd R * nd R)) (argsort : list R -> list nat) (lstsq : nd R -> nd R -> res (nd R)) (norm2 det : nd R -> R) (B : backend) (ch : nd R -> res (nd R))
    (solve : nd R -> nd R -> res (nd R)) (cholesky : nd R -> res (nd R)) (fminbound : (R -> res R) -> res R) (eig : nd R -> res (nd R * nd R)) (delaunay : nd R -> res (list (list nat) * (nd R -> list Z))).
  Hypothesis HE : eigh_contract eigh.
  Hypothesis HT : eigh_total eigh.
  Hypothesis HA : argsort_contract argsort.
  Hypothesis HG : eig_contract eig.
  Hypothesis HGT : eig_total eig.

  Lemma map_unbounded : forall sub n Wm W1 W2 (w : W), frame sub 3 n Wm W1 W2 -> map_of ch false sub w = (Ok (AVM MUnbounded (AVD DUnbounded sub 3 n None None None None)), w).
  Proof using. intros sub n Wm W1 W2 w F. unfold map_of. rewrite bind_lift, (unbounded_ok sub 3 n Wm W1 W2 F). reflexivity. Qed.

  (** the start of a test over the unbounded domain *)
  Lemma start_ok : forall bnd K part (w : W), (1 <= K)%nat -> match part with None => True | Some p => (1 <= p < 3)%Z end ->
    exists X0 f0 df0 w1 sub n e Wm W1 W2, draw_data bnd K w = (Ok (X0, f0, df0), w1) /\ subspace_of eigh argsort lstsq norm2 det df0 part w1 = (Ok sub, w1) /\
      shape X0 = [K; 3%nat] /\ shape f0 = [K; 1%nat] /\ (forall i j, (i < K)%nat -> (j < 3)%nat -> X0.[i, j] = input_at G bnd i j) /\
      frame sub 3 n Wm W1 W2 /\ s_eigenvals sub = Some e /\ (1 <= n < 3)%nat /\ shape e = [3%nat; 1%nat] /\ (spanning K 3 (gradient_at G bnd K) -> forall j, (j < 3)%nat -> 0 < e.[j, 0%nat]) /\
      match part with None => True | Some p => Z.of_nat n = p end.
  Proof using HE HT HA.
    intros bnd K part w HK Hp. destruct (draw_data_ok G U bnd K w) as (X0 & f0 & df0 & w1 & ED & SX & Sf & Sd & VX & VD).
    destruct (subspace_of_ok (U := U) eigh argsort lstsq norm2 det HE HT HA K 3 df0 part w1 HK ltac:(lia) Sd Hp) as (sub & n & e & Wm & W1 & W2 & lam & ES & F & Ee & Hn & L & Hpart).
    exists X0, f0, df0, w1, sub, n, e, Wm, W1, W2. repeat (split; [assumption|]). split; [exact (es_e _ _ _ _ _ L)|]. split; [|exact Hpart].
    intros SP. apply (spanning_pos K 3 (ent df0) e Wm lam HK); [|exact L]. intros v H. apply SP. intros i Hi. rewrite <- (H i Hi). apply sumf_ext. intros j Hj. unfold ent. now rewrite VD.
  Qed.

  Section Rule.
    Variables (sub : subspaces) (n : nat) (Wm W1 W2 : nd R).
    Hypothesis F : frame sub 3 n Wm W1 W2.
    Hypothesis Hn : (1 <= n < 3)%nat.
    Let d : avdomain := AVD DUnbounded sub 3 n None None None None.

    Lemma rule_ubnd : exists NY Y wt, shape Y = [NY; n] /\ shape wt = [NY; 1%nat] /\ (9 <= NY)%nat /\ (forall i j, (i < j < NY)%nat -> exists k, (k < n)%nat /\ Y.[i, k] <> Y.[j, k]) /\ poised Y 2 NY /\
      forall w : W, av_quadrature_rule B ch eig argsort delaunay (AVM MUnbounded d) 10 w = (Ok (Y, wt), w) /\
        exists X ind w', av_inverse B (AVM MUnbounded d) Y (IsA 10%Z) w = (Ok (X, ind), w') /\ av_design B ch eig argsort (IsA (AVM MUnbounded d)) (IsA 10%Z) (IsA 10%Z) w = (Ok (Y, X, ind), w').
    Proof using F Hn HG HGT HA.
      destruct (hermite_nodes eig argsort n HG HGT HA ltac:(lia)) as (NY & Y & wt & ER & EG & SY & SW & HN & DI & PO). exists NY, Y, wt. do 5 (split; [assumption|]). intros w. split.
      - unfold av_quadrature_rule. cbn [av_domain d d_subs]. rewrite (fr_1 _ _ _ _ _ _ F). unfold mbind at 1, mlift at 1. cbn [need]. unfold mbind at 1, mlift at 1. unfold shape2. rewrite (fr_s1 _ _ _ _ _ _ F). cbn [d_kind d]. rewrite ER. cbn [rbind]. rewrite EG. reflexivity.
      - destruct (C21_unbounded_inverse G U (nd R) B d 3 n Wm W1 W2 Y NY 10 w F SY) as (X & ind & EI & _). change (Z.of_nat 10) with 10%Z in EI. exists X, ind. eexists. split; [exact EI|].
        unfold av_design. cbn [av_domain d d_subs]. rewrite (fr_1 _ _ _ _ _ _ F). unfold mbind at 1, mlift at 1. cbn [need]. unfold mbind at 1, mlift at 1. unfold shape2. rewrite (fr_s1 _ _ _ _ _ _ F). cbn [d_kind d]. rewrite ER. cbn [rbind].
        unfold gauss_hermite_design. rewrite EG. cbn [rbind]. unfold mbind at 1, mlift at 1. unfold mbind. rewrite EI. reflexivity.
    Qed.

    (** mu, lb and ub exist *)
    Lemma integrate_ubnd : forall w : W, exists r w', integrate B ch eig argsort delaunay (IsA quad_fun) (IsA (AVM MUnbounded d)) (IsA 10%Z) (IsA 10%Z) w = (Ok r, w').
    Proof using F Hn HG HGT HA.
      intros w. destruct rule_ubnd as (NY & Y & wt & SY & SW & HN & _ & _ & R). destruct (R w) as (ER & X & ind & w2 & EI & _).
      assert (EQ : exists Xw, quadrature_rule B ch eig argsort delaunay (IsA (AVM MUnbounded d)) (IsA 10%Z) (IsA (Z.of_nat 10)) w = (Ok (X, Xw, ind), w2)).
      { unfold quadrature_rule. unfold mbind at 1. rewrite ER. unfold mbind at 1. change (Z.of_nat 10) with 10%Z in *. rewrite EI. eexists. reflexivity. }
      destruct EQ as (Xw & EQ).
      destruct (rule_returns _ _ _ _ _ _ _ (AVM MUnbounded d) _ _ _ _ _ _ _ _ _ _ _ _ F (or_introl eq_refl) EQ) as (Yp' & Yw' & w1 & q' & K' & ER' & EK & RU). apply Nat2Z.inj in EK. subst K'.
      rewrite ER in ER'. injection ER' as <- <- <-. assert (q' = NY) by (assert (A := ru_Yw _ _ _ _ _ _ _ _ _ _ _ RU); rewrite SW in A; now injection A). subst q'.
      assert (SXp := ru_Xp _ _ _ _ _ _ _ _ _ _ _ RU).
      assert (RA : forall r, shape (rowarr X r) = [1%nat; 3%nat]) by (intros r; unfold rowarr; cbn [shape mk2]; now rewrite (ncols_shape2 _ _ _ _ SXp)).
      destruct (C05_run_calls_rows_in_order G U quad_fun X _ _ w2 SXp) as (us & _ & [(FF & w3 & EF & SF & _ & VF)|(r & e & w3 & _ & _ & _ & _ & [C|(v & C & SV & _)])]).
      - assert (Q := integrate_run G U B ch eig argsort delaunay quad_fun (AVM MUnbounded d) 10%Z w w2 w3 W1 Y wt X Xw ind 3 n NY 10 FF EQ RU ltac:(lia) ltac:(lia) EF SF). cbv zeta in Q. eexists _, _. exact Q.
      - destruct (quad_fun_ok U (rowarr X r) (us r) (RA r)) as (v & u' & E & _). rewrite E in C. discriminate.
      - destruct (quad_fun_ok U (rowarr X r) (us r) (RA r)) as (v' & u' & E & S'). rewrite E in C. injection C as <- _. contradiction.
    Qed.

    (** the mean of a trained surface exists *)
    Lemma av_integrate_ubnd : forall s (w : W), true_gradient (predict_av s) n -> exists r w', av_integrate B ch eig argsort delaunay (AVSurface s) (IsA (AVM MUnbounded d)) (IsA 10%Z) w = (Ok r, w').
    Proof using F Hn HG HGT HA.
      intros s w TG. destruct rule_ubnd as (NY & Y & wt & SY & SW & HN & _ & _ & R). destruct (R w) as (ER & _).
      destruct (TG Y NY SY) as (A & D & A' & _ & E2 & SA & _ & EA & _). assert (SA' : shape A' = [NY; 1%nat]) by (rewrite <- SA; apply EA).
      unfold av_integrate. rewrite (nb _ _ w _ _ ER). cbv beta iota. rewrite E2. cbn [rbind]. unfold mbind at 1, mlift at 1.
      rewrite (npdot2 (tr wt) A' 1 NY 1); [|unfold tr; now rewrite shape_mk2, (nrows_shape2 _ _ _ _ SW), (ncols_shape2 _ _ _ _ SW)|exact SA']. unfold mbind at 1, mlift at 1. eexists _, _. reflexivity.
    Qed.

    Section Train.
      Variables (e : nd R) (surf : respsurf).
      Hypothesis HL : lstsq_contract lstsq.
      Hypothesis HLT : lstsq_total lstsq.
      Hypothesis HS : solve_contract solve.
      Hypothesis HS' : solve_sound solve.
      Hypothesis HC : cholesky_contract cholesky.
      Hypothesis HF : fminbound_ok fminbound.
      Hypothesis He : s_eigenvals sub = Some e.
      Hypothesis Se : shape e = [3%nat; 1%nat].
      Hypothesis Hs : surf = pr \/ surf = RSRbf 2 None /\ forall j, (j < 3)%nat -> 0 < e.[j, 0%nat].

      Lemma interface_ubnd : forall w : W, exists s' w', train_with_interface solve cholesky fminbound lstsq B ch eig argsort (ASRS surf (AVM MUnbounded d)) (IsA quad_fun) (IsA 10%Z) (IsA 10%Z) w = (Ok s', w') /\ true_gradient (asrs_predict s') 3.
      Proof using F Hn HG HGT HA HL HLT HS HS' HC HF He Se Hs delaunay.
        intros w. destruct rule_ubnd as (NY & Y & wt & SY & SW & HN & DI & PO & R). destruct (R w) as (_ & X & ind & w2 & _ & ED).
        assert (BN : (binom (2 + n) n <= NY)%nat) by (destruct n as [|[|[|k]]]; cbn; lia).
        assert (TR : forall Y' E V, shape Y' = [NY; n] -> (forall i c, (i < NY)%nat -> Y'.[i, c] = Y.[i, c]) -> shape E = [NY; 1%nat] -> shape V = [NY; 1%nat] -> (forall i, (i < NY)%nat -> 0 <= V.[i, 0%nat]) ->
          exists r, rs_train solve cholesky fminbound lstsq surf Y' E (Some V) (s_eigenvals sub) = Ok r /\ true_gradient (rs_predict r) n).
        { intros Y' E V SY' EY SE SV PV. destruct Hs as [->|(-> & Pe)]; unfold rs_train, pr.
          - destruct (C38_training_returns lstsq 2 Y' E None NY n HL HLT SY' SE ltac:(lia) ltac:(lia) Logic.I BN) as (q & Eq). rewrite Eq. cbn [rbind]. eexists. split; [reflexivity|].
            destruct (poly_train_inv lstsq HL 2 Y' E None NY n SY' SE ltac:(lia) ltac:(lia) Logic.I) as (L & EL & _ & Htr & _). exact (proj1 (poly_surface 2 q n ltac:(lia) (trained_shape 2 Y' E None NY n L q ltac:(lia) EL (Htr q Eq)))).
          - destruct (eigs_fine sub n e He Hn Se Pe) as [EO NO].
            destruct (C78_training_returns_partial solve cholesky fminbound 2 Y' E (Some V) (s_eigenvals sub) NY n HS HC HF SY' SE ltac:(lia) BN) as (q & Eq); [| |exact EO| |].
            + apply (poised_ext Y Y' 2 NY n SY SY'); [lia|exact EY|exact PO].
            + unfold size. rewrite SV. cbn. lia.
            + right. split; [|intros i j Hij; destruct (DI i j Hij) as (k & Hk & Nk); exists k; split; [exact Hk|rewrite !EY by lia; exact Nk]].
              intros i Hi. rewrite (flat_column V NY i SV Hi). now apply PV.
            + rewrite Eq. cbn [rbind]. eexists. split; [reflexivity|].
              destruct (rbf_train_inv solve cholesky fminbound 2 Y' E (Some V) _ NY n q HS' SY' SE ltac:(lia) Eq) as (L & l & nu & _ & _ & _ & _ & _ & T). exact (proj1 (rbf_surface 2 q n NY ltac:(lia) (r_shape _ _ _ _ _ _ _ _ T))). }
        destruct (C42_interface_returns G U solve cholesky fminbound lstsq B ch eig argsort (ASRS surf (AVM MUnbounded d)) quad_fun 10%Z 10%Z 3 n Wm W1 W2 0 Y Y w w2 Y X ind F (or_introl (conj eq_refl (conj eq_refl eq_refl))) ED ltac:(lia)) as (s' & w' & ET).
        - rewrite (nrows_shape2 _ Y _ _ SY). lia.
        - intros x u. apply quad_fun_ok.
        - intros Y' E V K SY' EY _ SE SV PV. unfold K in *. rewrite (nrows_shape2 _ Y _ _ SY), Nat.add_0_r in *. destruct (TR Y' E V SY' EY SE SV PV) as (r & Er & _).
          unfold asrs_train. cbn [as_rs as_map av_domain d d_subs]. rewrite Er. eexists. reflexivity.
        - exists s', w'. split; [exact ET|].
          destruct (C42_interface_training G U solve cholesky fminbound lstsq B ch eig argsort (ASRS surf (AVM MUnbounded d)) quad_fun 10%Z 10%Z 3 n Wm W1 W2 0 Y Y w w' s' F (or_introl (conj eq_refl (conj eq_refl eq_refl))) ET)
            as (Yd & Xd & ind' & w1 & NY' & K & ED' & EK & HK & HY & SYd & _ & _ & X' & Y' & f & us & T). cbv zeta in T. destruct T as (_ & _ & _ & SY' & EY & _ & _ & _ & _ & E & V & SE & SV & C1 & _ & EA).
          cbn [as_map] in ED'. rewrite ED in ED'. injection ED' as <- <- <- <-. rewrite SY in SYd. injection SYd as <-. rewrite Nat.add_0_r in *.
          destruct (TR Y' E V SY' EY SE SV) as (r & Er & TG).
          { intros i Hi. rewrite (proj2 (C1 i Hi)). apply Rmult_le_pos; [apply sumf_nonneg; intros; apply Rle_0_sqr|left; apply Rinv_0_lt_compat, lt_0_INR; lia]. }
          unfold asrs_train in EA. cbn [as_rs as_map av_domain d d_subs] in EA. rewrite Er in EA. injection EA as <-.
          exact (proj1 (C41_gradient (ASRS r (AVM MUnbounded d)) 3 n Wm W1 W2 F TG)).
      Qed.
    End Train.
  End Rule.
End FunTests.

(** ** the tests *)
Section Passing.
  Context {G : gen} {U : Type}.
  Notation W := (world G U (nd R)).
  Variables (eigh : nd R -> res (nd R * nd R)) (argsort : list R -> list nat) (lstsq : nd R -> nd R -> res (nd R)) (norm2 det : nd R -> R) (B : backend) (ch : nd R -> res (nd R))
    (solve : nd R -> nd R -> res (nd R)) (cholesky : nd R -> res (nd R)) (fminbound : (R -> res R) -> res R) (eig : nd R -> res (nd R * nd R)) (delaunay : nd R -> res (list (list nat) * (nd R -> list Z))).
  Hypothesis HE : eigh_contract eigh.
  Hypothesis HT : eigh_total eigh.
  Hypothesis HA : argsort_contract argsort.

  Lemma rs_0_ok : forall w : W, exists w', test_rs_0 eigh argsort lstsq norm2 det ch w = (Ok tt, w').
  Proof using HE HT HA.
    intros w. unfold test_rs_0. rewrite seeded. set (w0 := set_rng w (g_seed G 42)).
    destruct (normal2_ev G (U := U) (L := nd R) 10 2 w0) as (df0 & ED & SD & _). rewrite (nb _ _ w0 _ _ ED). set (w1 := set_rng w0 _).
    destruct (subspace_of_ok (U := U) eigh argsort lstsq norm2 det HE HT HA 10 2 df0 None w1 ltac:(lia) ltac:(lia) SD Logic.I) as (sub & n & e & Wm & W1 & W2 & lam & ES & F & _).
    rewrite (nb _ _ w1 _ _ ES). unfold map_of. unfold mbind at 1. rewrite bind_lift, (unbounded_ok sub 2 n Wm W1 W2 F). eexists. reflexivity.
  Qed.

  Hypothesis HG : eig_contract eig.
  Hypothesis HGT : eig_total eig.

  Lemma fun_int_ok : forall part (w : W), (1 <= part < 3)%Z -> exists w', fun_int_test eigh argsort lstsq norm2 det B ch eig delaunay false part w = (Ok tt, w').
  Proof using HE HT HA HG HGT.
    intros part w Hp. destruct (start_ok (U := U) eigh argsort lstsq norm2 det HE HT HA false 50 (Some part) w ltac:(lia) Hp) as (X0 & f0 & df0 & w1 & sub & n & e & Wm & W1 & W2 & ED & ES & _ & _ & _ & F & _ & Hn & _).
    unfold fun_int_test. rewrite (nb _ _ w _ _ ED). cbv beta iota. rewrite (nb _ _ w1 _ _ ES), (nb _ _ w1 _ _ (map_unbounded ch sub n Wm W1 W2 w1 F)).
    destruct (integrate_ubnd argsort B ch eig delaunay HA HG HGT sub n Wm W1 W2 F Hn w1) as (r & w2 & EI). rewrite (nb _ _ w1 _ _ EI). eexists. reflexivity.
  Qed.

  Hypothesis HL : lstsq_contract lstsq.
  Hypothesis HLT : lstsq_total lstsq.
  Hypothesis HS : solve_contract solve.
  Hypothesis HS' : solve_sound solve.
  Hypothesis HC : cholesky_contract cholesky.
  Hypothesis HF : fminbound_ok fminbound.

  Lemma fun_test_ok : forall part surf (w : W), match part with None => True | Some p => (1 <= p < 3)%Z end -> (surf = Some pr \/ surf = None /\ spanning 50 3 (gradient_at G false 50)) ->
    exists w', fun_test eigh argsort lstsq norm2 det B ch solve cholesky fminbound eig false part surf w = (Ok tt, w').
  Proof using HE HT HA HG HGT HL HLT HS HS' HC HF delaunay.
    intros part surf w Hp Hs. destruct (start_ok (U := U) eigh argsort lstsq norm2 det HE HT HA false 50 part w ltac:(lia) Hp) as (X0 & f0 & df0 & w1 & sub & n & e & Wm & W1 & W2 & ED & ES & _ & _ & _ & F & Ee & Hn & Se & Pe & _).
    unfold fun_test. rewrite (nb _ _ w _ _ ED). cbv beta iota. rewrite (nb _ _ w1 _ _ ES), (nb _ _ w1 _ _ (map_unbounded ch sub n Wm W1 W2 w1 F)). rewrite bind_lift. cbn [asrs_init]. 
    destruct (interface_ubnd (G := G) (U := U) argsort lstsq B ch solve cholesky fminbound eig delaunay HA HG HGT sub n Wm W1 W2 F Hn e (match surf with None => RSRbf 2 None | Some r => r end) HL HLT HS HS' HC HF Ee Se) with (w := w1) as (s' & w2 & ET & TG).
    { destruct Hs as [->|(-> & SP)]; [now left|right; split; [reflexivity|exact (Pe SP)]]. }
    rewrite (nb _ _ w1 _ _ ET). unfold points. destruct (normal2_ev G (U := U) (L := nd R) 10 3 w2) as (XX & EX & SX & _). rewrite (nb _ _ w2 _ _ EX).
    destruct (TG XX 10%nat SX) as (FF & D & F' & E1 & _). rewrite bind_lift, E1. eexists. reflexivity.
  Qed.

  Lemma rs_int_ok : forall bnd part (w : W), (bnd = false /\ (1 <= part < 3)%Z \/ bnd = true /\ part = 1%Z) -> spanning 50 3 (gradient_at G bnd 50) -> no_quadric 50 3 (input_at G bnd) ->
    exists w', rs_int_test eigh argsort lstsq norm2 det B ch solve cholesky fminbound eig delaunay bnd part w = (Ok tt, w').
  Proof using HE HT HA HG HGT HL HLT HS HS' HC HF.
    intros bnd part w Hb SP NQ. assert (Hp : (1 <= part < 3)%Z) by (destruct Hb as [(_ & Hp)|(_ & ->)]; [exact Hp|lia]). destruct (start_ok (U := U) eigh argsort lstsq norm2 det HE HT HA bnd 50 (Some part) w ltac:(lia) Hp) as (X0 & f0 & df0 & w1 & sub & n & e & Wm & W1 & W2 & ED & ES & SX & Sf & VX & F & Ee & Hn & Se & Pe & Hpart).
    assert (MAP : exists avm, map_of ch bnd sub w1 = (Ok avm, w1) /\ d_subs (av_domain avm) = sub /\
      forall s, true_gradient (predict_av s) n -> exists r w', av_integrate B ch eig argsort delaunay (AVSurface s) (IsA avm) (IsA 10%Z) w1 = (Ok r, w')).
    { destruct Hb as [(-> & _)|(-> & ->)].
      - eexists. split; [exact (map_unbounded ch sub n Wm W1 W2 w1 F)|]. split; [reflexivity|]. intros s TG. exact (av_integrate_ubnd argsort B ch eig delaunay HA HG HGT sub n Wm W1 W2 F Hn s w1 TG).
      - assert (n = 1%nat) by lia. subst n. assert (H1 := fr_s1 _ _ _ _ _ _ F). assert (E1 := fr_1 _ _ _ _ _ _ F). destruct (C23_interval_endpoints W1 3 H1) as (Y & X & EI & SY & _).
        set (d := AVD DBounded sub 3 1 (Some Y) (Some X) None None).
        assert (EB : exists c h, bounded_domain ch (IsA sub) w1 = (Ok (AVD DBounded sub 3 1 (Some Y) (Some X) c h), w1)).
        { unfold bounded_domain. rewrite E1, bind_lift. unfold shape2. rewrite H1. unfold compute_boundary. cbn [d_subs]. rewrite E1, bind_lift. cbn [need]. rewrite bind_lift. unfold shape2. rewrite H1. cbn [Nat.eqb]. rewrite bind_lift, EI. eexists _, _. reflexivity. }
        destruct EB as (c & h & EB). eexists. split; [unfold map_of; rewrite (nb _ _ w1 _ _ EB); reflexivity|]. split; [reflexivity|]. intros s TG.
        destruct ten_thousand as (NX & EX & HX).
        destruct (C44_interval_rule G U (AVD DBounded sub 3 1 (Some Y) (Some X) c h) 3 W1 Y X 10 NX w1 E1 H1 EI eq_refl ltac:(lia) HX) as (P & Q & ER & SP' & SQ & _). change (Z.of_nat 10) with 10%Z in ER.
        destruct (TG P 10%nat SP') as (A & D & A' & _ & E2 & SA & _ & EA & _). assert (SA' : shape A' = [10%nat; 1%nat]) by (rewrite <- SA; apply EA).
        unfold av_integrate. assert (ER' : exists w2, av_quadrature_rule B ch eig argsort delaunay (AVM MBounded (AVD DBounded sub 3 1 (Some Y) (Some X) c h)) 10 w1 = (Ok (P, Q), w2)).
        { unfold av_quadrature_rule. cbn [av_domain d_subs]. rewrite E1, bind_lift. cbn [need]. rewrite bind_lift. unfold shape2. rewrite H1. cbn [d_kind Nat.eqb]. rewrite EX. eexists. exact ER. }
        destruct ER' as (w2 & ER'). rewrite (nb _ _ w1 _ _ ER'). cbv beta iota. rewrite E2. cbn [rbind]. unfold mbind at 1, mlift at 1.
        rewrite (npdot2 (tr Q) A' 1 10 1); [|unfold tr; now rewrite shape_mk2, (nrows_shape2 _ _ _ _ SQ), (ncols_shape2 _ _ _ _ SQ)|exact SA']. unfold mbind at 1, mlift at 1. eexists _, _. reflexivity. }
    destruct MAP as (avm & EM & Ed & INT).
    unfold rs_int_test. rewrite (nb _ _ w _ _ ED). cbv beta iota. rewrite (nb _ _ w1 _ _ ES), (nb _ _ w1 _ _ EM), bind_lift. cbn [asrs_init].
    destruct (data_trains solve cholesky fminbound lstsq HL HLT HS HS' HC HF avm (RSRbf 2 None) sub n e Wm W1 W2 X0 f0 50 (input_at G bnd) Ed F Ee Hn Se SX Sf ltac:(lia) VX) as (s' & E' & _ & _ & TG); [right; split; [reflexivity|]; split; [exact (Pe SP)|exact NQ]|].
    rewrite bind_lift, E'. destruct (INT s' TG) as (r & w2 & EI). rewrite (nb _ _ w1 _ _ EI). eexists. reflexivity.
  Qed.
End Passing.
