(** Lemmas for C104: the unit tests of the domains. *)
From Coq Require Import String Reals Lra Lia List Arith ZArith Bool.
From Verif Require Import Prelude Py NumArr LinAlg Sorting Spectral M_Misc P_Misc M_SimRunners M_Gradients M_QP M_RespSurf M_Subspaces M_Domains P_Subspaces P_Partition P_SubsState P_SubsLive
  P_Domains P_DomSample Properties_QP Properties_Domains Properties_Samplers Properties_Zonotope M_Tests P_Tests P_Notebooks M_TestsSpace P_QP.
Import ListNotations.
Open Scope R_scope.

Lemma seeded : forall (G : gen) (U B : Type) n (k : unit -> Py.M (world G U (nd R)) B) w, mbind (seed n) k w = k tt (set_rng w (g_seed G n)).
Proof. reflexivity. Qed.

(** ** Computing from gradients alone, without bootstrap *)
Section Compute.
  Context {G : gen} {U : Type}.
  Notation W := (world G U (nd R)).
  Variable eigh : nd R -> res (nd R * nd R).
  Variable argsort : list R -> list nat.
  Variable lstsq : nd R -> nd R -> res (nd R).
  Variable norm2 : nd R -> R.
  Variable det : nd R -> R.
  Hypothesis HE : eigh_contract eigh.
  Hypothesis HT : eigh_total eigh.
  Hypothesis HA : argsort_contract argsort.

  Lemma gradient_frame : forall M m d (w : W) s, (1 <= M)%nat -> (2 <= m)%nat -> shape d = [M; m] ->
    exists sub n e Wm W1 W2 lam, ss_compute eigh argsort lstsq norm2 det None None (Some d) None "AS" "EVG" 0 (w, s) = (Ok tt, (w, sub)) /\
      frame sub m n Wm W1 W2 /\ (1 <= n < m)%nat /\ eigsorted m (gradC M (ent d) (fun _ => / INR M)) e Wm lam /\
      first_max (m - 1) (fun i => Rabs (e.[S i, 0%nat] - e.[i, 0%nat])) (n - 1).
  Proof.
    intros M m d w s HM Hm Hd. set (wt := mk2 M 1 (fun _ _ => / INR M)). assert (Swt : shape wt = [M; 1%nat]) by reflexivity.
    destruct (active_subspace_returns eigh argsort HE M m d wt HT ltac:(lia) Hd Swt) as ((e & V) & EA).
    destruct (active_subspace_spec eigh argsort HE HA M m d wt e V Hd Swt EA) as (lam & L).
    assert (Se := es_e _ _ _ _ _ L). assert (SV := es_V _ _ _ _ _ L).
    destruct (eig_partition_eq m e Se Hm) as (k & ed & EP & _ & _ & K1). assert (Hk : (k < m - 1)%nat) by apply K1.
    assert (EC : exists ws', ss_compute eigh argsort lstsq norm2 det None None (Some d) None "AS" "EVG" 0 (w, s) = ss_partition (IsA (Z.of_nat k + 1)%Z) ws' /\ fst ws' = w /\ s_eigenvecs (snd ws') = Some V).
    { eexists. split.
      - unfold ss_compute. rewrite (process_inputs_eq _ d M m Hd). cbn [rbind]. unfold mlift at 1, mbind at 1. fold wt.
        unfold liftW at 1, ssmethod at 1. cbn [String.eqb Ascii.eqb Bool.eqb fst snd]. unfold mlift at 1. rewrite EA. unfold mbind at 1.
        unfold mbind at 1, getS at 1. cbn [snd fst]. unfold mbind at 1, setS at 1. cbn [snd fst]. cbn [Z.ltb Z.compare String.eqb Ascii.eqb Bool.eqb orb]. unfold mbind at 1. cbn [mret].
        unfold mbind at 1, getS at 1. cbn [snd fst]. unfold mbind at 1, setS at 1. cbn [snd fst s_eigenvals s_eigenvecs s_W1 s_W2].
        unfold mlift at 1, choose_dim. cbn [String.eqb Ascii.eqb Bool.eqb]. rewrite EP. cbn [rbind]. unfold mbind at 1. reflexivity.
      - split; reflexivity. }
    destruct EC as (ws1 & EC & Ef & EV).
    destruct (proj2 (ss_partition_iff (IsA (Z.of_nat k + 1)%Z) ws1)) as (ws' & EQ). { exists (Z.of_nat k + 1)%Z, V. split; [reflexivity|]. split; [exact EV|]. rewrite (nrows_shape2 _ V m m SV). lia. }
    destruct (ss_partition_ok _ _ _ _ EQ) as (n' & V' & A & B & Q1 & Q2 & Q3 & Q4 & Q5 & Q6). injection Q1 as <-. rewrite EV in Q2. injection Q2 as <-.
    destruct (Q6 m SV) as (_ & _ & SA & SB & CA & CB). replace (Z.to_nat (Z.of_nat k + 1)) with (k + 1)%nat in * by lia.
    exists (snd ws'), (k + 1)%nat, e, V, A, B, lam. rewrite EC, EQ, <- Ef, <- Q3. split; [now destruct ws'|]. split.
    { rewrite Q4. constructor; auto; try lia. exact (es_orth _ _ _ _ _ L). }
    split; [lia|]. split; [exact L|]. now replace (k + 1 - 1)%nat with k by lia.
  Qed.

  (** the first lines of the tests *)
  Lemma a_subspace_ok : forall (w : W), let start := set_rng w (g_seed G 42) in
    exists sub n e Wm W1 W2 lam, a_subspace eigh argsort lstsq norm2 det w = (Ok sub, set_rng w (normal_state 30 (g_seed G 42))) /\
      frame sub 3 n Wm W1 W2 /\ (1 <= n < 3)%nat /\
      eigsorted 3 (gradC 10 (fun i j => normal_at (g_seed G 42) (i * 3 + j)) (fun _ => / INR 10)) e Wm lam /\
      first_max 2 (fun i => Rabs (e.[S i, 0%nat] - e.[i, 0%nat])) (n - 1) /\
      bases sub (set_rng w (normal_state 30 (g_seed G 42))) = (Ok (W1, W2, 3%nat, n), set_rng w (normal_state 30 (g_seed G 42))).
  Proof.
    intros w start. destruct (normal2_ev G (U := U) (L := nd R) 10 3 start) as (df & E & S & V).
    destruct (gradient_frame 10 3 df (set_rng start (normal_state 30 (rng start))) subs_new ltac:(lia) ltac:(lia) S) as (sub & n & e & Wm & W1 & W2 & lam & EC & F & Hn & L & FM).
    exists sub, n, e, Wm, W1, W2, lam. split; [|split; [exact F|split; [exact Hn|split; [|split; [exact FM|]]]]].
    - unfold a_subspace. rewrite seeded. fold start. rewrite (nb _ _ start _ _ E). unfold on_new. change (10 * 3)%nat with 30%nat. rewrite EC. reflexivity.
    - eapply eigsorted_ext; [|exact L]. intros i k Hi Hk. unfold gradC. apply sumf_ext. intros r Hr. unfold ent. rewrite !V by auto. reflexivity.
    - unfold bases. rewrite !bind_lift. rewrite (fr_1 _ _ _ _ _ _ F), (fr_2 _ _ _ _ _ _ F). cbn [need]. rewrite !bind_lift. unfold shape2. rewrite (fr_s1 _ _ _ _ _ _ F). reflexivity.
  Qed.
End Compute.

(** ** The two comparisons of the tests of the maps *)
Section Maps.
  Context {G : gen} {U : Type}.
  Notation W := (world G U (nd R)).

  Lemma rebuilds_ok : forall a m n Wm W1 W2 X M (w : W), frame (d_subs (av_domain a)) m n Wm W1 W2 -> shape X = [M; m] -> rebuilds a X W1 W2 w = (Ok tt, w).
  Proof.
    intros a m n Wm W1 W2 X M w F SX. destruct (C21_forward a m n Wm W1 W2 X M F SX) as (Y & Z & E & SY & SZ & _ & _ & V & _).
    assert (H1 := fr_s1 _ _ _ _ _ _ F). assert (H2 := fr_s2 _ _ _ _ _ _ F).
    unfold rebuilds. rewrite bind_lift, E.
    assert (T1 : shape (tr W1) = [n; m]) by (unfold tr; cbn [shape mk2]; now rewrite (nrows_shape2 _ W1 _ _ H1), (ncols_shape2 _ W1 _ _ H1)).
    assert (T2 : shape (tr W2) = [(m - n)%nat; m]) by (unfold tr; cbn [shape mk2]; now rewrite (nrows_shape2 _ W2 _ _ H2), (ncols_shape2 _ W2 _ _ H2)).
    rewrite bind_lift, (npdot2 Y (tr W1) M n m SY T1), bind_lift, (npdot2 Z (tr W2) M (m - n) m SZ T2), bind_lift.
    destruct (bcast2_same _ _ _ Rplus (mk2 M m (fun i j => sumf n (fun l => Y.[i, l] * (tr W1).[l, j]))) (mk2 M m (fun i j => sumf (m - n) (fun l => Z.[i, l] * (tr W2).[l, j]))) M m eq_refl eq_refl) as (X0 & E0 & S0 & V0).
    rewrite E0. unfold mlift. rewrite (almost_same 7 X0 X M m S0 SX); [reflexivity|]. intros i j Hi Hj. rewrite V0, !at_mk2 by auto. rewrite (V i j Hi Hj). reflexivity.
  Qed.

  Lemma inverts_ok : forall B a m n Wm W1 W2 X NY (w : W), frame (d_subs (av_domain a)) m n Wm W1 W2 -> (1 <= n)%nat -> shape X = [NY; m] ->
    exists Y, shape Y = [NY; n] /\ (forall r j, (r < NY)%nat -> (j < n)%nat -> Y.[r, j] = sumf m (fun i => X.[r, i] * W1.[i, j])) /\
    (forall e w', av_inverse B a Y (IsA 10%Z) w = (Err e, w') -> inverts B a X W1 w = (Err e, w')) /\
    (forall X0 ind Z w', av_inverse B a Y (IsA 10%Z) w = (Ok (X0, ind), w') -> inverse_of a m n NY 10 Y Z X0 ind -> inverts B a X W1 w = (Ok X0, w')).
  Proof.
    intros B a m n Wm W1 W2 X NY w F Hn SX. destruct (C21_forward a m n Wm W1 W2 X NY F SX) as (Y & Z & E & SY & SZ & VY & _).
    assert (H1 := fr_s1 _ _ _ _ _ _ F). exists Y. split; auto. split; auto. split.
    - intros e w' EI. unfold inverts. rewrite bind_lift, E. unfold mbind at 1. now rewrite EI.
    - intros X0 ind Z0 w' EI (S0 & _ & _ & Y' & Z' & EF & V' & _). unfold inverts. rewrite bind_lift, E, (nb _ _ w _ _ EI), bind_lift, (npdot2 X0 W1 (10 * NY) m n S0 H1).
      destruct (C21_forward a m n Wm W1 W2 X0 (10 * NY) F S0) as (Y2 & Z2 & E2 & S2 & _ & V2 & _). rewrite EF in E2. apply Ok_eq in E2. injection E2 as <- <-.
      assert (NR : nrows Y = NY) by exact (nrows_shape2 _ Y _ _ SY). assert (NC : ncols Y = n) by exact (ncols_shape2 _ Y _ _ SY).
      rewrite bind_assert; [reflexivity|]. apply (almost_same 7 _ _ (10 * NY) n); [reflexivity| |].
      + unfold kron. cbn [shape mk2]. rewrite NR, NC. change (nrows (ones2 10 1)) with 10%nat. change (ncols (ones2 10 1)) with 1%nat. rewrite Nat.mul_1_r, (Nat.mul_comm NY). reflexivity.
      + intros r j Hr Hj. rewrite at_mk2. rewrite <- (V2 r j Hr Hj).
        assert (D := Nat.div_mod r 10 ltac:(lia)). assert (D1 : (r mod 10 < 10)%nat) by (apply Nat.mod_upper_bound; lia). assert (D2 : (r / 10 < NY)%nat) by (apply Nat.div_lt_upper_bound; lia).
        replace r with (r / 10 * 10 + r mod 10)%nat at 1 by lia. rewrite V' by auto. unfold kron. rewrite at_mk2. change (nrows (ones2 10 1)) with 10%nat. change (ncols (ones2 10 1)) with 1%nat.
        rewrite Nat.div_1_r. change (Y.[(r / 10)%nat, j] = Y.[(r / 10)%nat, j] * 1). ring.
  Qed.

  Lemma unbounded_ok : forall sub m n Wm W1 W2, frame sub m n Wm W1 W2 -> unbounded_domain (IsA sub) = Ok (AVD DUnbounded sub m n None None None None).
  Proof. intros sub m n Wm W1 W2 F. unfold unbounded_domain. rewrite (fr_1 _ _ _ _ _ _ F). unfold shape2. rewrite (fr_s1 _ _ _ _ _ _ F). reflexivity. Qed.

  Lemma bounded_cases : forall ch sub m n Wm W1 W2 (w : W), frame sub m n Wm W1 W2 -> (1 <= m)%nat ->
    (n = 1%nat -> exists d, bounded_domain ch (IsA sub) w = (Ok d, w) /\ d_subs d = sub) /\
    (n <> 1%nat -> exists Y X k w', shape Y = [k; n] /\ shape X = [k; m] /\ (forall v i, (v < k)%nat -> (i < m)%nat -> -1 <= X.[v, i] <= 1) /\
       (forall v j, (v < k)%nat -> (j < n)%nat -> Y.[v, j] = sumf m (fun i => X.[v, i] * W1.[i, j])) /\
       match ch Y with
       | Ok eqs => exists d, bounded_domain ch (IsA sub) w = (Ok d, w') /\ d_subs d = sub
       | Err e => bounded_domain ch (IsA sub) w = (Err e, w')
       end).
  Proof.
    intros ch sub m n Wm W1 W2 w F Hm. assert (H1 := fr_s1 _ _ _ _ _ _ F). assert (E1 := fr_1 _ _ _ _ _ _ F). split.
    - intros ->. unfold bounded_domain. rewrite E1, bind_lift. unfold shape2. rewrite H1. unfold compute_boundary. cbn [d_subs]. rewrite E1, bind_lift. cbn [need]. rewrite bind_lift. unfold shape2. rewrite H1. cbn [Nat.eqb].
      destruct (C23_interval_endpoints W1 m H1) as (Y & X & EI & _). rewrite bind_lift, EI. eexists. split; reflexivity.
    - intros Hn. destruct (C24_zonotope_vertices_partial G U (nd R) W1 m n (Z.to_nat 10000) 100000 w H1 Hm) as (Y & X & V & r & EZ & SY & SX & VY & VX & _).
      eexists Y, X, V, _. split; [exact SY|]. split; [exact SX|]. split; [|split; [exact VY|]].
      { intros v i Hv Hi. destruct (VX v Hv) as (q & sg & _ & _ & Q). rewrite Q by auto. apply np_sign_cube. }
      assert (EB : bounded_domain ch (IsA sub) w = mbind (mlift (ch Y)) (fun eqs => mret (AVD DBounded sub m n (Some Y) (Some X) (Some eqs) (Some (hull_cons eqs n)))) (set_rng w (snd (normals ((1 + r) * (Z.to_nat 10000 * n)) (rng w))))).
      { unfold bounded_domain. rewrite E1, bind_lift. unfold shape2. rewrite H1. unfold compute_boundary. cbn [d_subs]. rewrite E1, bind_lift. cbn [need]. rewrite bind_lift. unfold shape2. rewrite H1.
        destruct (Nat.eqb_spec n 1); [contradiction|]. rewrite Z2Nat.id in EZ by lia. rewrite (nb _ _ w _ _ EZ). reflexivity. }
      rewrite bind_lift in EB. destruct (ch Y) as [eqs|e]; [|exact EB]. eexists. split; [exact EB|reflexivity].
  Qed.
End Maps.

(** ** The samplers *)
Section Samplers.
  Context {G : gen} {U L : Type}.
  Notation W := (world G U L).

  (** the point with active variables y and inactive ones z *)
  Lemma point_active : forall sb m n Wm W1 W2 (y z : nat -> R) j, frame sb m n Wm W1 W2 -> (j < n)%nat ->
    sumf m (fun c => (sumf n (fun a => W1.[c, a] * y a) + sumf (m - n) (fun a => W2.[c, a] * z a)) * W1.[c, j]) = y j.
  Proof.
    intros sb m n Wm W1 W2 y z j F Hj. assert (Hn := fr_le _ _ _ _ _ _ F).
    set (v := fun e => if Nat.ltb e n then y e else z (e - n)%nat).
    assert (XV : forall c, (c < m)%nat -> sumf n (fun a => W1.[c, a] * y a) + sumf (m - n) (fun a => W2.[c, a] * z a) = sumf m (fun e => Wm.[c, e] * v e)).
    { intros c Hc. rewrite (frame_sum _ _ _ _ _ _ c v F Hc). unfold v. f_equal; apply sumf_ext; intros e He.
      - destruct (Nat.ltb_spec e n); [reflexivity|lia].
      - destruct (Nat.ltb_spec (n + e) n); [lia|]. now replace (n + e - n)%nat with e by lia. }
    rewrite (sumf_ext m _ (fun c => sumf m (fun e => v e * (Wm.[c, e] * Wm.[c, j])))).
    2: { intros c Hc. rewrite XV by auto. rewrite (fr_e1 _ _ _ _ _ _ F) by auto. rewrite <- sumf_scal_r. apply sumf_ext. intros; ring. }
    rewrite sumf_swap. rewrite (sumf_ext m _ (fun e => v e * kron_delta e j)).
    2: { intros e He. rewrite sumf_scal_l. f_equal. apply (frame_ortho _ _ _ _ _ _ F); auto. lia. }
    rewrite sumf_kd_r by lia. unfold v. destruct (Nat.ltb_spec j n); [reflexivity|lia].
  Qed.

  Lemma random_walk_returns : forall B sb m n Nn Wm W1 W2 y (w : W), frame sb m n Wm W1 W2 -> shape y = [n] -> has_gurobi B = false -> linprog_ok (linprog B) -> linprog_total (linprog B) ->
    (exists z, inpoly W2 m (m - n) (shift W1 y n) z) ->
    exists Z w', random_walk_z B (Z.of_nat Nn) y W1 W2 w = (Ok Z, w').
  Proof.
    intros B sb m n Nn Wm W1 W2 y w F Hy HG HL HT (zin & Hin). assert (H1 := fr_s1 _ _ _ _ _ _ F). assert (H2 := fr_s2 _ _ _ _ _ _ F). set (k := (m - n)%nat) in *.
    destruct (shift_of_ok W1 y m n H1 Hy) as (s & Es & Ss & Vs).
    assert (ST : exists z0, (if (all2 (mk2 m 1 (fun i _ => Rleb 0 (1 - s.[i, 0%nat]))) && all2 (mk2 m 1 (fun i _ => Rleb (-1 - s.[i, 0%nat]) 0)))%bool
       then mret (zeros2 k 1)
       else dom y' <- mlift (reshape [n; 1%nat] y);
            dom x0 <- linear_program_eq B (qp_init B "GUROBI") (zeros2 m 1) (tr W1) y' (mk2 m 1 (fun _ _ => -1)) (ones2 m 1);
            dom z <- mlift (npdot (tr W2) x0); mlift (reshape [k; 1%nat] z)) w = (Ok z0, w) /\ shape z0 = [k; 1%nat]).
    { destruct (_ && _)%bool; [eexists; split; reflexivity|].
      destruct (flat_col y n Hy) as (y' & Ey & Sy & Vy). rewrite bind_lift, Ey.
      assert (ST1 : shape (tr W1) = [n; m]) by (unfold tr; cbn [shape mk2]; now rewrite (nrows_shape2 _ W1 _ _ H1), (ncols_shape2 _ W1 _ _ H1)).
      assert (ST2 : shape (tr W2) = [k; m]) by (unfold tr; cbn [shape mk2]; now rewrite (nrows_shape2 _ W2 _ _ H2), (ncols_shape2 _ W2 _ _ H2)).
      assert (QI : qp_init B "GUROBI" = "SCIPY"%string). { apply (proj1 (proj2 (C51_solver_names B "GUROBI"))). now right. }
      destruct (C51_linear_program_eq_posed (G := G) (U := U) (L := L) B n m (zeros2 m 1) (tr W1) y' (mk2 m 1 (fun _ _ => -1)) (ones2 m 1) eq_refl ST1 Sy eq_refl eq_refl) as [(P & PW & PF & PO & PR) _].
      destruct (HT P m 0 PW) as (x & Ex).
      { exists (fun c => shift W1 y n c + sumf k (fun a => W2.[c, a] * zin a)). apply PF. split.
        - intros j Hj. rewrite Vy by auto. rewrite <- (point_active _ _ _ _ _ _ (fun a => y.[a]) zin j F Hj). apply sumf_ext. intros c Hc. change ((tr W1).[j, c]) with (W1.[c, j]). unfold shift, k. ring.
        - intros j Hj. rewrite at_mk2. change ((ones2 m 1).[j, 0%nat]) with 1. apply Hin. exact Hj. }
      { intros x Hx. rewrite PO. unfold lin_obj. right. symmetry. apply sumf_zero. intros j Hj. unfold zeros2. rewrite at_mk2. ring. }
      destruct (HL P m x PW Ex) as (Sx & _). destruct (flat_col x m Sx) as (xc & Exc & Sxc & _).
      assert (E : linear_program_eq B (qp_init B "GUROBI") (zeros2 m 1) (tr W1) y' (mk2 m 1 (fun _ _ => -1)) (ones2 m 1) w = (Ok xc, w)) by (rewrite QI, PR; unfold lp_outcome; now rewrite Ex, Exc).
      rewrite (nb _ _ w _ _ E), bind_lift, (npdot2 (tr W2) xc k m 1 ST2 Sxc). unfold mlift.
      change [k; 1%nat] with (shape (mk2 k 1 (fun i j => sumf m (fun l => (tr W2).[i, l] * xc.[l, j])))) at 1. rewrite reshape_id. eexists. split; reflexivity. }
    destruct ST as (z0 & E0 & S0).
    unfold random_walk_z. rewrite bind_lift. unfold shape2. rewrite H1. cbv zeta. fold k. rewrite bind_lift, Es. rewrite (nb _ _ w _ _ E0).
    rewrite bind_lift, (npdot2 W2 z0 m k 1 H2 S0), bind_lift.
    destruct (bcast2_same _ _ _ Rplus (mk2 m 1 (fun i j => sumf k (fun l => W2.[i, l] * z0.[l, j]))) s m 1 eq_refl Ss) as (ws & Ew & Sw & Vw). rewrite Ew. set (sig := / 10 * _). clearbody sig.
    assert (BURN : forall l z (w1 : W), shape z = [k; 1%nat] -> exists z1 w2, mfold (fun z (_ : nat) => rw_step W2 s sig z) z l w1 = (Ok z1, w2) /\ shape z1 = [k; 1%nat]).
    { induction l as [|a l IH]; intros z w1 Sz; cbn [mfold]; [exists z, w1; auto|]. destruct (rw_step_ok m k W2 s sig z w1 H2 Ss Sz) as (z1 & w2 & E & S1 & _). rewrite (nb _ _ w1 _ _ E). auto. }
    assert (WALK : forall q z (w1 : W), shape z = [k; 1%nat] -> exists l w2, rw_walk W2 s sig z q w1 = (Ok l, w2)).
    { induction q as [|q IH]; intros z w1 Sz; cbn [rw_walk]; [exists [], w1; auto|]. destruct (rw_step_ok m k W2 s sig z w1 H2 Ss Sz) as (z1 & w2 & E & S1 & _). rewrite (nb _ _ w1 _ _ E).
      destruct (IH z1 w2 S1) as (l & w3 & E3). rewrite (nb _ _ w2 _ _ E3). eexists _, _. reflexivity. }
    destruct (BURN (seq 0 (Z.to_nat (10 * Z.of_nat Nn))) z0 w S0) as (z1 & w1 & E1 & S1). rewrite (nb _ _ w _ _ E1).
    rewrite bind_lift. unfold dimZ. destruct (Z.ltb_spec (Z.of_nat Nn) 0); [lia|]. rewrite Nat2Z.id.
    destruct (WALK Nn z1 w1 S1) as (l & w2 & E2). rewrite (nb _ _ w1 _ _ E2). unfold mlift.
    destruct (reshape_ok R [Nn; k] (mk2 k Nn (fun i j => (nth j l z1).[i, 0%nat]))) as (Z' & EZ & _); [unfold size; cbn [shape mk2 prodn]; lia|]. rewrite EZ. eauto.
  Qed.
End Samplers.
