(** C104: the unit tests of the domains (tests/test_domains.py). *)
From Coq Require Import String Reals Lra Lia List Arith ZArith Bool Sorted.
From Verif Require Import Prelude Py NumArr LinAlg Sorting Spectral Det EighRef Lsq LPRef Toy M_Misc P_Misc M_SimRunners M_Gradients M_QP M_RespSurf M_Subspaces M_Domains P_Subspaces P_Partition
  P_LocalLinear P_Domains P_DomSample Properties_QP Properties_Domains Properties_DomSample Properties_Samplers M_Tests P_Tests Properties_Tests P_Notebooks M_TestsSpace P_TestsDomain Properties_TestsSpace P_QP.
Import ListNotations.
Open Scope R_scope.

(** ** Unbounded domains and maps: the tests always pass *)
Theorem C104_unbounded : forall eigh argsort lstsq norm2 det B (G : gen) (U : Type) (w : world G U (nd R)), eigh_contract eigh -> eigh_total eigh -> argsort_contract argsort ->
  fst (test_unbounded_active_variable_domain eigh argsort lstsq norm2 det w) = Ok tt /\
  fst (test_unbounded_active_variable_map_0 eigh argsort lstsq norm2 det w) = Ok tt /\
  fst (test_unbounded_active_variable_map_2 eigh argsort lstsq norm2 det B w) = Ok tt.
Proof.
  intros eigh argsort lstsq norm2 det B G U w HE HT HA.
  destruct (a_subspace_ok eigh argsort lstsq norm2 det HE HT HA w) as (sub & n & e & Wm & W1 & W2 & lam & EA & F & Hn & _ & _ & EB). set (w1 := set_rng w _) in *.
  assert (ED := unbounded_ok sub 3 n Wm W1 W2 F). set (d := AVD DUnbounded sub 3 n None None None None) in *.
  destruct (normal2_ev G (U := U) (L := nd R) 100 3 w1) as (X & EX & SX & _). set (w2 := set_rng w1 _) in EX. split; [|split].
  - unfold test_unbounded_active_variable_domain. rewrite (nb _ _ w _ _ EA), bind_lift, ED. reflexivity.
  - unfold test_unbounded_active_variable_map_0. rewrite (nb _ _ w _ _ EA), (nb _ _ w1 _ _ EB), bind_lift, ED, (nb _ _ w1 _ _ EX).
    rewrite (rebuilds_ok (AVM MUnbounded d) 3 n Wm W1 W2 X 100 w2 F SX). reflexivity.
  - unfold test_unbounded_active_variable_map_2. rewrite (nb _ _ w _ _ EA), (nb _ _ w1 _ _ EB), bind_lift, ED, (nb _ _ w1 _ _ EX).
    destruct (inverts_ok B (AVM MUnbounded d) 3 n Wm W1 W2 X 100 w2 F ltac:(lia) SX) as (Y & SY & _ & _ & K).
    destruct (C21_unbounded_inverse G U (nd R) B d 3 n Wm W1 W2 Y 100 10 w2 F SY) as (X0 & ind & EI & I0). rewrite (nb _ _ w2 _ _ (K _ _ _ _ EI I0)). reflexivity.
Qed.
Print Assumptions C104_unbounded.

(** ** Bounded domains *)
(** The tests of the bounded domain and of forward over it have one outcome, Ok or the
    error of the convex hull of points with two coordinates, all of them in the image of the
    cube; they pass when the drawn gradients are parallel, whatever the hull does. *)
Definition parallel_gradients (G : gen) : Prop := exists t v : nat -> R, forall i j, (i < 10)%nat -> (j < 3)%nat -> drawn G (i * 3 + j) = t i * v j.

Lemma rank_one : forall m C e V lam v T, eigsorted m C e V lam -> (forall i k, (i < m)%nat -> (k < m)%nat -> C i k = T * (v i * v k)) ->
  forall j, (1 <= j < m)%nat -> e.[j, 0%nat] = 0.
Proof.
  intros m C e V lam v T L HC j Hj. set (p := fun a => sumf m (fun k => v k * V.[k, a])).
  assert (EG : forall a i, (a < m)%nat -> (i < m)%nat -> T * p a * v i = lam a * V.[i, a]).
  { intros a i Ha Hi. assert (Q := es_eig _ _ _ _ _ L i a Hi Ha). unfold ent in Q. rewrite <- Q. unfold p.
    rewrite (sumf_ext m (fun k => C i k * V.[k, a]) (fun k => (T * v i) * (v k * V.[k, a]))) by (intros k Hk; rewrite HC by auto; ring). rewrite sumf_scal_l. ring. }
  destruct (Req_dec (lam j) 0) as [Z|NZ]; [rewrite (es_abs _ _ _ _ _ L) by lia; rewrite Z; apply Rabs_R0|exfalso].
  assert (N0 : lam 0%nat <> 0).
  { intros Z. assert (D := es_dec _ _ _ _ _ L 0%nat j ltac:(lia) ltac:(lia)). cbv beta in D. rewrite !(es_abs _ _ _ _ _ L), Z, Rabs_R0 in D by lia. assert (P := Rabs_pos_lt _ NZ). lra. }
  assert (P : forall a, (a < m)%nat -> lam a <> 0 -> T * p a <> 0).
  { intros a Ha Na E. assert (O := es_orth _ _ _ _ _ L a a Ha Ha). unfold ent, kron_delta in O. rewrite Nat.eqb_refl in O.
    rewrite (sumf_ext m _ (fun _ => 0)) in O; [rewrite sumf_0 in O; lra|]. intros i Hi. assert (Q := EG a i Ha Hi). rewrite E in Q. assert (V.[i, a] = 0) as -> by nra. ring. }
  assert (O := es_orth _ _ _ _ _ L 0%nat j ltac:(lia) ltac:(lia)). unfold ent, kron_delta in O. rewrite (proj2 (Nat.eqb_neq 0 j)) in O by lia.
  (* lam_0 V_0 . V_j = T p_0 p_j *)
  assert (Q : T * p 0%nat * p j = 0).
  { unfold p at 2. rewrite <- sumf_scal_l. rewrite (sumf_ext m _ (fun i => lam 0%nat * (V.[i, 0%nat] * V.[i, j]))); [rewrite sumf_scal_l; rewrite O; ring|].
    intros i Hi. rewrite <- Rmult_assoc, (EG 0%nat i) by lia. ring. }
  assert (P0 := P 0%nat ltac:(lia) N0). assert (Pj := P j ltac:(lia) NZ). apply Rmult_integral in Q. destruct Q as [Q|Q]; [contradiction|]. apply Pj. rewrite Q. ring.
Qed.

Lemma one_active : forall G e Wm lam n, parallel_gradients G ->
  eigsorted 3 (gradC 10 (fun i j => normal_at (g_seed G 42) (i * 3 + j)) (fun _ => / INR 10)) e Wm lam -> first_max 2 (fun i => Rabs (e.[S i, 0%nat] - e.[i, 0%nat])) (n - 1) -> (1 <= n < 3)%nat -> n = 1%nat.
Proof.
  intros G e Wm lam n (t & v & HP) L (Hk & _ & K) Hn. destruct (Nat.eq_dec n 1) as [|Ne]; auto. assert (n = 2%nat) by lia. subst n. specialize (K 0%nat ltac:(lia)). cbn [Nat.sub] in K.
  assert (Z : forall j, (1 <= j < 3)%nat -> e.[j, 0%nat] = 0).
  { apply (rank_one 3 _ e Wm lam v (sumf 10 (fun s => / INR 10 * (t s * t s))) L). intros i k Hi Hk'. unfold gradC. rewrite <- sumf_scal_r. apply sumf_ext. intros s Hs.
    fold (drawn G (s * 3 + i)). fold (drawn G (s * 3 + k)). rewrite !HP by auto. ring. }
  assert (Z1 := Z 1%nat ltac:(lia)). assert (Z2 := Z 2%nat ltac:(lia)). rewrite Z1, Z2, Rminus_0_r, Rabs_R0 in K. assert (P := Rabs_pos (0 - e.[0%nat, 0%nat])). lra.
Qed.

Theorem C104_bounded : forall eigh argsort lstsq norm2 det ch (G : gen) (U : Type) (w : world G U (nd R)), eigh_contract eigh -> eigh_total eigh -> argsort_contract argsort ->
  let domain := fst (test_bounded_active_variable_domain eigh argsort lstsq norm2 det ch w) in
  let map0 := fst (test_bounded_active_variable_map_0 eigh argsort lstsq norm2 det ch w) in
  map0 = domain /\ (parallel_gradients G -> domain = Ok tt) /\
  (domain = Ok tt \/ exists Y X A k e, ch Y = Err e /\ domain = Err e /\ shape Y = [k; 2]%nat /\
     (forall v i, (v < k)%nat -> (i < 3)%nat -> -1 <= X v i <= 1) /\ orthonormal 3 2 A /\ forall v j, (v < k)%nat -> (j < 2)%nat -> Y.[v, j] = sumf 3 (fun i => X v i * A i j)).
Proof.
  intros eigh argsort lstsq norm2 det ch G U w HE HT HA.
  destruct (a_subspace_ok eigh argsort lstsq norm2 det HE HT HA w) as (sub & n & e & Wm & W1 & W2 & lam & EA & F & Hn & L & FM & EB). set (w1 := set_rng w _) in *.
  unfold test_bounded_active_variable_domain, test_bounded_active_variable_map_0. rewrite !(nb _ _ w _ _ EA). rewrite (nb _ _ w1 _ _ EB).
  assert (GO : forall d w2, bounded_domain ch (IsA sub) w1 = (Ok d, w2) -> d_subs d = sub ->
     fst (mbind (bounded_domain ch (IsA sub)) (fun bavd => dom X <- uniform2 (-1) 1 100 3; rebuilds (AVM MBounded bavd) X W1 W2) w1) = Ok tt).
  { intros d w2 E S. rewrite (nb _ _ w1 _ _ E). destruct (uniform2_ev G (U := U) (L := nd R) (-1) 1 100 3 w2) as (X & EX & SX & _). rewrite (nb _ _ w2 _ _ EX).
    rewrite (rebuilds_ok (AVM MBounded d) 3 n Wm W1 W2 X 100); [reflexivity| |exact SX]. cbn [av_domain]. now rewrite S. }
  destruct (bounded_cases ch sub 3 n Wm W1 W2 w1 F ltac:(lia)) as (C1 & C2).
  destruct (Nat.eq_dec n 1) as [E1|N1].
  - destruct (C1 E1) as (d & ED & Sd). rewrite (GO d w1 ED Sd), (nb _ _ w1 _ _ ED). cbn. auto.
  - destruct (C2 N1) as (Y & X & k & w2 & SY & SX & BX & VY & CH). assert (n = 2%nat) by lia. subst n.
    split; [|split].
    + destruct (ch Y) as [eqs|er]; [destruct CH as (d & ED & Sd); rewrite (GO d w2 ED Sd), (nb _ _ w1 _ _ ED); reflexivity|]. unfold mbind. now rewrite CH.
    + intros P. assert (Q := one_active G e Wm lam 2 P L FM ltac:(lia)). discriminate.
    + destruct (ch Y) as [eqs|er] eqn:EY; [left; destruct CH as (d & ED & Sd); rewrite (nb _ _ w1 _ _ ED); reflexivity|right].
      exists Y, (fun v i => X.[v, i]), (fun i j => W1.[i, j]), k, er. split; auto. split; [unfold mbind; now rewrite CH|]. split; auto. split; auto. split; auto.
      intros a b Ha Hb. rewrite <- (frame_ortho _ _ _ _ _ _ F a b) by lia. apply sumf_ext. intros i Hi. now rewrite !(fr_e1 _ _ _ _ _ _ F).
Qed.
Print Assumptions C104_bounded.

(** ** The samplers over the active variables of a point of the cube *)
Lemma start_point : forall eigh argsort lstsq norm2 det (G : gen) (U : Type) (w : world G U (nd R)) A (sampler : Z -> nd R -> nd R -> nd R -> Py.M (world G U (nd R)) A),
  eigh_contract eigh -> eigh_total eigh -> argsort_contract argsort ->
  exists sub n Wm W1 W2 y w', frame sub 3 n Wm W1 W2 /\ (1 <= n < 3)%nat /\ shape y = [n] /\ rng w' = g_seed G 42 /\
    (let x i := -1 + 2 * unif_at (g_seed G 43) i in (forall j, (j < n)%nat -> y.[j] = sumf 3 (fun i => x i * W1.[i, j])) /\
       inpoly W2 3 (3 - n) (shift W1 y n) (fun j => sumf 3 (fun i => x i * W2.[i, j]))) /\
    over_a_point eigh argsort lstsq norm2 det sampler w = mbind (sampler 10%Z y W1 W2) (fun _ => mret tt) w'.
Proof.
  intros eigh argsort lstsq norm2 det G U w A sampler HE HT HA.
  destruct (a_subspace_ok eigh argsort lstsq norm2 det HE HT HA w) as (sub & n & e & Wm & W1 & W2 & lam & EA & F & Hn & _ & _ & EB). set (w1 := set_rng w _) in *.
  assert (H1 := fr_s1 _ _ _ _ _ _ F). set (w2 := set_rng w1 (g_seed G 43)).
  destruct (uniform2_ev G (U := U) (L := nd R) (-1) 1 1 3 w2) as (X & EX & SX & VX). set (w3 := set_rng w2 _) in EX.
  set (P := mk2 1 n (fun i j => sumf 3 (fun l => X.[i, l] * W1.[l, j]))).
  destruct (reshape_ok R [n] P) as (y & Ey & Sy & Vy); [unfold size; cbn [P shape mk2 prodn]; lia|].
  assert (VY : forall j, (j < n)%nat -> y.[j] = sumf 3 (fun i => (-1 + 2 * unif_at (g_seed G 43) i) * W1.[i, j])).
  { intros j Hj. rewrite Vy by (constructor; [exact Hj|constructor]). cbn [P shape mk2]. unfold ravel, unravel, prodn. rewrite !Nat.mul_1_r, ?Nat.add_0_r, Nat.div_1_r, Nat.div_small, Nat.mod_small by lia.
    unfold P. rewrite at_mk2. apply sumf_ext. intros i Hi. rewrite VX by lia. cbn [w2 set_rng rng Nat.mul Nat.add]. ring. }
  exists sub, n, Wm, W1, W2, y, (set_rng w3 (g_seed G 42)). split; [exact F|]. split; [exact Hn|]. split; [exact Sy|]. split; [reflexivity|]. split; [split; [exact VY|]|].
  - intros i Hi. assert (FS := frame_split _ _ _ _ _ _ (fun i => -1 + 2 * unif_at (g_seed G 43) i) i F Hi). cbv beta in FS. unfold shift.
    rewrite (sumf_ext n _ (fun j => W1.[i, j] * sumf 3 (fun a => (-1 + 2 * unif_at (g_seed G 43) a) * W1.[a, j]))) by (intros j Hj; now rewrite VY). rewrite <- FS.
    assert (Q : 0 <= unif_at (g_seed G 43) i < 1) by apply g_unif_spec. lra.
  - unfold over_a_point. rewrite (nb _ _ w _ _ EA), (nb _ _ w1 _ _ EB), seeded. fold w2. rewrite (nb _ _ w2 _ _ EX), bind_lift, (npdot2 X W1 1 3 n SX H1), bind_lift. fold P. rewrite Ey, seeded. reflexivity.
Qed.

(** what an attempt at hit and run can end in *)
Lemma dir_returns : forall (G : gen) (U L : Type) A b k p rem z0 (w : world G U L), shape A = [p; k] -> shape b = [p; 1%nat] -> shape z0 = [k; 1%nat] ->
  exists o w', pick_dir A b z0 k rem w = (Ok o, w') /\ match o with Some d => shape d = [k; 1%nat] | None => True end.
Proof.
  intros G U L A b k p. induction rem as [|rem IH]; intros z0 w SA Sb Sz; cbn [pick_dir];
    destruct (normal2_ev G (U := U) (L := L) k 1 w) as (d & Ed & Sd & _); rewrite (nb _ _ w _ _ Ed), bind_lift;
    destruct (bcast2_same _ _ _ Rplus z0 (amap (Rmult eps0) d) k 1 Sz Sd) as (t & Et & St & _); rewrite Et, bind_lift, (npdot2 A t p k 1 SA St), bind_lift;
    destruct (bcast2_same _ _ _ Rleb (mk2 p 1 (fun i j => sumf k (fun l => A.[i, l] * t.[l, j]))) b p 1 eq_refl Sb) as (le & El & _); rewrite El.
  - eexists _, _. split; [reflexivity|exact I].
  - destruct (any2 le); [auto|]. eexists _, _. split; [reflexivity|exact Sd].
Qed.

Lemma amin_err : forall l e, np_amin l = Err e -> e = ValueError.
Proof. intros [|a l] e H; cbn in H; [congruence|discriminate]. Qed.
Lemma amax_err : forall l e, np_amax l = Err e -> e = ValueError.
Proof. intros [|a l] e H; cbn in H; [congruence|discriminate]. Qed.
Definition ends_well {A} (r : res A) : Prop := (exists a, r = Ok a) \/ r = Err ValueError \/ r = Err OverflowError.
Lemma step_ends : forall (G : gen) (U L : Type) A b k p z0 d (w : world G U L), shape A = [p; k] -> shape b = [p; 1%nat] -> shape z0 = [k; 1%nat] -> shape d = [k; 1%nat] ->
  ends_well (fst (hr_step A b z0 d w)) /\ forall z1 w', hr_step A b z0 d w = (Ok z1, w') -> shape z1 = [k; 1%nat].
Proof.
  intros G U L A b k p z0 d w SA Sb Sz Sd. unfold hr_step. rewrite bind_lift, (npdot2 A z0 p k 1 SA Sz), bind_lift.
  destruct (bcast2_same _ _ _ Rminus b (mk2 p 1 (fun i j => sumf k (fun l => A.[i, l] * z0.[l, j]))) p 1 Sb eq_refl) as (f & Ef & Sf & _). rewrite Ef, bind_lift, (npdot2 A d p k 1 SA Sd), !bind_lift.
  destruct (np_amin _) as [mx|ex] eqn:E1.
  2: { apply amin_err in E1. subst ex. split; [right; now left|]. intros z1 w' H. discriminate. }
  rewrite bind_lift. destruct (np_amax _) as [mn|ex] eqn:E2.
  2: { apply amax_err in E2. subst ex. split; [right; now left|]. intros z1 w' H. discriminate. }
  unfold mbind, uniform_x. destruct mn as [lo| | |], mx as [hi| | |]; try (split; [right; now right|intros z1 w' H; discriminate]).
  unfold draw_uniform. destruct (g_unif G (rng w)) as [u st].
  destruct (bcast2_same _ _ _ Rplus z0 (amap (Rmult (lo + (hi - lo) * u)) d) k 1 Sz Sd) as (t & Et & St & _).
  unfold mlift. rewrite Et. cbn [fst]. split; [left; eauto|]. intros z1 w' H. injection H as <- _. exact St.
Qed.

Lemma walk_ends : forall (G : gen) (U L : Type) A b k p, shape A = [p; k] -> shape b = [p; 1%nat] -> forall rows z0 (w : world G U L), shape z0 = [k; 1%nat] -> ends_well (fst (hr_walk A b z0 k rows w)).
Proof.
  intros G U L A b k p SA Sb. induction rows as [|rows IH]; intros z0 w Sz; cbn [hr_walk]; [left; eexists; reflexivity|].
  destruct (dir_returns G U L A b k p 49 z0 w SA Sb Sz) as (o & w1 & E & So). rewrite (nb _ _ w _ _ E). destruct o as [d|]; [|left; eexists; reflexivity].
  destruct (step_ends G U L A b k p z0 d w1 SA Sb Sz So) as (EW & S1). unfold mbind at 1. destruct (hr_step A b z0 d w1) as [[z1|ex] w2] eqn:ES; cbn [fst] in EW.
  - specialize (IH z1 w2 (S1 _ _ eq_refl)). unfold mbind. destruct (hr_walk A b z1 k rows w2) as [[l|ex] w3]; cbn [fst] in *; [left; eexists; reflexivity|].
    destruct IH as [(a & H)|[H|H]]; [discriminate| |]; injection H as ->; [right; now left|right; now right].
  - destruct EW as [(a & H)|[H|H]]; [discriminate| |]; injection H as ->; [right; now left|right; now right].
Qed.

Section Hit.
  Variables (B : backend).
  Hypothesis HG : has_gurobi B = false.
  Hypothesis HL : linprog_ok (linprog B).
  Hypothesis HT : linprog_total (linprog B).

  Lemma hit_ends : forall (G : gen) (U L : Type) sb m n Nn Wm W1 W2 y (w : world G U L), frame sb m n Wm W1 W2 -> (n < m)%nat -> shape y = [n] ->
    (exists z, inpoly W2 m (m - n) (shift W1 y n) z) -> gurobi_ok (gurobi B) -> ends_well (fst (hit_and_run_z B (Z.of_nat Nn) y W1 W2 w)).
  Proof.
    intros G U L sb m n Nn Wm W1 W2 y w F Hn Sy HI HO. assert (H1 := fr_s1 _ _ _ _ _ _ F). assert (H2 := fr_s2 _ _ _ _ _ _ F).
    assert (NZ : exists i j, (i < m)%nat /\ (j < m - n)%nat /\ W2.[i, j] <> 0).
    { destruct (Classical_Prop.classic (exists i, (i < m)%nat /\ W2.[i, 0%nat] <> 0)) as [(i & Hi & NZ)|NZ]; [exists i, 0%nat; split; auto; split; [lia|exact NZ]|exfalso].
      assert (O := fr_o _ _ _ _ _ _ F n n ltac:(lia) ltac:(lia)). rewrite Nat.eqb_refl in O. rewrite (sumf_ext m _ (fun _ => 0)) in O; [rewrite sumf_0 in O; lra|].
      intros i Hi. assert (Q := fr_e2 _ _ _ _ _ _ F i 0%nat Hi ltac:(lia)). rewrite Nat.add_0_r in Q. rewrite <- Q. destruct (Req_dec (W2.[i, 0%nat]) 0) as [-> | Q2]; [ring|]. exfalso. apply NZ. eauto. }
    destruct (C28_start_found G U L B m n y W1 W2 w ltac:(lia) H1 H2 Sy HG HL HT HI NZ) as (z0 & EC).
    destruct (C28_start_is_chebyshev_centre G U L B m n y W1 W2 w w z0 ltac:(lia) H1 H2 Sy HL HO HI EC) as (_ & Sz & _).
    destruct (shift_of_ok W1 y m n H1 Sy) as (s & Es & Ss & _). destruct (polytope_pair W2 s m (m - n) H2 Ss) as (A & b & Ep & SA & Sb & _).
    unfold hit_and_run_z. rewrite bind_lift. unfold shape2. rewrite H1. cbv zeta. rewrite (nb _ _ w _ _ EC), bind_lift, Es, bind_lift, Ep, bind_lift. unfold dimZ. destruct (Z.ltb_spec (Z.of_nat Nn) 0); [lia|]. rewrite Nat2Z.id.
    assert (W := walk_ends G U L A b (m - n) (2 * m) SA Sb Nn z0 w Sz). unfold mbind. destruct (hr_walk A b z0 (m - n) Nn w) as [[l|ex] w3]; cbn [fst] in *; [left; eexists; reflexivity|].
    destruct W as [(a & H0)|[H0|H0]]; [discriminate| |]; injection H0 as ->; [right; now left|right; now right].
  Qed.

  (** The tests of rejection sampling and of the random walk always pass; those of hit and
      run and of sample_z pass or end in a ValueError or OverflowError. *)
  Theorem C104_samplers : forall eigh argsort lstsq norm2 det (G : gen) (U : Type) (w : world G U (nd R)), eigh_contract eigh -> eigh_total eigh -> argsort_contract argsort -> gurobi_ok (gurobi B) ->
    fst (test_rejection_sample_z eigh argsort lstsq norm2 det B w) = Ok tt /\ fst (test_random_walk_z eigh argsort lstsq norm2 det B w) = Ok tt /\
    forall t, t = test_hit_and_run_z eigh argsort lstsq norm2 det B \/ t = test_sample_z eigh argsort lstsq norm2 det B -> fst (t w) = Ok tt \/ fst (t w) = Err ValueError \/ fst (t w) = Err OverflowError.
  Proof.
    intros eigh argsort lstsq norm2 det G U w HE HTo HA HO.
    assert (EQ : forall A (sampler : Z -> nd R -> nd R -> nd R -> Py.M (world G U (nd R)) A),
      (forall sub n Wm W1 W2 y w', frame sub 3 n Wm W1 W2 -> (1 <= n < 3)%nat -> shape y = [n] -> (exists z, inpoly W2 3 (3 - n) (shift W1 y n) z) -> exists o w2, sampler (Z.of_nat 10) y W1 W2 w' = (Ok o, w2)) ->
      fst (over_a_point eigh argsort lstsq norm2 det sampler w) = Ok tt).
    { intros A sampler HS. destruct (start_point eigh argsort lstsq norm2 det G U w A sampler HE HTo HA) as (sub & n & Wm & W1 & W2 & y & w' & F & Hn & Sy & _ & (_ & HI) & ->).
      destruct (HS sub n Wm W1 W2 y w' F Hn Sy) as (o & w2 & E); [eauto|]. change 10%Z with (Z.of_nat 10). rewrite (nb _ _ w' _ _ E). reflexivity. }
    assert (HIT : forall sub n Wm W1 W2 y (w' : world G U (nd R)), frame sub 3 n Wm W1 W2 -> (1 <= n < 3)%nat -> shape y = [n] -> (exists z, inpoly W2 3 (3 - n) (shift W1 y n) z) -> ends_well (fst (hit_and_run_z B (Z.of_nat 10) y W1 W2 w'))).
    { intros sub n Wm W1 W2 y w' F Hn Sy HI. apply (hit_ends G U (nd R) sub 3 n 10 Wm W1 W2 y w' F ltac:(lia) Sy HI HO). }
    split; [|split].
    - apply EQ. intros sub n Wm W1 W2 y w' F Hn Sy HI. exact (C99_rejection_returns G U (nd R) B sub 3 n 10 Wm W1 W2 y w' F Sy HG HL HT HI).
    - apply EQ. intros sub n Wm W1 W2 y w' F Hn Sy HI. exact (random_walk_returns B sub 3 n 10 Wm W1 W2 y w' F Sy HG HL HT HI).
    - assert (K : forall A (sampler : Z -> nd R -> nd R -> nd R -> Py.M (world G U (nd R)) A),
        (forall sub n Wm W1 W2 y w', frame sub 3 n Wm W1 W2 -> (1 <= n < 3)%nat -> shape y = [n] -> (exists z, inpoly W2 3 (3 - n) (shift W1 y n) z) -> ends_well (fst (sampler (Z.of_nat 10) y W1 W2 w'))) ->
        let t := over_a_point eigh argsort lstsq norm2 det sampler in fst (t w) = Ok tt \/ fst (t w) = Err ValueError \/ fst (t w) = Err OverflowError).
      { intros A sampler HS t. unfold t. destruct (start_point eigh argsort lstsq norm2 det G U w A sampler HE HTo HA) as (sub & n & Wm & W1 & W2 & y & w' & F & Hn & Sy & _ & (_ & HI) & ->).
        specialize (HS sub n Wm W1 W2 y w' F Hn Sy ltac:(eauto)). change 10%Z with (Z.of_nat 10). unfold mbind. destruct (sampler (Z.of_nat 10) y W1 W2 w') as [[o|ex] w2]; cbn [fst] in HS |- *; [now left|right].
        destruct HS as [(a & H0)|[H0|H0]]; [discriminate| |]; injection H0 as ->; [now left|now right]. }
      intros t [-> | ->]; apply K; [exact HIT|]. intros sub n Wm W1 W2 y w' F Hn Sy HI. unfold sample_z.
      destruct (C99_rejection_returns G U (nd R) B sub 3 n 10 Wm W1 W2 y w' F Sy HG HL HT HI) as (o & w2 & E). rewrite (nb _ _ w' _ _ E). destruct o as [Z1|]; [left; eexists; reflexivity|]. apply (HIT sub n Wm W1 W2 y w2 F Hn Sy HI).
  Qed.
End Hit.
Print Assumptions C104_samplers.

(** Not for every generator, though: when all normal numbers are 0 and all uniform ones
    1/2, hit and run ends in a ValueError (numpy's maximum of no numbers). *)
Lemma entry_le1 : forall m V i j, orthonormal m m V -> (i < m)%nat -> (j < m)%nat -> Rabs (V i j) <= 1.
Proof.
  intros m V i j O Hi Hj. assert (Q := O j j Hj Hj). unfold kron_delta in Q. rewrite Nat.eqb_refl in Q.
  assert (K : V i j * V i j <= 1). { rewrite <- Q. apply (sumf_term_le m (fun i => V i j * V i j) i); auto. intros a Ha. nra. }
  apply Rabs_le. nra.
Qed.
Theorem C104_hit_and_run_refuted : exists (G : gen), forall eigh argsort lstsq norm2 det B (U : Type) (w : world G U (nd R)), eigh_contract eigh -> eigh_total eigh -> argsort_contract argsort ->
  has_gurobi B = false -> linprog_ok (linprog B) -> linprog_total (linprog B) -> gurobi_ok (gurobi B) ->
  fst (test_hit_and_run_z eigh argsort lstsq norm2 det B w) = Err ValueError.
Proof.
  exists (same_gen (/ 2) 0 half01). intros eigh argsort lstsq norm2 det B U w HE HTo HA HG HL HT HO. set (G := same_gen (/ 2) 0 half01) in *. unfold test_hit_and_run_z.
  destruct (start_point eigh argsort lstsq norm2 det G U w _ (hit_and_run_z B) HE HTo HA) as (sub & n & Wm & W1 & W2 & y & w' & F & Hn & Sy & _ & (Vy & HI) & ->). cbv zeta in Vy, HI.
  assert (H1 := fr_s1 _ _ _ _ _ _ F). assert (H2 := fr_s2 _ _ _ _ _ _ F). set (k := (3 - n)%nat) in *.
  assert (Y0 : forall j, (j < n)%nat -> y.[j] = 0). { intros j Hj. rewrite Vy by auto. apply sumf_zero. intros i Hi. unfold G. rewrite same_unif. field. }
  assert (S0 : forall i, shift W1 y n i = 0). { intros i. unfold shift. apply sumf_zero. intros j Hj. rewrite Y0 by auto. ring. }
  assert (E2 : forall i j, (i < 3)%nat -> (j < k)%nat -> Rabs (W2.[i, j]) <= 1).
  { intros i j Hi Hj. rewrite (fr_e2 _ _ _ _ _ _ F) by auto. apply (entry_le1 3 (fun i j => Wm.[i, j]) i (n + j) (frame_ortho _ _ _ _ _ _ F)); unfold k in *; lia. }
  assert (NZ : exists i j, (i < 3)%nat /\ (j < k)%nat /\ W2.[i, j] <> 0).
  { destruct (Classical_Prop.classic (exists i, (i < 3)%nat /\ W2.[i, 0%nat] <> 0)) as [(i & Hi & NZ)|NZ]; [exists i, 0%nat; split; auto; split; [unfold k; lia|exact NZ]|exfalso].
    assert (O := frame_ortho _ _ _ _ _ _ F n n ltac:(lia) ltac:(lia)). unfold kron_delta in O. rewrite Nat.eqb_refl in O. rewrite (sumf_ext 3 _ (fun _ => 0)) in O; [rewrite sumf_0 in O; lra|].
    intros i Hi. assert (Q := fr_e2 _ _ _ _ _ _ F i 0%nat Hi ltac:(lia)). rewrite Nat.add_0_r in Q. rewrite <- Q. destruct (Req_dec (W2.[i, 0%nat]) 0) as [-> | Q2]; [ring|]. exfalso. apply NZ. eauto. }
  destruct (C28_start_found G U (nd R) B 3 n y W1 W2 w' ltac:(lia) H1 H2 Sy HG HL HT ltac:(eauto) NZ) as (z0 & EC).
  destruct (C28_start_is_chebyshev_centre G U (nd R) B 3 n y W1 W2 w' w' z0 ltac:(lia) H1 H2 Sy HL HO ltac:(eauto) EC) as (_ & Sz & _ & r & _ & _ & MX & SL). fold k in Sz, MX, SL.
  assert (RP : / 3 <= r).
  { apply (MX (fun _ => 0)); [lra|]. intros u (_ & Hu) i Hi. rewrite S0.
    assert (AB : Rabs (sumf k (fun j => W2.[i, j] * (0 + u j))) <= 1).
    { eapply Rle_trans; [apply sumf_abs|]. eapply Rle_trans; [apply (sumf_le k _ (fun _ => / 3))|].
      - intros j Hj. rewrite Rplus_0_l, Rabs_mult.
        assert (K : u j * u j <= / 3 * / 3). { eapply Rle_trans; [|exact Hu]. apply (sumf_term_le k (fun j => u j * u j) j); auto. intros a Ha. nra. }
        assert (Rabs (u j) <= / 3) by (apply Rabs_le; nra). assert (P := Rabs_pos (u j)). assert (P2 := Rabs_pos (W2.[i, j])). assert (Q := E2 i j Hi Hj). nra.
      - rewrite sumf_const. assert (INR k <= 2) by (change 2 with (INR 2); apply le_INR; unfold k; lia). lra. }
    unfold Rabs in AB. destruct (Rcase_abs _) in AB; lra. }
  assert (POS : forall q, (q < 2 * 3)%nat -> 0 < slack W2 3 k (shift W1 y n) (fun j => z0.[j, 0%nat]) q).
  { intros q Hq. specialize (SL q Hq). set (i := if Nat.ltb q 3 then q else (q - 3)%nat) in *.
    destruct (Rle_lt_dec (sumf k (fun j => W2.[i, j] * W2.[i, j])) 0) as [Z|P].
    - assert (ZR : forall j, (j < k)%nat -> W2.[i, j] = 0).
      { intros j Hj. assert (Q := sumf_nonneg_eq0 k (fun j => W2.[i, j] * W2.[i, j]) ltac:(intros; nra)). cbv beta in Q. assert (Q1 := sumf_nonneg k (fun j => W2.[i, j] * W2.[i, j]) ltac:(intros; nra)).
        specialize (Q ltac:(lra) j Hj). nra. }
      unfold slack. unfold i in *. destruct (Nat.ltb q 3); rewrite S0, sumf_zero by (intros j Hj; rewrite ZR by auto; ring); lra.
    - eapply Rlt_le_trans; [|exact SL]. apply Rmult_lt_0_compat; [lra|]. now apply sqrt_lt_R0. }
  destruct (shift_of_ok W1 y 3 n H1 Sy) as (s & Es & Ss & Vs). destruct (polytope_pair W2 s 3 k H2 Ss) as (A & b & Ep & SA & Sb & Vp).
  assert (POS' : forall q, (q < 2 * 3)%nat -> b.[q, 0%nat] < sumf k (fun j => A.[q, j] * z0.[j, 0%nat])).
  { intros q Hq. assert (P := POS q Hq). assert (V := Vp (fun j => z0.[j, 0%nat]) q Hq). cbv beta in V. 
    assert (EQ : slack W2 3 k (fun i => s.[i, 0%nat]) (fun j => z0.[j, 0%nat]) q = slack W2 3 k (shift W1 y n) (fun j => z0.[j, 0%nat]) q).
    { unfold slack. destruct (Nat.ltb_spec q 3); rewrite Vs by lia; reflexivity. }
    rewrite EQ in V. lra. }
  unfold hit_and_run_z. unfold mbind at 1. rewrite bind_lift. unfold shape2. rewrite H1. cbv zeta. fold k. rewrite (nb _ _ w' _ _ EC), bind_lift, Es, bind_lift, Ep, bind_lift. change (dimZ 10) with (Ok 10%nat). cbn [hr_walk].
  assert (PD : exists d, pick_dir A b z0 k 49 w' = (Ok (Some d), w') /\ shape d = [k; 1%nat] /\ forall j, (j < k)%nat -> d.[j, 0%nat] = 0).
  { cbn [pick_dir]. destruct (normal2_ev G (U := U) (L := nd R) k 1 w') as (d & Ed & Sd & Vd). exists d.
    assert (D0 : forall j, (j < k)%nat -> d.[j, 0%nat] = 0). { intros j Hj. rewrite Vd by lia. unfold G. apply same_normal. }
    rewrite (nb _ _ w' _ _ Ed), bind_lift.
    destruct (bcast2_same _ _ _ Rplus z0 (amap (Rmult eps0) d) k 1 Sz Sd) as (t & Et & St & Vt); rewrite Et, bind_lift, (npdot2 A t (2 * 3) k 1 SA St), bind_lift.
    destruct (bcast2_same _ _ _ Rleb (mk2 (2 * 3) 1 (fun i j => sumf k (fun l => A.[i, l] * t.[l, j]))) b (2 * 3) 1 eq_refl Sb) as (le & El & Sl & Vl); rewrite El.
    assert (AN : any2 le = false).
    { destruct (any2 le) eqn:EA; auto. exfalso. apply (any2_spec le (2 * 3) 1 Sl) in EA. destruct EA as (i & j & Hi & Hj & K). assert (j = 0%nat) by lia. subst j. rewrite Vl, at_mk2 in K by lia. apply Rleb_spec in K.
      assert (P := POS' i Hi). rewrite (sumf_ext k _ (fun l => A.[i, l] * z0.[l, 0%nat])) in K; [lra|]. intros l Hl. rewrite Vt by lia. change ((amap (Rmult eps0) d).[l, 0%nat]) with (eps0 * d.[l, 0%nat]). rewrite D0 by auto. ring. }
    rewrite AN. split; [|auto]. unfold mret. f_equal. destruct w'; cbn. f_equal. destruct rng. now destruct (normal_state _ _). }
  destruct PD as (d & EP & Sd & D0).
  assert (ST : exists w2, hr_step A b z0 d w' = (Err ValueError, w2)).
  { unfold hr_step. rewrite bind_lift, (npdot2 A z0 (2 * 3) k 1 SA Sz), bind_lift.
    destruct (bcast2_same _ _ _ Rminus b (mk2 (2 * 3) 1 (fun i j => sumf k (fun l => A.[i, l] * z0.[l, j]))) (2 * 3) 1 Sb eq_refl) as (f & Ef & Sf & _). rewrite Ef, bind_lift, (npdot2 A d (2 * 3) k 1 SA Sd), !bind_lift.
    destruct (np_amin _) as [mx|ex] eqn:E1; [|apply amin_err in E1; subst ex; eexists; reflexivity].
    assert (RE : ratios f (mk2 (2 * 3) 1 (fun i j => sumf k (fun l => A.[i, l] * d.[l, j]))) (fun g => Rltb 0 g) = []).
    { unfold ratios. rewrite (filter_ext_in _ (fun _ => false)); [induction (seq 0 (nrows f)); auto|]. intros i Hi. rewrite at_mk2, sumf_zero by (intros l Hl; rewrite D0 by auto; ring).
      destruct (Rltb 0 0) eqn:E0; [apply Rltb_spec in E0; lra|reflexivity]. }
    rewrite RE, bind_lift. cbn [np_amax]. eexists. reflexivity. }
  destruct ST as (w2 & ST). unfold mbind at 1. unfold mbind at 1. rewrite EP. unfold mbind at 1. rewrite ST. reflexivity.
Qed.
Print Assumptions C104_hit_and_run_refuted.

(** ** inverse over a bounded domain *)
Lemma floor_zero : forall x, (if Req_EM_T (floorR (Rabs x)) 0 then true else false) = true <-> Rabs x < 1.
Proof.
  intros x. assert (P := Rabs_pos x). destruct (base_Int_part (Rabs x)) as (B1 & B2). unfold floorR. destruct (Req_EM_T _ 0) as [E|E]; split; intros H; try reflexivity; try discriminate; try lra.
  exfalso. apply E. assert (Q1 : IZR (Int_part (Rabs x)) < 1) by lra. assert (Q2 : -1 < IZR (Int_part (Rabs x))) by lra. apply lt_IZR in Q1. apply lt_IZR in Q2. now replace (Int_part (Rabs x)) with 0%Z by lia.
Qed.
Lemma floor_test : forall X0 r c, shape X0 = [r; c] ->
  let t := assert_equal (amap (fun x => floorR (Rabs x)) X0) (zeros2 (nrows X0) (ncols X0)) in
  (t = Ok tt /\ forall i j, (i < r)%nat -> (j < c)%nat -> -1 < X0.[i, j] < 1) \/ (t = Err AssertionError /\ exists i j, (i < r)%nat /\ (j < c)%nat /\ ~ -1 < X0.[i, j] < 1).
Proof.
  intros X0 r c S t.
  assert (AB : forall x, Rabs x < 1 <-> -1 < x < 1). { intros x. split; intros H; [apply Rabs_def2 in H; lra|apply Rabs_def1; lra]. }
  assert (SZ : shape (zeros2 (nrows X0) (ncols X0)) = [r; c]) by (unfold zeros2; cbn [shape mk2]; now rewrite (nrows_shape2 _ X0 _ _ S), (ncols_shape2 _ X0 _ _ S)).
  assert (K := compare2 _ _ (fun x y => if Req_EM_T x y then true else false) (amap (fun x => floorR (Rabs x)) X0) _ r c S SZ). fold (assert_equal (amap (fun x => floorR (Rabs x)) X0) (zeros2 (nrows X0) (ncols X0))) in K. fold t in K.
  assert (K2 : t = Ok tt <-> forall i j, (i < r)%nat -> (j < c)%nat -> -1 < X0.[i, j] < 1).
  { rewrite K. split; intros H i j Hi Hj; specialize (H i j Hi Hj); [apply AB, floor_zero; exact H|apply floor_zero, AB, H]. }
  destruct (compare_cases _ _ (fun x y => if Req_EM_T x y then true else false) (amap (fun x => floorR (Rabs x)) X0) (zeros2 (nrows X0) (ncols X0))) as [E|E]; fold (assert_equal (amap (fun x => floorR (Rabs x)) X0) (zeros2 (nrows X0) (ncols X0))) in E; fold t in E.
  - left. split; auto. now apply K2.
  - right. split; auto. apply Classical_Prop.NNPP. intros N. assert (t = Ok tt); [|congruence]. apply K2. intros i j Hi Hj. apply Classical_Prop.NNPP. intros Q. apply N. eauto.
Qed.

Lemma mmap_ends : forall W A B (f : A -> Py.M W B) l, (forall x w, In x l -> ends_well (fst (f x w))) -> forall w, ends_well (fst (mmap f l w)).
Proof.
  intros W A B f. induction l as [|a l IH]; intros H w; cbn [mmap]; [left; eexists; reflexivity|].
  assert (Q := H a w ltac:(now left)). unfold mbind at 1. destruct (f a w) as [[b|ex] w1]; cbn [fst] in Q.
  - assert (Q2 := IH ltac:(intros; apply H; now right) w1). unfold mbind. destruct (mmap f l w1) as [[bs|ex] w2]; cbn [fst] in *; [left; eexists; reflexivity|]. destruct Q2 as [(x & E)|[E|E]]; [discriminate| |]; injection E as ->; [right; now left|right; now right].
  - destruct Q as [(x & E)|[E|E]]; [discriminate| |]; injection E as ->; [right; now left|right; now right].
Qed.

Lemma image_inside : forall sb m n Wm W1 W2 (x : nat -> R) y, frame sb m n Wm W1 W2 -> (forall j, (j < n)%nat -> y.[j] = sumf m (fun i => x i * W1.[i, j])) -> (forall i, (i < m)%nat -> -1 <= x i <= 1) ->
  inpoly W2 m (m - n) (shift W1 y n) (fun j => sumf m (fun i => x i * W2.[i, j])).
Proof.
  intros sb m n Wm W1 W2 x y F VY HX i Hi. assert (FS := frame_split _ _ _ _ _ _ x i F Hi). unfold shift.
  rewrite (sumf_ext n _ (fun j => W1.[i, j] * sumf m (fun a => x a * W1.[a, j]))) by (intros j Hj; now rewrite VY). rewrite <- FS. now apply HX.
Qed.

Section Inverse.
  Variables (B : backend).
  Hypothesis HG : has_gurobi B = false.
  Hypothesis HL : linprog_ok (linprog B).
  Hypothesis HT : linprog_total (linprog B).
  Hypothesis HO : gurobi_ok (gurobi B).

  Lemma sample_shape : forall (G : gen) (U L : Type) m n Nn y W1 W2 Z (w w' : world G U L), shape W1 = [m; n] -> shape W2 = [m; (m - n)%nat] -> (n <= m)%nat -> shape y = [n] ->
    sample_z B (IsA (Z.of_nat Nn)) y W1 W2 w = (Ok Z, w') -> shape Z = [Nn; (m - n)%nat].
  Proof using HL HO.
    intros G U L m n Nn y W1 W2 Z w w' H1 H2 Hn Hy E. set (k := (m - n)%nat) in *. unfold sample_z in E. apply mbind_ok in E. destruct E as ([Z'|] & u3 & ER & E).
    - apply mret_inv in E. destruct E as [<- ->]. destruct (rejection_rows B m n (Z.of_nat Nn) y W1 W2 w u3 Z H1 H2 Hy ER) as (N' & EN & SZ & K). replace Nn with N' by lia. exact SZ.
    - clear ER. unfold hit_and_run_z in E. apply mbind_ok in E. destruct E as ([m' n'] & u4 & E1 & E). apply mlift_inv in E1. destruct E1 as [E1 ->]. unfold shape2 in E1. rewrite H1 in E1. injection E1 as <- <-. fold k in E.
      apply mbind_ok in E. destruct E as (z0 & u4 & EC & E). destruct (chebyshev_inv B m n y W1 W2 u3 u4 z0 Hn H1 H2 Hy HL HO EC) as (-> & Sz & _).
      apply mbind_ok in E. destruct E as (s & u4 & E1 & E). apply mlift_inv in E1. destruct E1 as [E1 ->]. destruct (shift_of_ok W1 y m n H1 Hy) as (s' & Es & Ss & Vs). rewrite Es in E1. apply Ok_eq in E1. subst s'.
      apply mbind_ok in E. destruct E as ([A b] & u4 & E1 & E). apply mlift_inv in E1. destruct E1 as [E1 ->]. destruct (polytope_pair W2 s m k H2 Ss) as (A' & b' & Ep & SA & Sb & Vp). rewrite Ep in E1. injection E1 as -> ->.
      apply mbind_ok in E. destruct E as (N' & u4 & E1 & E). apply mlift_inv in E1. destruct E1 as [E1 ->]. unfold dimZ in E1. destruct (Z.ltb_spec (Z.of_nat Nn) 0); [lia|]. apply Ok_eq in E1. rewrite Nat2Z.id in E1. subst N'.
      apply mbind_ok in E. destruct E as (l & u4 & EW & E). apply mret_inv in E. destruct E as [-> _].
      destruct (hr_walk_keeps (2 * m) k A b SA Sb Nn z0 u3 u4 l Sz EW) as (LL & LS & LK). unfold of_rows. cbn [shape mk2]. now rewrite map_length, LL.
  Qed.

  (** inverse from what sample_z gives for the rows *)
  Lemma inverse_from : forall (G : gen) (U : Type) d m n NY Wm W1 W2 Y (w : world G U (nd R)), frame (d_subs d) m n Wm W1 W2 -> (1 <= NY)%nat -> shape Y = [NY; n] ->
    match mmap (fun i => sample_z B (IsA 10%Z) (row1 Y i) W1 W2) (seq 0 NY) w with
    | (Ok Zl, w') => exists X ind Z, av_inverse B (AVM MBounded d) Y (IsA 10%Z) w = (Ok (X, ind), w') /\ inverse_of (AVM MBounded d) m n NY 10 Y Z X ind /\
        forall i l c, (i < NY)%nat -> (l < 10)%nat -> (c < m)%nat -> X.[(i * 10 + l)%nat, c] = sumf n (fun j => W1.[c, j] * Y.[i, j]) + sumf (m - n) (fun j => W2.[c, j] * (nth i Zl (mk2 0 0 (fun _ _ => 0))).[l, j])
    | (Err e, w') => av_inverse B (AVM MBounded d) Y (IsA 10%Z) w = (Err e, w')
    end.
  Proof using HL HO.
    intros G U d m n NY Wm W1 W2 Y w F HN SY. assert (H1 := fr_s1 _ _ _ _ _ _ F). assert (H2 := fr_s2 _ _ _ _ _ _ F). assert (Hn := fr_le _ _ _ _ _ _ F).
    assert (NR : nrows Y = NY) by exact (nrows_shape2 _ Y _ _ SY).
    assert (Sy : forall i, shape (row1 Y i) = [n]) by (intros i; unfold row1; cbn [shape mk1]; now rewrite (ncols_shape2 _ Y _ _ SY)).
    assert (EQ : av_inverse B (AVM MBounded d) Y (IsA 10%Z) w = mbind (mbind (mmap (fun i => sample_z B (IsA 10%Z) (row1 Y i) W1 W2) (seq 0 NY))
      (fun Zl => match Zl with [] => merr ValueError | Zf :: _ => mret (mk3 (List.length Zl) (ncols Zf) (nrows Zf) (fun i j l => (nth i Zl Zf).[l, j])) end)) (fun Z => mlift (rotate_x Y Z Wm)) w).
    { unfold av_inverse, av_inverse_with. rewrite bind_lift, (process_inputs_ok _ Y NY n SY). cbn [av_domain]. unfold regularize_z. cbn [av_kind av_domain]. unfold regularize_bounded.
      rewrite (fr_1 _ _ _ _ _ _ F), (fr_2 _ _ _ _ _ _ F), (fr_W _ _ _ _ _ _ F), NR. cbn [need]. unfold mbind, mlift, shape2. rewrite H1. reflexivity. }
    rewrite EQ. clear EQ. unfold mbind. destruct (mmap _ _ w) as [[Zl|ex] w1] eqn:EM; [|reflexivity].
    destruct (P_LocalLinear.mmap_all _ _ _ (fun Z => shape Z = [10%nat; (m - n)%nat]) _ ltac:(intros i u Z u' E; exact (sample_shape G U (nd R) m n 10 (row1 Y i) W1 W2 Z u u' H1 H2 Hn (Sy i) E)) _ _ _ _ EM) as (LZ & FZ). rewrite seq_length in LZ.
    destruct Zl as [|Zf Zt]; [cbn in LZ; lia|]. set (Zl := Zf :: Zt) in *. assert (SF : shape Zf = [10%nat; (m - n)%nat]) by (inversion FZ; assumption).
    set (Z := mk3 (List.length Zl) (ncols Zf) (nrows Zf) (fun i j l => (nth i Zl Zf).[l, j])). assert (SZ : shape Z = [NY; (m - n)%nat; 10%nat]) by (unfold Z; cbn [shape mk3]; now rewrite LZ, (nrows_shape2 _ Zf _ _ SF), (ncols_shape2 _ Zf _ _ SF)).
    destruct (rotate_inverse (AVM MBounded d) m n NY 10 Wm W1 W2 Y Z F SY SZ) as (X & ind & ER & IO & V). exists X, ind, Z. cbn [mret]. unfold mlift. rewrite ER. split; [reflexivity|]. split; [exact IO|].
    intros i l c Hi Hl Hc. rewrite V by auto. f_equal. apply sumf_ext. intros j Hj. f_equal. unfold Z. rewrite at_mk3. now rewrite (nth_indep Zl Zf (mk2 0 0 (fun _ _ => 0))) by lia.
  Qed.

  Lemma inverse_ends : forall (G : gen) (U : Type) d m n NY Wm W1 W2 Y (x : nat -> nat -> R) (w : world G U (nd R)), frame (d_subs d) m n Wm W1 W2 -> (n < m)%nat -> (1 <= NY)%nat -> shape Y = [NY; n] ->
    (forall i j, (i < NY)%nat -> (j < n)%nat -> Y.[i, j] = sumf m (fun c => x i c * W1.[c, j])) -> (forall i c, (i < NY)%nat -> (c < m)%nat -> -1 <= x i c <= 1) ->
    ends_well (fst (av_inverse B (AVM MBounded d) Y (IsA 10%Z) w)).
  Proof.
    intros G U d m n NY Wm W1 W2 Y x w F Hn HN SY VY HX.
    assert (ME : ends_well (fst (mmap (fun i => sample_z B (IsA 10%Z) (row1 Y i) W1 W2) (seq 0 NY) w))).
    { apply mmap_ends. intros i w1 Hi. apply in_seq in Hi.
      assert (Sy : shape (row1 Y i) = [n]) by (unfold row1; cbn [shape mk1]; now rewrite (ncols_shape2 _ Y _ _ SY)).
      assert (HI : exists z, inpoly W2 m (m - n) (shift W1 (row1 Y i) n) z).
      { eexists. apply (image_inside (d_subs d) m n Wm W1 W2 (x i) (row1 Y i) F); [|intros c Hc; apply HX; lia]. intros j Hj. unfold row1. rewrite at_mk1. apply VY; lia. }
      unfold sample_z. change 10%Z with (Z.of_nat 10). destruct (C99_rejection_returns G U (nd R) B (d_subs d) m n 10 Wm W1 W2 (row1 Y i) w1 F Sy HG HL HT HI) as (o & w2 & E). unfold mbind. rewrite E.
      destruct o as [Z1|]; [left; eexists; reflexivity|]. exact (hit_ends B HG HL HT G U (nd R) (d_subs d) m n 10 Wm W1 W2 (row1 Y i) w2 F Hn Sy HI HO). }
    assert (Q := inverse_from G U d m n NY Wm W1 W2 Y w F HN SY). destruct (mmap _ _ w) as [[Zl|ex] w1]; cbn [fst] in ME.
    - destruct Q as (X & ind & Z & E & _). rewrite E. left. eexists. reflexivity.
    - rewrite Q. cbn [fst]. destruct ME as [(a & E)|[E|E]]; [discriminate| |]; injection E as ->; [right; now left|right; now right].
  Qed.

  (** The tests of inverse over the bounded domain: apart from the errors of the hull and of
      the samplers they fail exactly when inverse returned a point on or beyond a face. *)
  Theorem C104_bounded_inverse : forall eigh argsort lstsq norm2 det ch (G : gen) (U : Type) (w : world G U (nd R)), eigh_contract eigh -> eigh_total eigh -> argsort_contract argsort ->
    let result := fst (test_bounded_active_variable_map_2 eigh argsort lstsq norm2 det B ch w) in
    (exists Y k e, ch Y = Err e /\ result = Err e /\ shape Y = [k; 2]%nat /\ ~ parallel_gradients G) \/ result = Err ValueError \/ result = Err OverflowError \/
    exists n A a Y x (w1 w2 : world G U (nd R)) X0 ind, av_inverse B a Y (IsA 10%Z) w1 = (Ok (X0, ind), w2) /\ orthonormal 3 n A /\ (1 <= n < 3)%nat /\
      shape Y = [10%nat; n] /\ shape X0 = [100; 3]%nat /\ (forall i c, (i < 10)%nat -> (c < 3)%nat -> -1 <= x i c < 1) /\
      (forall i j, (i < 10)%nat -> (j < n)%nat -> Y.[i, j] = sumf 3 (fun c => x i c * A c j)) /\
      ((result = Ok tt /\ forall r c, (r < 100)%nat -> (c < 3)%nat -> -1 < X0.[r, c] < 1) \/
       (result = Err AssertionError /\ exists r c, (r < 100)%nat /\ (c < 3)%nat /\ ~ -1 < X0.[r, c] < 1)).
  Proof.
    intros eigh argsort lstsq norm2 det ch G U w HE HTo HA result.
    destruct (a_subspace_ok eigh argsort lstsq norm2 det HE HTo HA w) as (sub & n & e & Wm & W1 & W2 & lam & EA & F & Hn & L & FM & EB). set (w1 := set_rng w _) in *.
    assert (OW : orthonormal 3 n (fun i j => W1.[i, j])). { intros a b Ha Hb. rewrite <- (frame_ortho _ _ _ _ _ _ F a b) by lia. apply sumf_ext. intros i Hi. now rewrite !(fr_e1 _ _ _ _ _ _ F). }
    assert (GO : forall d w2, bounded_domain ch (IsA sub) w1 = (Ok d, w2) -> d_subs d = sub -> result = Err ValueError \/ result = Err OverflowError \/
      exists n A a Y x (w1 w2 : world G U (nd R)) X0 ind, av_inverse B a Y (IsA 10%Z) w1 = (Ok (X0, ind), w2) /\ orthonormal 3 n A /\ (1 <= n < 3)%nat /\
      shape Y = [10%nat; n] /\ shape X0 = [100; 3]%nat /\ (forall i c, (i < 10)%nat -> (c < 3)%nat -> -1 <= x i c < 1) /\
      (forall i j, (i < 10)%nat -> (j < n)%nat -> Y.[i, j] = sumf 3 (fun c => x i c * A c j)) /\
      ((result = Ok tt /\ forall r c, (r < 100)%nat -> (c < 3)%nat -> -1 < X0.[r, c] < 1) \/
       (result = Err AssertionError /\ exists r c, (r < 100)%nat /\ (c < 3)%nat /\ ~ -1 < X0.[r, c] < 1))).
    { intros d w2 E S. destruct (uniform2_ev G (U := U) (L := nd R) (-1) 1 10 3 w2) as (X & EX & SX & VX). set (w3 := set_rng w2 _) in EX.
      assert (F' : frame (d_subs (av_domain (AVM MBounded d))) 3 n Wm W1 W2) by (cbn [av_domain]; now rewrite S). assert (F2 : frame (d_subs d) 3 n Wm W1 W2) by now rewrite S.
      destruct (inverts_ok B (AVM MBounded d) 3 n Wm W1 W2 X 10 w3 F' ltac:(lia) SX) as (Y & SY & VY & KE & KO).
      assert (XB : forall i c, (i < 10)%nat -> (c < 3)%nat -> -1 <= X.[i, c] < 1). { intros i c Hi Hc. rewrite VX by auto. assert (Q : 0 <= unif_at (rng w2) (i * 3 + c) < 1) by apply g_unif_spec. lra. }
      assert (RES : result = fst (mbind (inverts B (AVM MBounded d) X W1) (fun X0 => mlift (assert_equal (amap (fun x => floorR (Rabs x)) X0) (zeros2 (nrows X0) (ncols X0)))) w3)).
      { unfold result, test_bounded_active_variable_map_2. rewrite (nb _ _ w _ _ EA), (nb _ _ w1 _ _ EB), (nb _ _ w1 _ _ E), (nb _ _ w2 _ _ EX). reflexivity. }
      assert (IE := inverse_ends G U d 3 n 10 Wm W1 W2 Y (fun i c => X.[i, c]) w3 F2 ltac:(lia) ltac:(lia) SY VY ltac:(intros i c Hi Hc; assert (Q := XB i c Hi Hc); lra)).
      assert (Q := inverse_from G U d 3 n 10 Wm W1 W2 Y w3 F2 ltac:(lia) SY). destruct (mmap _ _ w3) as [[Zl|ex] w4].
      - destruct Q as (X0 & ind & Z & EI & IO & _). right. right. exists n, (fun i j => W1.[i, j]), (AVM MBounded d), Y, (fun i c => X.[i, c]), w3, w4, X0, ind.
        assert (S0 : shape X0 = [100; 3]%nat) by apply IO.
        split; [exact EI|]. split; [exact OW|]. split; [exact Hn|]. split; [exact SY|]. split; [exact S0|]. split; [exact XB|]. split; [exact VY|].
        rewrite RES, (nb _ _ w3 _ _ (KO _ _ _ _ EI IO)). unfold mlift. cbn [fst]. exact (floor_test X0 100 3 S0).
      - rewrite Q in IE. cbn [fst] in IE. rewrite RES. unfold mbind. rewrite (KE _ _ Q). cbn [fst]. destruct IE as [(a & Q1)|[Q1|Q1]]; [discriminate| |]; injection Q1 as ->; auto. }
    destruct (bounded_cases ch sub 3 n Wm W1 W2 w1 F ltac:(lia)) as (C1 & C2).
    destruct (Nat.eq_dec n 1) as [E1|N1].
    - destruct (C1 E1) as (d & ED & Sd). right. exact (GO d w1 ED Sd).
    - destruct (C2 N1) as (Y & X & k & w2 & SY & SX & BX & VY & CH). assert (n = 2%nat) by lia. subst n. destruct (ch Y) as [eqs|er] eqn:EY.
      + destruct CH as (d & ED & Sd). right. exact (GO d w2 ED Sd).
      + left. exists Y, k, er. split; [exact EY|]. split; [|split; [exact SY|intros P; assert (Q := one_active G e Wm lam 2 P L FM ltac:(lia)); discriminate]].
        unfold result, test_bounded_active_variable_map_2. rewrite (nb _ _ w _ _ EA), (nb _ _ w1 _ _ EB). unfold mbind. now rewrite CH.
  Qed.
End Inverse.
Print Assumptions C104_bounded_inverse.

(** ** Two generators over the bounded domain: one test passes, one fails *)
Lemma same_parallel : forall u z Hu, parallel_gradients (same_gen u z Hu).
Proof. intros u z Hu. exists (fun _ => z), (fun _ => 1). intros i j Hi Hj. unfold drawn. rewrite same_normal. ring. Qed.

(** with equal gradients (1, 1, 1) the first eigenvector is a multiple of (1, 1, 1) *)
Lemma ones_vector : forall C e V lam, (forall i k, (i < 3)%nat -> (k < 3)%nat -> C i k = 1) -> eigsorted 3 C e V lam -> exists c, 3 * (c * c) = 1 /\ forall i, (i < 3)%nat -> V.[i, 0%nat] = c.
Proof.
  intros C e V lam HC L. set (p := fun a => sumf 3 (fun k => V.[k, a])).
  assert (EG : forall a i, (a < 3)%nat -> (i < 3)%nat -> p a = lam a * V.[i, a]).
  { intros a i Ha Hi. assert (Q := es_eig _ _ _ _ _ L i a Hi Ha). unfold ent in Q. rewrite <- Q. unfold p. apply sumf_ext. intros k Hk. rewrite HC by auto. ring. }
  assert (OV := es_orth _ _ _ _ _ L).
  assert (N0 : lam 0%nat <> 0).
  { intros Z. assert (ZA : forall a, (a < 3)%nat -> lam a = 0).
    { intros a Ha. destruct (Nat.eq_dec a 0) as [->|Na]; auto. assert (D := es_dec _ _ _ _ _ L 0%nat a ltac:(lia) ltac:(lia)). cbv beta in D. rewrite !(es_abs _ _ _ _ _ L), Z, Rabs_R0 in D by lia.
      destruct (Req_dec (lam a) 0) as [|NZ]; auto. assert (P := Rabs_pos_lt _ NZ). lra. }
    assert (Q : sumf 3 (fun k => sumf 3 (fun a => V.[0%nat, a] * V.[k, a])) = 0).
    { rewrite sumf_swap. apply sumf_zero. intros a Ha. rewrite sumf_scal_l. fold (p a). rewrite (EG a 0%nat Ha) by lia. rewrite ZA by auto. ring. }
    rewrite (sumf_ext 3 _ (fun k => kron_delta 0 k)) in Q by (intros k Hk; exact (ortho_rows 3 _ OV 0%nat k ltac:(lia) Hk)). cbn in Q. lra. }
  exists (p 0%nat / lam 0%nat). assert (VC : forall i, (i < 3)%nat -> V.[i, 0%nat] = p 0%nat / lam 0%nat). { intros i Hi. rewrite (EG 0%nat i) by lia. field. auto. }
  split; [|exact VC]. assert (O := OV 0%nat 0%nat ltac:(lia) ltac:(lia)). unfold kron_delta, ent in O. cbn [Nat.eqb sumf] in O. rewrite !VC in O by lia. lra.
Qed.

Section Both.
  Variables (u : R) (Hu : 0 <= u < 1).
  Notation G := (same_gen u 1 Hu).
  Variables (B : backend).
  Hypothesis HG : has_gurobi B = false.
  Hypothesis HL : linprog_ok (linprog B).
  Hypothesis HT : linprog_total (linprog B).
  Hypothesis HO : gurobi_ok (gurobi B).

  Lemma zero_sample : forall (U : Type) sb m n Wm W1 W2 y (w : world G U (nd R)), frame sb m n Wm W1 W2 -> shape y = [n] -> let inside := inpoly W2 m (m - n) (shift W1 y n) in
    inside (fun _ => 0) -> (forall lo hi, tight_box inside (m - n) lo hi -> forall j, (j < m - n)%nat -> lo j + (hi j - lo j) * u = 0) ->
    exists Z w', sample_z B (IsA 10%Z) y W1 W2 w = (Ok Z, w') /\ forall l j, (l < 10)%nat -> (j < m - n)%nat -> Z.[l, j] = 0.
  Proof.
    intros U sb m n Wm W1 W2 y w F Sy inside I0 HB. assert (H1 := fr_s1 _ _ _ _ _ _ F). assert (H2 := fr_s2 _ _ _ _ _ _ F).
    destruct (C99_rejection_returns G U (nd R) B sb m n 10 Wm W1 W2 y w F Sy HG HL HT ltac:(eauto)) as (o & w' & ER).
    destruct (C99_rejection B m n (Z.of_nat 10) y W1 W2 w w' o H1 H2 Sy HL HO ER) as (Nn & lo & hi & idx & EN & _ & TB & _ & SS & MI & RO). assert (Nn = 10%nat) by lia. subst Nn. cbv zeta in MI, RO. fold inside in TB, MI.
    assert (CZ : forall r j, (j < m - n)%nat -> lo j + (hi j - lo j) * unif_at (rng w) (r * (m - n) + j) = 0) by (intros r j Hj; rewrite same_unif; now apply HB).
    assert (ALL : forall r, (r < 10)%nat -> In r idx).
    { intros r Hr. apply MI. split; [lia|]. intros i Hi. rewrite (sumf_ext (m - n) _ (fun j => W2.[i, j] * 0)) by (intros j Hj; now rewrite CZ). exact (I0 i Hi). }
    assert (LE : (10 <= List.length idx)%nat). { rewrite <- (seq_length 10 0). apply NoDup_incl_length; [apply seq_NoDup|]. intros r Hr. apply in_seq in Hr. apply ALL. lia. }
    unfold sample_z. change 10%Z with (Z.of_nat 10). unfold mbind. rewrite ER. destruct o as [Z|]; [|lia]. exists Z, w'. split; [reflexivity|]. intros l j Hl Hj. destruct RO as (_ & _ & V). rewrite V by auto. now apply CZ.
  Qed.

  (** what the tests see: the given points of the cube all have equal coordinates *)
  Lemma equal_points : forall eigh argsort lstsq norm2 det ch (U : Type) (w : world G U (nd R)), eigh_contract eigh -> eigh_total eigh -> argsort_contract argsort ->
    (u = 0 \/ u = / 2) -> exists X0, shape X0 = [100; 3]%nat /\ (forall r c, (r < 100)%nat -> (c < 3)%nat -> X0.[r, c] = -1 + 2 * u) /\
      fst (test_bounded_active_variable_map_2 eigh argsort lstsq norm2 det B ch w) = assert_equal (amap (fun x => floorR (Rabs x)) X0) (zeros2 (nrows X0) (ncols X0)).
  Proof.
    intros eigh argsort lstsq norm2 det ch U w HE HTo HA U01.
    destruct (a_subspace_ok eigh argsort lstsq norm2 det HE HTo HA w) as (sub & n & e & Wm & W1 & W2 & lam & EA & F & Hn & L & FM & EB). set (w1 := set_rng w _) in *.
    assert (n = 1%nat) by exact (one_active G e Wm lam n (same_parallel u 1 Hu) L FM Hn). subst n.
    assert (HC : forall i k, (i < 3)%nat -> (k < 3)%nat -> gradC 10 (fun i j => @normal_at G (g_seed G 42) (i * 3 + j)) (fun _ => / INR 10) i k = 1).
    { intros i k Hi Hk. transitivity (sumf 10 (fun _ : nat => / INR 10)); [|rewrite sumf_const; apply Rinv_r; apply not_0_INR; lia]. unfold gradC. apply sumf_ext. intros s Hs. change (/ INR 10 * (1 * 1) = / INR 10). ring. }
    destruct (ones_vector _ _ _ _ HC L) as (c & C1 & VC).
    assert (W1c : forall i, (i < 3)%nat -> W1.[i, 0%nat] = c) by (intros i Hi; rewrite (fr_e1 _ _ _ _ _ _ F) by lia; auto).
    destruct (proj1 (bounded_cases ch sub 3 1 Wm W1 W2 w1 F ltac:(lia)) eq_refl) as (d & ED & Sd).
    destruct (uniform2_ev G (U := U) (L := nd R) (-1) 1 10 3 w1) as (X & EX & SX & VX). set (w3 := set_rng w1 _) in EX.
    assert (F' : frame (d_subs (av_domain (AVM MBounded d))) 3 1 Wm W1 W2) by (cbn [av_domain]; now rewrite Sd). assert (F2 : frame (d_subs d) 3 1 Wm W1 W2) by now rewrite Sd.
    destruct (inverts_ok B (AVM MBounded d) 3 1 Wm W1 W2 X 10 w3 F' ltac:(lia) SX) as (Y & SY & VY & KE & KO). set (v := -1 + 2 * u).
    assert (VY' : forall i, (i < 10)%nat -> Y.[i, 0%nat] = 3 * (v * c)).
    { intros i Hi. rewrite VY by lia. cbn [sumf]. rewrite !VX, !W1c by lia. rewrite !same_unif. unfold v. ring. }
    assert (SAMP : forall i (w4 : world G U (nd R)), (i < 10)%nat -> exists Z w', sample_z B (IsA 10%Z) (row1 Y i) W1 W2 w4 = (Ok Z, w') /\ forall l j, (l < 10)%nat -> (j < 2)%nat -> Z.[l, j] = 0).
    { intros i w4 Hi. assert (Sy : shape (row1 Y i) = [1%nat]) by (unfold row1; cbn [shape mk1]; now rewrite (ncols_shape2 _ Y _ _ SY)).
      assert (SH : forall q, (q < 3)%nat -> shift W1 (row1 Y i) 1 q = v). { intros q Hq. unfold shift. cbn [sumf]. unfold row1. rewrite at_mk1, VY', W1c by auto. rewrite Rplus_0_l. replace (c * (3 * (v * c))) with (v * (3 * (c * c))) by ring. rewrite C1. ring. }
      destruct (zero_sample U sub 3 1 Wm W1 W2 (row1 Y i) w4 F Sy) as (Z & w' & E & V).
      - intros q Hq. rewrite SH by auto. rewrite sumf_zero by (intros; ring). unfold v. lra.
      - intros lo hi TB j Hj. destruct (TB j Hj) as (BX & (z1 & P1 & Q1) & (z2 & P2 & Q2)). destruct U01 as [-> | ->].
        + (* u = 0: only 0 is inside *)
          assert (v = -1) by (unfold v; lra). rewrite Rmult_0_r, Rplus_0_r, <- Q1. change (3 - 1)%nat with 2%nat in *.
          assert (GE : forall q, (q < 3)%nat -> 0 <= sumf 2 (fun j => W2.[q, j] * z1 j)). { intros q Hq. assert (Q := P1 q Hq). rewrite SH in Q by auto. lra. }
          assert (O1 : forall b, (b < 2)%nat -> sumf 3 (fun i => W2.[i, b]) = 0).
          { intros b Hb. assert (O := frame_ortho _ _ _ _ _ _ F 0%nat (1 + b)%nat ltac:(lia) ltac:(lia)). unfold kron_delta in O. cbn [Nat.eqb Nat.add] in O.
            rewrite (sumf_ext 3 _ (fun i => c * W2.[i, b])) in O by (intros q Hq; rewrite (fr_e2 _ _ _ _ _ _ F), VC by lia; reflexivity). rewrite sumf_scal_l in O. assert (c <> 0) by (intros ->; lra). apply Rmult_integral in O. tauto. }
          assert (SZ : sumf 3 (fun q => sumf 2 (fun j => W2.[q, j] * z1 j)) = 0). { rewrite sumf_swap. apply sumf_zero. intros b Hb. rewrite sumf_scal_r, O1 by auto. ring. }
          assert (Z0 := sumf_nonneg_eq0 3 _ GE SZ). cbv beta in Z0.
          assert (VZ : sumf 3 (fun q => W2.[q, j] * sumf 2 (fun b => W2.[q, b] * z1 b)) = z1 j).
          { rewrite (sumf_ext 3 _ (fun q => sumf 2 (fun b => z1 b * (W2.[q, b] * W2.[q, j])))) by (intros q Hq; rewrite <- sumf_scal_l; apply sumf_ext; intros; ring). rewrite sumf_swap.
            rewrite (sumf_ext 2 _ (fun b => z1 b * kron_delta b j)); [now rewrite sumf_kd_r by lia|]. intros b Hb. rewrite sumf_scal_l. f_equal.
            assert (O := frame_ortho _ _ _ _ _ _ F (1 + b)%nat (1 + j)%nat ltac:(lia) ltac:(lia)). cbv beta in O. transitivity (kron_delta (1 + b) (1 + j)); [|reflexivity]. rewrite <- O. apply sumf_ext. intros q Hq. now rewrite !(fr_e2 _ _ _ _ _ _ F) by lia. }
          rewrite <- VZ. apply sumf_zero. intros q Hq. rewrite Z0 by auto. ring.
        + (* u = 1/2: the polytope is symmetric *)
          assert (V0 : v = 0) by (unfold v; lra).
          assert (SYM : forall z, inpoly W2 3 (3 - 1) (shift W1 (row1 Y i) 1) z -> inpoly W2 3 (3 - 1) (shift W1 (row1 Y i) 1) (fun j => - z j)).
          { intros z P q Hq. specialize (P q Hq). rewrite SH, V0 in * by auto. rewrite (sumf_ext (3 - 1) _ (fun j => - (W2.[q, j] * z j))) by (intros; ring). rewrite sumf_opp. lra. }
          assert (A1 := BX _ (SYM _ P1)). assert (A2 := BX _ (SYM _ P2)). cbv beta in A1, A2. rewrite Q1 in A1. rewrite Q2 in A2. lra.
      - exists Z, w'. auto. }
    assert (Q := inverse_from B HL HO G U d 3 1 10 Wm W1 W2 Y w3 F2 ltac:(lia) SY).
    assert (MM : forall l (w4 : world G U (nd R)), (forall i, In i l -> (i < 10)%nat) -> exists Zl w', mmap (fun i => sample_z B (IsA 10%Z) (row1 Y i) W1 W2) l w4 = (Ok Zl, w') /\ List.length Zl = List.length l /\ Forall (fun Z => forall a j, (a < 10)%nat -> (j < 2)%nat -> Z.[a, j] = 0) Zl).
    { induction l as [|i l IH]; intros w4 Hl; cbn [mmap]; [eexists [], _; split; [reflexivity|]; split; [reflexivity|constructor]|].
      destruct (SAMP i w4 ltac:(apply Hl; now left)) as (Z & w5 & E & VZ). rewrite (nb _ _ w4 _ _ E). destruct (IH w5 ltac:(intros; apply Hl; now right)) as (Zl & w6 & E6 & LL & FA). rewrite (nb _ _ w5 _ _ E6).
      eexists _, _. split; [reflexivity|]. split; [cbn; lia|]. constructor; auto. }
    destruct (MM (seq 0 10) w3 ltac:(intros i Hi; apply in_seq in Hi; lia)) as (Zl & w4 & EM & LL & FA). rewrite EM in Q. destruct Q as (X0 & ind & Z & EI & IO & V0). rewrite seq_length in LL.
    assert (S0 : shape X0 = [100; 3]%nat) by apply IO. exists X0. split; [exact S0|]. split.
    - intros r a Hr Ha. assert (D := Nat.div_mod r 10 ltac:(lia)). assert (D1 : (r mod 10 < 10)%nat) by (apply Nat.mod_upper_bound; lia). assert (D2 : (r / 10 < 10)%nat) by (apply Nat.div_lt_upper_bound; lia).
      replace r with (r / 10 * 10 + r mod 10)%nat by lia. rewrite V0 by auto. rewrite Forall_forall in FA. rewrite (sumf_zero (3 - 1)).
      + cbn [sumf]. rewrite VY', W1c by auto. rewrite Rplus_0_l, Rplus_0_r. replace (c * (3 * (v * c))) with (v * (3 * (c * c))) by ring. rewrite C1. unfold v. ring.
      + intros j Hj. rewrite (FA (nth (r / 10) Zl (mk2 0 0 (fun _ _ => 0)))); [ring|apply nth_In; lia|exact D1|exact Hj].
    - unfold test_bounded_active_variable_map_2. rewrite (nb _ _ w _ _ EA), (nb _ _ w1 _ _ EB), (nb _ _ w1 _ _ ED), (nb _ _ w1 _ _ EX), (nb _ _ w3 _ _ (KO _ _ _ _ EI IO)). reflexivity.
  Qed.
End Both.

(** uniform numbers may be 0, so that the cube's corner (-1, -1, -1) is drawn: then the
    inverse is that corner, the floor of the absolute value is 1, and the test fails *)
Theorem C104_bounded_inverse_refuted : exists (G : gen), forall eigh argsort lstsq norm2 det ch B (U : Type) (w : world G U (nd R)), eigh_contract eigh -> eigh_total eigh -> argsort_contract argsort ->
  has_gurobi B = false -> linprog_ok (linprog B) -> linprog_total (linprog B) -> gurobi_ok (gurobi B) ->
  fst (test_bounded_active_variable_map_2 eigh argsort lstsq norm2 det B ch w) = Err AssertionError.
Proof.
  exists (same_gen 0 1 zero01). intros eigh argsort lstsq norm2 det ch B U w HE HTo HA HG HL HT HO.
  destruct (equal_points 0 zero01 B HG HL HT HO eigh argsort lstsq norm2 det ch U w HE HTo HA ltac:(now left)) as (X0 & S0 & V0 & ->).
  destruct (floor_test X0 100 3 S0) as [(_ & Q)|(Q & _)]; [|exact Q]. specialize (Q 0%nat 0%nat ltac:(lia) ltac:(lia)). rewrite V0 in Q by lia. lra.
Qed.
Print Assumptions C104_bounded_inverse_refuted.

(** ** Cases *)
(** with gradients (1, 1, 1) and the centre of the cube the same tests pass *)
Example C104_bounded_inverse_case : forall ch,
  fst (test_bounded_active_variable_map_2 eigh_ref argsort_ref lstsq_ref norm2_ref det_ref backend_ref ch (same_world (/ 2) 1 half01)) = Ok tt /\
  fst (test_bounded_active_variable_map_2 eigh_ref argsort_ref lstsq_ref norm2_ref det_ref backend_ref ch (same_world 0 1 zero01)) = Err AssertionError.
Proof.
  intros ch. split.
  - destruct (equal_points (/ 2) half01 backend_ref eq_refl linprog_ref_ok linprog_ref_succeeds ltac:(intros P l H; discriminate) eigh_ref argsort_ref lstsq_ref norm2_ref det_ref ch unit (same_world (/ 2) 1 half01) eigh_ref_contract eigh_ref_total argsort_ref_contract ltac:(now right)) as (X0 & S0 & V0 & ->).
    destruct (floor_test X0 100 3 S0) as [(Q & _)|(_ & i & j & Hi & Hj & Q)]; [exact Q|]. exfalso. apply Q. rewrite V0 by auto. lra.
  - destruct (equal_points 0 zero01 backend_ref eq_refl linprog_ref_ok linprog_ref_succeeds ltac:(intros P l H; discriminate) eigh_ref argsort_ref lstsq_ref norm2_ref det_ref ch unit (same_world 0 1 zero01) eigh_ref_contract eigh_ref_total argsort_ref_contract ltac:(now left)) as (X0 & S0 & V0 & ->).
    destruct (floor_test X0 100 3 S0) as [(_ & Q)|(Q & _)]; [|exact Q]. specialize (Q 0%nat 0%nat ltac:(lia) ltac:(lia)). rewrite V0 in Q by lia. lra.
Qed.
Example C104_unbounded_case : let w := same_world (/ 2) 1 half01 in
  fst (test_unbounded_active_variable_domain eigh_ref argsort_ref lstsq_ref norm2_ref det_ref w) = Ok tt /\
  fst (test_unbounded_active_variable_map_2 eigh_ref argsort_ref lstsq_ref norm2_ref det_ref backend_ref w) = Ok tt.
Proof.
  intros w. destruct (C104_unbounded eigh_ref argsort_ref lstsq_ref norm2_ref det_ref backend_ref _ unit w eigh_ref_contract eigh_ref_total argsort_ref_contract) as (A & _ & C). split; [exact A|exact C].
Qed.
Example C104_bounded_case : forall ch, let w := same_world (/ 2) 1 half01 in parallel_gradients (same_gen (/ 2) 1 half01) /\
  fst (test_bounded_active_variable_domain eigh_ref argsort_ref lstsq_ref norm2_ref det_ref ch w) = Ok tt /\
  fst (test_bounded_active_variable_map_0 eigh_ref argsort_ref lstsq_ref norm2_ref det_ref ch w) = Ok tt.
Proof.
  intros ch w. destruct (C104_bounded eigh_ref argsort_ref lstsq_ref norm2_ref det_ref ch _ unit w eigh_ref_contract eigh_ref_total argsort_ref_contract) as (A & P & _). cbv zeta in A, P.
  assert (HP := same_parallel (/ 2) 1 half01). split; [exact HP|]. rewrite A. split; exact (P HP).
Qed.
Example C104_samplers_case : let w := same_world (/ 2) 0 half01 in
  fst (test_rejection_sample_z eigh_ref argsort_ref lstsq_ref norm2_ref det_ref backend_ref w) = Ok tt /\ fst (test_random_walk_z eigh_ref argsort_ref lstsq_ref norm2_ref det_ref backend_ref w) = Ok tt.
Proof.
  intros w. destruct (C104_samplers backend_ref eq_refl linprog_ref_ok linprog_ref_succeeds eigh_ref argsort_ref lstsq_ref norm2_ref det_ref _ unit w eigh_ref_contract eigh_ref_total argsort_ref_contract ltac:(intros P l H; discriminate)) as (A & C & _).
  split; [exact A|exact C].
Qed.
