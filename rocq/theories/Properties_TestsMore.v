(** C101: the repository's own unit tests of the gradients and the simulation runners. *)
From Coq Require Import String Reals Lra Lia List Arith ZArith Bool.
From Verif Require Import Prelude Py NumArr Toy M_Misc P_Misc Properties_Misc Cholesky SolveRef M_SimRunners P_SimRunners M_Gradients P_Gradients Lsq Sorting P_LocalLinear Properties_Gradients
  M_QP P_QP Properties_QP M_Subspaces M_Quadrature P_Quadrature Properties_Quadrature M_Domains P_Domains M_Designs P_Designs P_Multistart Properties_Designs P_Notebooks M_Tests P_Tests Properties_Tests.
Import ListNotations.
Open Scope R_scope.

(** ** tests/test_gradients.py *)

(** three points of the plane on a line *)
Definition on_a_line (x : nat -> nat -> R) (a b c : nat) : Prop :=
  (x b 0%nat - x a 0%nat) * (x c 1%nat - x a 1%nat) - (x c 0%nat - x a 0%nat) * (x b 1%nat - x a 1%nat) = 0.

Lemma no_line_full_rank : forall (X : nd R) q l, (forall a b c, (a < 200)%nat -> (b < 200)%nat -> (c < 200)%nat -> a <> b -> a <> c -> b <> c -> ~ on_a_line (fun i j => X.[i, j]) a b c) ->
  (3 <= q)%nat -> NoDup l -> List.length l = q -> (forall k, In k l -> (k < 200)%nat) ->
  full_rank q 3 (fun i j => match j with O => 1 | S k => X.[nth i l 0%nat, k] end).
Proof.
  intros X q l HL Hq ND Ll HI. destruct l as [|a [|b [|c l]]]; simpl in Ll; try lia.
  assert (a < 200 /\ b < 200 /\ c < 200)%nat as (Ha & Hb & Hc) by (repeat split; apply HI; simpl; auto).
  assert (NE : a <> b /\ a <> c /\ b <> c).
  { inversion ND as [|? ? N1 N2]; subst. inversion N2 as [|? ? N3 N4]; subst. simpl in N1, N3. repeat split; intros ->; tauto. }
  specialize (HL a b c Ha Hb Hc (proj1 NE) (proj1 (proj2 NE)) (proj2 (proj2 NE))). unfold on_a_line in HL.
  intros x Hx. assert (H0 := Hx 0%nat ltac:(lia)). assert (H1 := Hx 1%nat ltac:(lia)). assert (H2 := Hx 2%nat ltac:(lia)).
  cbn [sumf nth] in H0, H1, H2.
  set (p0 := X.[a, 0%nat]) in *. set (p1 := X.[a, 1%nat]) in *. set (q0 := X.[b, 0%nat]) in *. set (q1 := X.[b, 1%nat]) in *. set (r0 := X.[c, 0%nat]) in *. set (r1 := X.[c, 1%nat]) in *.
  assert (E1 : (q0 - p0) * x 1%nat + (q1 - p1) * x 2%nat = 0) by lra. assert (E2 : (r0 - p0) * x 1%nat + (r1 - p1) * x 2%nat = 0) by lra.
  assert (D1 : ((q0 - p0) * (r1 - p1) - (r0 - p0) * (q1 - p1)) * x 1%nat = 0).
  { replace (((q0 - p0) * (r1 - p1) - (r0 - p0) * (q1 - p1)) * x 1%nat) with ((r1 - p1) * ((q0 - p0) * x 1%nat + (q1 - p1) * x 2%nat) - (q1 - p1) * ((r0 - p0) * x 1%nat + (r1 - p1) * x 2%nat)) by ring. rewrite E1, E2. ring. }
  assert (D2 : ((q0 - p0) * (r1 - p1) - (r0 - p0) * (q1 - p1)) * x 2%nat = 0).
  { replace (((q0 - p0) * (r1 - p1) - (r0 - p0) * (q1 - p1)) * x 2%nat) with ((q0 - p0) * ((r0 - p0) * x 1%nat + (r1 - p1) * x 2%nat) - (r0 - p0) * ((q0 - p0) * x 1%nat + (q1 - p1) * x 2%nat)) by ring. rewrite E1, E2. ring. }
  apply Rmult_integral in D1, D2. assert (X1 : x 1%nat = 0) by tauto. assert (X2 : x 2%nat = 0) by tauto. rewrite X1, X2 in H0.
  intros [|[|[|j]]] Hj; auto; [lra|lia].
Qed.

Lemma ll_None : forall argsort lstsq (G : gen) (U : Type) X f (w : world G U (nd R)), shape X = [200; 2]%nat ->
  local_linear_gradients argsort lstsq X f None None w = local_linear_gradients argsort lstsq X f (Some (IsA 3%Z)) None w.
Proof.
  intros argsort lstsq G U X f w HX. unfold local_linear_gradients. rewrite !bind_lift.
  destruct (process_inputs X) as [[[X' M] m]|e] eqn:E; [|reflexivity].
  assert (M = 200 /\ m = 2)%nat as [-> ->].
  { unfold process_inputs in E. rewrite HX in E. destruct (reshape [200; 2]%nat X); [|discriminate]. cbn [rbind] in E. injection E as _ <- <-. auto. }
  cbv iota beta. reflexivity.
Qed.

(** the test of the local linear gradients passes whenever no three of its 200 points
    lie on one line *)
Theorem C101_local_linear_gradients : forall argsort lstsq (G : gen) (U : Type) (w : world G U (nd R)), argsort_contract argsort -> lstsq_contract lstsq -> lstsq_total lstsq ->
  (forall a b c, (a < 200)%nat -> (b < 200)%nat -> (c < 200)%nat -> a <> b -> a <> c -> b <> c -> ~ on_a_line (fun i j => unif_at (g_seed G 42) (i * 2 + j)) a b c) ->
  fst (test_local_linear_gradients argsort lstsq w) = Ok tt.
Proof.
  intros argsort lstsq G U w HA HL HT HN. unfold test_local_linear_gradients.
  rewrite (nb (seed 42) _ w tt (set_rng w (g_seed G 42)) eq_refl). set (w0 := set_rng w _).
  destruct (uniform2_ev G (-1) 1 200 2 w0) as (X & EX & SX & VX). rewrite (nb _ _ w0 _ _ EX). set (w1 := set_rng w0 _). cbv zeta.
  assert (NL : forall a b c, (a < 200)%nat -> (b < 200)%nat -> (c < 200)%nat -> a <> b -> a <> c -> b <> c -> ~ on_a_line (fun i j => X.[i, j]) a b c).
  { intros a b c Ha Hb Hc N1 N2 N3 K. apply (HN a b c Ha Hb Hc N1 N2 N3). unfold on_a_line in *. rewrite !VX in K by lia. unfold w0 in K. cbn [rng set_rng] in K.
    match type of K with ?l = 0 => match goal with |- ?r = 0 => assert (l = 4 * r) by ring end end. lra. }
  assert (DR : distinct_rows X 200).
  { intros i j Hi Hj Nij Z. unfold sqdist in Z. rewrite (ncols_shape2 _ X _ _ SX) in Z. cbn [sumf] in Z.
    assert (X.[i, 0%nat] - X.[j, 0%nat] = 0 /\ X.[i, 1%nat] - X.[j, 1%nat] = 0) as [Z0 Z1].
    { set (a := X.[i, 0%nat] - X.[j, 0%nat]) in *. set (b := X.[i, 1%nat] - X.[j, 1%nat]) in *. assert (0 <= a * a) by apply Rle_0_sqr. assert (0 <= b * b) by apply Rle_0_sqr.
      assert (A0 : a * a = 0) by lra. assert (B0 : b * b = 0) by lra. apply Rmult_integral in A0, B0. tauto. }
    assert (exists c, (c < 200)%nat /\ c <> i /\ c <> j) as (c & Hc & Ci & Cj).
    { destruct (Nat.eq_dec i 0), (Nat.eq_dec j 0), (Nat.eq_dec i 1), (Nat.eq_dec j 1); try lia; first [exists 0%nat; lia|exists 1%nat; lia|exists 2%nat; lia]. }
    apply (NL i j c Hi Hj Hc); auto. unfold on_a_line.
    replace (X.[j, 0%nat] - X.[i, 0%nat]) with 0 by lra. replace (X.[j, 1%nat] - X.[i, 1%nat]) with 0 by lra. ring. }
  assert (RUN : forall z f (v : world G U (nd R)), (3 <= z < 200)%Z -> shape f = [200; 1]%nat -> exists df v', local_linear_gradients argsort lstsq X f (Some (IsA z)) None v = (Ok df, v')).
  { intros z f v Hz Sf. apply (C08_returns argsort lstsq G U X f None 200 2 z v HA HT SX Sf); auto; try lia. }
  set (f := mk2 200 1 _).
  assert (EXA : forall z (v v' : world G U (nd R)) df, (3 <= z)%Z -> local_linear_gradients argsort lstsq X f (Some (IsA z)) None v = (Ok df, v') -> assert_almost_equal 9 df (tiled (nrows df)) = Ok tt).
  { intros z v v' df Hz E. destruct (C08_exact_on_affine_data argsort lstsq G U X f (Some (IsA z)) None 200 2 v df v' 2 (fun j => nth j [-5; 4] 0) HA HL SX eq_refl I) as (MM & Sd & Vd); [| |exact E|].
    - intros i Hi. unfold f. rewrite at_mk2. cbn [sumf nth]. ring.
    - intros q Hq HQ l ND Ll HI. apply no_line_full_rank; auto. destruct HQ as [(z' & Ez & Eq)|[Ez _]]; [|discriminate]. injection Ez as <-. lia.
    - apply (almost_same 9 _ _ MM 2 Sd); [rewrite (nrows_shape2 _ df _ _ Sd); reflexivity|]. intros i j Hi Hj. rewrite Vd by auto. reflexivity. }
  rewrite mbind_ext_l with (m' := local_linear_gradients argsort lstsq X f (Some (IsA 3%Z)) None) by (now apply ll_None).
  destruct (RUN 3%Z f w1 ltac:(lia) eq_refl) as (df1 & w2 & E1). rewrite (nb _ _ w1 _ _ E1), (bind_assert _ _ _ _ _ (EXA 3%Z _ _ _ ltac:(lia) E1)).
  destruct (RUN 8%Z f w2 ltac:(lia) eq_refl) as (df2 & w3 & E2). rewrite (nb _ _ w2 _ _ E2), (bind_assert _ _ _ _ _ (EXA 8%Z _ _ _ ltac:(lia) E2)).
  rewrite (nb (seed 1234) _ w3 tt (set_rng w3 (g_seed G 1234)) eq_refl). set (w4 := set_rng w3 _). set (g := mk2 200 1 _).
  rewrite mbind_ext_l with (m' := local_linear_gradients argsort lstsq X g (Some (IsA 3%Z)) None) by (now apply ll_None).
  destruct (RUN 3%Z g w4 ltac:(lia) eq_refl) as (df3 & w5 & E3). rewrite (nb _ _ w4 _ _ E3). reflexivity.
Qed.
Print Assumptions C101_local_linear_gradients.

(** and it stops with a ValueError when all its points coincide *)
Lemma all_equal_no_neighbours : forall argsort (X : nd R) ii, (forall i, (i < nrows X)%nat -> sqdist X i ii = 0) -> ll_ind argsort X ii = [].
Proof.
  intros argsort X ii H. unfold ll_ind, mask_select.
  assert (K : forall (l : list nat) (b : list bool), Forall (fun x => x = false) b -> filter (fun p : nat * bool => snd p) (combine l b) = []).
  { induction l as [|a l IH]; intros b Hb; [reflexivity|]. destruct Hb as [|x b Hx Hb]; [reflexivity|]. subst x. cbn. now apply IH. }
  rewrite K; [reflexivity|]. apply Forall_forall. intros x Hx. apply in_map_iff in Hx. destruct Hx as (d & <- & Hd). unfold ll_D2 in Hd. apply in_map_iff in Hd.
  destruct Hd as (i & <- & Hi). apply in_seq in Hi. rewrite H by lia. unfold neq0b. destruct (Req_EM_T 0 0); [reflexivity|contradiction].
Qed.

Theorem C101_local_linear_gradients_same_points : forall argsort lstsq (G : gen) (U : Type) (w : world G U (nd R)),
  (forall i j, (i < 200)%nat -> (j < 2)%nat -> unif_at (g_seed G 42) (i * 2 + j) = unif_at (g_seed G 42) j) ->
  fst (test_local_linear_gradients argsort lstsq w) = Err ValueError.
Proof.
  intros argsort lstsq G U w HE. unfold test_local_linear_gradients.
  rewrite (nb (seed 42) _ w tt (set_rng w (g_seed G 42)) eq_refl). set (w0 := set_rng w _).
  destruct (uniform2_ev G (-1) 1 200 2 w0) as (X & EX & SX & VX). rewrite (nb _ _ w0 _ _ EX). set (w1 := set_rng w0 _). cbv zeta. set (f := mk2 200 1 _).
  rewrite mbind_ext_l with (m' := local_linear_gradients argsort lstsq X f (Some (IsA 3%Z)) None) by (now apply ll_None).
  enough (exists v, local_linear_gradients argsort lstsq X f (Some (IsA 3%Z)) None w1 = (Err ValueError, v)) as (v & E) by (unfold mbind at 1; rewrite E; reflexivity).
  unfold local_linear_gradients. rewrite bind_lift, (process_inputs_eq _ X 200 2 SX). cbv iota beta.
  change (200 <=? 2)%nat with false. cbv iota. rewrite bind_lift. cbn [ll_p].
  change ((3 <? Z.of_nat 2 + 1)%Z || (Z.of_nat 200 <? 3)%Z)%bool with false. cbv iota zeta. rewrite bind_lift. cbn [ll_MM]. change (Z.to_nat 3) with 3%nat.
  assert (KK : exists K, Nat.min (Z.to_nat (ceilZ (10 * INR 2 * ln (INR 2)))) (200 - 1) = S K).
  { assert (L2 : 0 < ln (INR 2)) by (rewrite <- ln_1; apply ln_increasing; [lra|cbn [INR]; lra]). assert (C0 : 0 < 10 * INR 2 * ln (INR 2)) by (apply Rmult_lt_0_compat; [cbn [INR]; lra|exact L2]).
    generalize dependent (10 * INR 2 * ln (INR 2)). intros x Hx. unfold ceilZ. destruct (archimed (- x)) as [_ A]. assert (IZR (up (- x)) < IZR 1) by lra.
    apply lt_IZR in H. exists (Nat.min (Z.to_nat (- (up (- x) - 1)) - 1) (200 - 2)). lia. }
  destruct KK as (K & ->). cbn [seq mmap].
  set (wt := mk2 200 1 _).
  assert (DR : exists ii v, draw_randint 200 w1 = (Ok ii, v) /\ (ii < 200)%nat).
  { unfold draw_randint. destruct (g_randint G 200 (rng w1)) as [x s] eqn:Eg. exists x, (set_rng w1 s). split; [reflexivity|].
    assert (Q := g_randint_spec G 200 (rng w1) ltac:(lia)). rewrite Eg in Q. exact Q. }
  destruct DR as (ii & v & Ed & Hii). exists v. unfold mbind at 1. unfold mbind at 1. rewrite (nb _ _ w1 _ _ Ed).
  assert (EF : ll_fit argsort lstsq X f wt 3 ii = Err ValueError).
  { unfold ll_fit. rewrite all_equal_no_neighbours.
    - cbn [firstn]. unfold take_rows at 1. cbn [forallb List.length rbind]. reflexivity.
    - intros i Hi. rewrite (nrows_shape2 _ X _ _ SX) in Hi. unfold sqdist. rewrite (ncols_shape2 _ X _ _ SX). cbn [sumf]. rewrite !VX by lia.
      unfold w0. cbn [rng set_rng]. rewrite !(HE i), !(HE ii) by lia. ring. }
  rewrite EF. reflexivity.
Qed.
Print Assumptions C101_local_linear_gradients_same_points.

(** points on a parabola, and all points equal *)
Program Definition parabola_gen : gen := {|
  gst := nat; g_seed := fun _ => 0%nat; g_normal := fun s => (0, S s);
  g_unif := fun s => (if Nat.even s then (if s <? 400 then INR (s / 2) / 200 else 0) else (if s <? 400 then (INR (s / 2) / 200) * (INR (s / 2) / 200) else 0), S s);
  g_randint := fun hi s => (Nat.modulo s hi, S s) |}.
Next Obligation.
  assert (K : (s < 400)%nat -> 0 <= INR (s / 2) / 200 < 1).
  { intros H. assert (s / 2 < 200)%nat by (apply Nat.div_lt_upper_bound; lia). apply lt_INR in H0. replace (INR 200) with 200 in H0 by (rewrite INR_IZR_INZ; reflexivity).
    pose proof (pos_INR (s / 2)). split; [apply Rle_mult_inv_pos; lra|]. apply Rmult_lt_reg_r with 200; [lra|]. unfold Rdiv. rewrite Rmult_assoc, Rinv_l; lra. }
  destruct (Nat.even s), (Nat.ltb_spec s 400); cbn [fst]; try lra; auto. specialize (K H). change (fst (Nat.divmod s 1 0 1)) with (s / 2)%nat. revert K. generalize (INR (s / 2) / 200). intros x K. split; nra.
Qed.
Next Obligation. apply Nat.mod_upper_bound. lia. Qed.

Example C101_local_linear_gradients_case :
  fst (test_local_linear_gradients argsort_ref lstsq_ref (World (0%nat : gst parabola_gen) tt [] 0%nat)) = Ok tt /\
  fst (test_local_linear_gradients argsort_ref lstsq_ref (same_world (/ 2) 0 half01)) = Err ValueError.
Proof.
  split; [|apply C101_local_linear_gradients_same_points; intros; now rewrite !same_unif].
  apply C101_local_linear_gradients; [apply argsort_ref_contract|apply lstsq_ref_contract|apply lstsq_ref_total|].
  assert (ST : forall k s, @unif_state parabola_gen k s = (s + k)%nat) by (induction k; intros s; cbn [unif_state]; [lia|rewrite IHk; cbn; lia]).
  assert (VE : forall i, (i < 200)%nat -> @unif_at parabola_gen (g_seed parabola_gen 42) (i * 2 + 0) = INR i / 200).
  { intros i Hi. unfold unif_at. rewrite ST. cbn [g_seed g_unif parabola_gen fst]. replace (0 + (i * 2 + 0))%nat with (2 * i)%nat by lia. rewrite Nat.even_mul, Nat.even_2. cbn [orb].
    destruct (Nat.ltb_spec (2 * i) 400); [|lia]. now rewrite Nat.mul_comm, Nat.div_mul by lia. }
  assert (VO : forall i, (i < 200)%nat -> @unif_at parabola_gen (g_seed parabola_gen 42) (i * 2 + 1) = (INR i / 200) * (INR i / 200)).
  { intros i Hi. unfold unif_at. rewrite ST. cbn [g_seed g_unif parabola_gen fst]. replace (0 + (i * 2 + 1))%nat with (1 + i * 2)%nat by lia. rewrite Nat.even_add, Nat.even_mul, Nat.even_2, orb_true_r. cbn [Nat.even eqb].
    destruct (Nat.ltb_spec (1 + i * 2) 400); [|lia]. rewrite Nat.div_add by lia. cbn [Nat.div Nat.divmod fst Nat.add]. reflexivity. }
  intros a b c Ha Hb Hc Nab Nac Nbc K. unfold on_a_line in K. rewrite !VE, !VO in K by auto.
  assert (NE : forall x y, x <> y -> INR x / 200 - INR y / 200 <> 0) by (intros x y H Q; apply H, INR_eq; lra).
  set (x := INR a / 200) in *. set (y := INR b / 200) in *. set (z := INR c / 200) in *.
  replace ((y - x) * (z * z - x * x) - (z - x) * (y * y - x * x)) with ((y - x) * ((z - x) * (z - y))) in K by ring.
  apply Rmult_integral in K. destruct K as [K|K]; [exact (NE b a (not_eq_sym Nab) K)|]. apply Rmult_integral in K. destruct K as [K|K]; [exact (NE c a (not_eq_sym Nac) K)|exact (NE c b (not_eq_sym Nbc) K)].
Qed.

(** the test of the finite differences always passes *)
Theorem C101_finite_difference_gradients : forall (G : gen) (U : Type) (w : world G U (nd R)), fst (test_finite_difference_gradients w) = Ok tt.
Proof.
  intros G U w. unfold test_finite_difference_gradients. rewrite (nb (seed 42) _ w tt (set_rng w (g_seed G 42)) eq_refl). set (w0 := set_rng w _).
  destruct (uniform2_ev G (-1) 1 10 2 w0) as (X & EX & SX & VX). rewrite (nb _ _ w0 _ _ EX). set (w1 := set_rng w0 _).
  assert (Hh : / 10 ^ 6 <> 0) by (apply Rinv_neq_0_compat, pow_nonzero; lra). set (h := / 10 ^ 6) in *. clearbody h.
  destruct (C07_exact_for_affine G U myfun X 10 2 h w1 2 (fun j => nth j [-5; 4] 0) SX Hh) as (D & w' & E & SD & VD).
  { intros x u. unfold myfun, num. cbn [sumf nth]. replace (2 - 5 * x.[0%nat, 0%nat] + 4 * x.[0%nat, 1%nat]) with (2 + (0 + -5 * x.[0%nat, 0%nat] + 4 * x.[0%nat, 1%nat])) by ring. reflexivity. }
  rewrite (nb _ _ w1 _ _ E). unfold mlift. cbn [fst]. apply (almost_same 6 _ _ 10 2 SD); [rewrite (nrows_shape2 _ D _ _ SD); reflexivity|]. intros i j Hi Hj. rewrite VD by auto. reflexivity.
Qed.
Print Assumptions C101_finite_difference_gradients.

(** ** tests/test_simrunners.py *)

(** the four tests pass; each calls its function once for every row *)
Theorem C101_simrunners : forall (G : gen) (U : Type) (w : world G U (nd R)) t, In t [test_simulation_runner; test_simulation_grad_runner dfun1; test_simulation_grad_runner dfun2; test_simulation_grad_runner dfun3] ->
  t w = (Ok tt, World (rng w) (usr w) (calls w ++ map (fun i => mk2 1 2 (fun _ j => X3.[i, j])) (seq 0 3)) (files w)).
Proof.
  intros G U w t Ht. destruct Ht as [<-|Ht].
  - assert (HV : forall i (u : U), (i < 3)%nat -> exists q, half_square (rowarr X3 i) u = (Ok q, u) /\ size q = 1%nat /\ flat q 0 = nth i [5/10; 5/10; 0] 0).
    { intros i u Hi. destruct i as [|[|[|i]]]; [| | |lia]; eexists; (split; [reflexivity|]); (split; [reflexivity|]); cbn; lra. }
    unfold test_simulation_runner. rewrite bind_lift. cbn [SimulationRunner_init].
    destruct (C05_run_calls_rows_in_order G U half_square X3 3 2 w eq_refl) as (us & U0 & [(F & w' & E & SF & EW & VF)|(k & e & w' & Hk & E & EW & _ & B)]).
    + assert (US : forall i, (i <= 3)%nat -> us i = usr w).
      { induction i; intros Hi; [exact U0|]. destruct (VF i ltac:(lia)) as (v & Ev & _). destruct (HV i (us i) ltac:(lia)) as (q & Eq & _). rewrite <- IHi by lia. congruence. }
      rewrite (nb _ _ w _ _ E). rewrite EW, (US 3%nat (le_n 3)). unfold mlift. match goal with |- (?a, _) = (?b, _) => cut (a = b); [intros ->; reflexivity|] end.
      apply (almost_same 7 _ _ 3 1 SF); [reflexivity|]. intros i j Hi Hj.
      replace j with 0%nat by lia. destruct (VF i Hi) as (v & Ev & Sv & ->). destruct (HV i (us i) Hi) as (q & Eq & _ & Vq).
      assert (v = q) as -> by congruence. rewrite Vq. destruct i as [|[|[|i]]]; [| | |lia]; reflexivity.
    + exfalso. destruct (HV k (us k) Hk) as (q & Eq & Sq & _). destruct B as [B|(v & B & Sv & _)]; [congruence|]. apply Sv. assert (v = q) as -> by congruence. exact Sq.
  - assert (GR : forall dfun, (dfun = dfun1 \/ dfun = dfun2 \/ dfun = dfun3) -> test_simulation_grad_runner dfun w = (Ok tt, World (rng w) (usr w) (calls w ++ map (fun i => mk2 1 2 (fun _ j => X3.[i, j])) (seq 0 3)) (files w))).
    { intros dfun Hd. unfold test_simulation_grad_runner. rewrite bind_lift. cbn [SimulationGradientRunner_init].
      assert (HV : forall i (u : U), (i < 3)%nat -> exists q, dfun (rowarr X3 i) u = (Ok q, u) /\ size q = 2%nat /\ forall j, (j < 2)%nat -> flat q j = X3.[i, j]).
      { intros i u Hi. destruct Hd as [-> | [-> | ->]]; (destruct i as [|[|[|i]]]; [| | |lia]); eexists; (split; [reflexivity|]); (split; [reflexivity|]); intros [|[|j]] Hj; try lia; reflexivity. }
      clear Hd. destruct (C06_gradient_run_calls_rows_in_order G U dfun X3 3 2 w eq_refl) as (us & U0 & [(F & w' & E & SF & EW & VF)|(k & e & w' & Hk & E & EW & _ & B)]).
      - assert (US : forall i, (i <= 3)%nat -> us i = usr w).
        { induction i; intros Hi; [exact U0|]. destruct (VF i ltac:(lia)) as (v & Ev & _). destruct (HV i (us i) ltac:(lia)) as (q & Eq & _). rewrite <- IHi by lia. congruence. }
        rewrite (nb _ _ w _ _ E). rewrite EW, (US 3%nat (le_n 3)). unfold mlift. match goal with |- (?a, _) = (?b, _) => cut (a = b); [intros ->; reflexivity|] end.
        apply (almost_same 7 _ _ 3 2 SF); [reflexivity|]. intros i j Hi Hj.
        destruct (VF i Hi) as (v & Ev & Sv & Vv). rewrite Vv by auto. destruct (HV i (us i) Hi) as (q & Eq & _ & Vq). assert (v = q) as -> by congruence. auto.
      - exfalso. destruct (HV k (us k) Hk) as (q & Eq & Sq & _). destruct B as [B|(v & B & Sv & _)]; [congruence|]. apply Sv. assert (v = q) as -> by congruence. exact Sq. }
    destruct Ht as [<-|[<-|[<-|[]]]]; apply GR; auto.
Qed.
Print Assumptions C101_simrunners.
