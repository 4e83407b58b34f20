(** Final statements about gradients and subspaces in floating point: C111. *)
From Coq Require Import Reals Lra Lia List Arith ZArith String Bool Permutation.
From Verif Require Import Prelude Py NumArr LinAlg M_Misc M_SimRunners M_Gradients M_Subspaces M_Float M_FloatGrad P_Misc P_Gradients P_Float P_FloatCode P_Stability P_FloatGrad Toy.
Import ListNotations.
Open Scope R_scope.

(** ** C111 *)
Lemma abs_of_diff : forall q d A, Rabs (q - d) <= A -> Rabs q <= Rabs d + A.
Proof. intros. dabs; lra. Qed.
Lemma abs_chain : forall r v q d, Rabs (r - d) <= Rabs (r - v) + Rabs (v - q) + Rabs (q - d).
Proof. intros. dabs; lra. Qed.
Lemma abs_four : forall a b c d, Rabs (a - b + c + d) <= Rabs a + Rabs b + Rabs c + Rabs d.
Proof. intros. dabs; lra. Qed.

(** The simulation returns a float [gt x] within E of g(x) at the points where it is called.
    The quotient errs by the curvature, by the error of the simulation over the step, by the
    rounding of the moved point (delta), and by two roundings. *)
Theorem C111_finite_differences : forall F (G : gen) (U : Type) (f : ufun (U:=U) (nd R) (nd R)) X M m h K E
    (g gt : (nat -> R) -> R) (w : world G U (nd R)) (dg : nat -> nat -> R -> R),
  valid F -> shape X = [M; m] -> (forall i j, (i < M)%nat -> (j < m)%nat -> fmt F (X.[i, j])) -> fmt F h -> 0 < h -> 0 <= K ->
  let delta i k := ulp1 F * Rabs (X.[i, k] + h) in
  (forall x y, (forall j, (j < m)%nat -> x j = y j) -> g x = g y) -> (forall x y, (forall j, (j < m)%nat -> x j = y j) -> gt x = gt y) ->
  (forall x u, f x u = (Ok (ND [] (fun _ => gt (fun j => x.[0%nat, j]))), u)) ->
  (forall x, (forall j, (j < m)%nat -> fmt F (x j)) -> fmt F (gt x)) ->
  (forall i, (i < M)%nat -> Rabs (gt (fun j => X.[i, j]) - g (fun j => X.[i, j])) <= E) ->
  (forall i k, (i < M)%nat -> (k < m)%nat -> let y j := if Nat.eqb j k then rnd F (X.[i, j] + h) else X.[i, j] in Rabs (gt y - g y) <= E) ->
  (forall i k t, (i < M)%nat -> (k < m)%nat -> 0 <= t <= h + delta i k ->
     derivable_pt_lim (fun t => g (fun j => X.[i, j] + (if Nat.eqb j k then t else 0))) t (dg i k t)) ->
  (forall i k t, (i < M)%nat -> (k < m)%nat -> 0 <= t <= h + delta i k -> Rabs (dg i k t - dg i k 0) <= K * t) ->
  exists D w', finite_difference_gradients_fl F X (IsA f) h w = (Ok D, w') /\ shape D = [M; m] /\
    forall i k, (i < M)%nat -> (k < m)%nat ->
      let exact := Rabs (dg i k 0) in
      let A := (K * ((h + delta i k) * (h + delta i k)) / 2 + 2 * E + delta i k * exact) / h in
      fmt F (D.[i, k]) /\ Rabs (D.[i, k] - dg i k 0) <= (1 + ulp1 F) ^ 2 * A + ((1 + ulp1 F) ^ 2 - 1) * exact + eta F.
Proof.
  intros F G U f X M m h K E g gt w dg V HX FX Fh Hh HK delta Hg Hgt Hf Fg E0 E1 HD HLip.
  destruct (fd_pure_fl F V G U f X M m h w gt HX FX Fh Hgt Hf) as (D & w' & D1 & D2 & D3).
  exists D, w'. split; auto. split; auto. intros i k Hi Hk exact A. rewrite D3 by auto. split; [apply rnd_fmt; auto|].
  set (u := ulp1 F) in *. assert (Hu : 0 < u) by apply ulp1_pos. assert (He := eta_pos F).
  set (x := X.[i, k]) in *. set (t := rnd F (x + h) - x).
  assert (Fx : fmt F x) by (apply FX; auto).
  assert (T0 : 0 <= t). { unfold t. assert (x <= rnd F (x + h)); [|lra]. rewrite <- (fmt_fix F V x Fx) at 1. apply rnd_mono; auto; lra. }
  assert (TD : Rabs (t - h) <= delta i k).
  { unfold t, delta. fold x u. replace (rnd F (x + h) - x - h) with (rnd F (x + h) - (x + h)) by ring. now apply rnd_err_add. }
  assert (De : 0 <= delta i k) by (eapply Rle_trans; [apply Rabs_pos|exact TD]).
  assert (T1 : t <= h + delta i k) by (dabs; lra).
  set (phi := fun t => g (fun j => X.[i, j] + (if Nat.eqb j k then t else 0))).
  assert (P0 : g (fun j => X.[i, j]) = phi 0). { apply Hg. intros j Hj. destruct (Nat.eqb j k); ring. }
  assert (Pt : g (moved_fl F X i h k) = phi t).
  { apply Hg. intros j Hj. unfold moved_fl. destruct (Nat.eqb_spec j k) as [->|]; [|ring]. unfold t, x. ring. }
  assert (TY : Rabs (phi t - phi 0 - t * dg i k 0) <= K * (t * t) / 2).
  { destruct (Req_dec t 0) as [Z|Nz].
    - rewrite Z. replace (phi 0 - phi 0 - 0 * dg i k 0) with 0 by ring. rewrite Rabs_R0. lra.
    - assert (Q := forward_difference_error phi (dg i k) t K ltac:(lra) HK (fun s Hs => HD i k s Hi Hk ltac:(lra)) (fun s Hs => HLip i k s Hi Hk ltac:(lra))).
      replace (phi t - phi 0 - t * dg i k 0) with (t * ((phi t - phi 0) / t - dg i k 0)) by (field; auto).
      rewrite Rabs_mult, (Rabs_pos_eq t T0). replace (K * (t * t) / 2) with (t * (K * t / 2)) by field. apply Rmult_le_compat_l; auto. }
  set (a := gt (moved_fl F X i h k)). set (b := gt (fun j => X.[i, j])).
  assert (Fa : fmt F a). { apply Fg. intros j Hj. unfold moved_fl. destruct (Nat.eqb j k); [apply rnd_fmt; auto|auto]. }
  assert (Fb : fmt F b) by (apply Fg; auto).
  assert (Ea : Rabs (a - phi t) <= E) by (rewrite <- Pt; exact (E1 i k Hi Hk)).
  assert (Eb : Rabs (b - phi 0) <= E) by (rewrite <- P0; exact (E0 i Hi)).
  set (d := dg i k 0) in *. set (q := (a - b) / h).
  assert (QA : Rabs (q - d) <= A).
  { unfold A, q. replace ((a - b) / h - d) with (((a - phi t) - (b - phi 0) + (phi t - phi 0 - t * d) + (t - h) * d) / h) by (field; lra).
    unfold Rdiv at 1. rewrite Rabs_mult, (Rabs_pos_eq (/ h)) by (left; now apply Rinv_0_lt_compat).
    apply Rmult_le_compat_r; [left; now apply Rinv_0_lt_compat|].
    assert (S1 : Rabs ((t - h) * d) <= delta i k * exact) by (rewrite Rabs_mult; apply Rmult_le_compat_r; [apply Rabs_pos|exact TD]).
    assert (S2 : K * (t * t) / 2 <= K * ((h + delta i k) * (h + delta i k)) / 2).
    { apply Rmult_le_compat_r; [lra|]. apply Rmult_le_compat_l; auto. apply Rmult_le_compat; lra. }
    set (e1 := a - phi t) in *. set (e2 := b - phi 0) in *. set (e3 := phi t - phi 0 - t * d) in *. set (e4 := (t - h) * d) in *.
    assert (S3 := abs_four e1 e2 e3 e4). lra. }
  assert (R1 := rnd_err_sub F V a b Fa Fb). fold u in R1. set (dd := rnd F (a - b)) in *.
  assert (Q1 : Rabs (dd / h - q) <= u * Rabs q).
  { unfold q. replace (dd / h - (a - b) / h) with ((dd - (a - b)) / h) by (field; lra). unfold Rdiv. rewrite !Rabs_mult, (Rabs_pos_eq (/ h)) by (left; now apply Rinv_0_lt_compat).
    rewrite <- Rmult_assoc. apply Rmult_le_compat_r; [left; now apply Rinv_0_lt_compat|exact R1]. }
  assert (R2 := rnd_err F (dd / h)). fold u in R2. set (r := rnd F (dd / h)) in *. set (v := dd / h) in *.
  assert (QB : Rabs q <= exact + A). exact (abs_of_diff q d A QA).
  assert (VB : Rabs v <= (1 + u) * Rabs q) by (assert (Q2 := abs_of_diff v q _ Q1); lra).
  assert (S1 := abs_chain r v q d).
  assert (S2 : u * Rabs v <= u * ((1 + u) * Rabs q)) by (apply Rmult_le_compat_l; lra).
  assert (S3 : (u * (1 + u) + u) * Rabs q <= (u * (1 + u) + u) * (exact + A)) by (apply Rmult_le_compat_l; [nra|exact QB]).
  replace ((1 + u) ^ 2 * A + ((1 + u) ^ 2 - 1) * exact + eta F) with (A + (u * (1 + u) + u) * (exact + A) + eta F) by ring. lra.
Qed.
Print Assumptions C111_finite_differences.

(** With a step below half the spacing of the floats at an input, the derivative
    is reported as 0, whatever the simulation computes. *)
Theorem C111_lost_step : forall F (G : gen) (U : Type) (f : ufun (U:=U) (nd R) (nd R)) X M m h e i k
    (gt : (nat -> R) -> R) (w : world G U (nd R)),
  valid F -> shape X = [M; m] -> (forall i j, (i < M)%nat -> (j < m)%nat -> fmt F (X.[i, j])) -> fmt F h ->
  (forall x y, (forall j, (j < m)%nat -> x j = y j) -> gt x = gt y) ->
  (forall x u, f x u = (Ok (ND [] (fun _ => gt (fun j => x.[0%nat, j]))), u)) ->
  (i < M)%nat -> (k < m)%nat -> (f_emin F <= e - f_prec F + 1)%Z -> bpow e <= X.[i, k] -> 0 <= h < bpow (e - f_prec F) ->
  exists D w', finite_difference_gradients_fl F X (IsA f) h w = (Ok D, w') /\ shape D = [M; m] /\ D.[i, k] = 0.
Proof.
  intros F G U f X M m h e i k gt w V HX FX Fh Hgt Hf Hi Hk He Hx Hh.
  destruct (fd_pure_fl F V G U f X M m h w gt HX FX Fh Hgt Hf) as (D & w' & D1 & D2 & D3).
  exists D, w'. split; auto. split; auto. rewrite D3 by auto.
  replace (gt (moved_fl F X i h k)) with (gt (fun j => X.[i, j])).
  - unfold Rminus. rewrite Rplus_opp_r, rnd_0. unfold Rdiv. rewrite Rmult_0_l. apply rnd_0.
  - apply Hgt. intros j Hj. unfold moved_fl. destruct (Nat.eqb_spec j k) as [->|]; auto. symmetry. apply step_lost with e; auto.
Qed.
Print Assumptions C111_lost_step.

Lemma pow2m : forall k, (0 <= k)%Z -> bpow (- k) = / IZR (2 ^ k).
Proof. intros k Hk. replace (- k)%Z with (0 - k)%Z by lia. rewrite bpow_sub, bpow_0, bpow_IZR by auto. unfold Rdiv. ring. Qed.

Definition one_by_one (x : R) : nd R := mk2 1 1 (fun _ _ => x).
(** the simulation that returns its only input *)
Definition echo : ufun (U:=unit) (nd R) (nd R) := fun x u => (Ok (ND [] (fun _ => x.[0%nat, 0%nat])), u).

(** Smaller steps are not always better: with the default step 1e-6 the derivative of
    f(x) = x at x = 2e11 (a modulus of elasticity in pascal) comes out as 0. *)
Theorem C111_any_step_refuted : exists D w',
  fmt binary64 200000000000 /\
  finite_difference_gradients_fl binary64 (one_by_one 200000000000) (IsA echo) (rnd binary64 (1 / 1000000)) (toy_world (L:=nd R) tt) = (Ok D, w') /\
  shape D = [1; 1]%nat /\ D.[0%nat, 0%nat] = 0.
Proof.
  assert (FX : fmt binary64 200000000000).
  { exists 200000000000%Z, 0%Z. split; [rewrite bpow_0; ring|]. split; simpl; lia. }
  assert (H0 : 0 <= rnd binary64 (1 / 1000000)) by (apply rnd_nonneg; lra).
  assert (H1 : rnd binary64 (1 / 1000000) < bpow (34 - f_prec binary64)).
  { apply Rle_lt_trans with (3 * bpow (-21)).
    - rewrite <- (fmt_fix binary64 valid64 (3 * bpow (-21))).
      + apply rnd_mono; [exact valid64|]. change (-21)%Z with (- (21))%Z. rewrite pow2m by lia. simpl (2 ^ 21)%Z. lra.
      + exists 3%Z, (-21)%Z. split; [reflexivity|]. split; simpl; lia.
    - simpl f_prec. change (34 - 53)%Z with (- (19))%Z. change (-21)%Z with (- (21))%Z. rewrite !pow2m by lia. simpl (2 ^ 21)%Z. simpl (2 ^ 19)%Z. lra. }
  destruct (C111_lost_step binary64 toy_gen unit echo (one_by_one 200000000000) 1 1 (rnd binary64 (1 / 1000000)) 34 0 0 (fun x => x 0%nat) (toy_world tt) valid64 eq_refl)
    as (D & w' & E & S & Z); auto; try (simpl; lia).
  - apply rnd_fmt. exact valid64.
  - change ((one_by_one 200000000000).[0%nat, 0%nat]) with 200000000000. rewrite bpow_IZR by lia. simpl (2 ^ 34)%Z. lra.
  - exists D, w'. auto.
Qed.
Print Assumptions C111_any_step_refuted.

(** f(x) = x^2, rounded, at x = 1 with step 2^-20 in binary64 *)
Definition square_fl : ufun (U:=unit) (nd R) (nd R) := fun x u => (Ok (ND [] (fun _ => rnd binary64 (x.[0%nat, 0%nat] * x.[0%nat, 0%nat]))), u).
Example C111_case : exists D w',
  finite_difference_gradients_fl binary64 (one_by_one 1) (IsA square_fl) (bpow (-20)) (toy_world (L:=nd R) tt) = (Ok D, w') /\ Rabs (D.[0%nat, 0%nat] - 2) <= bpow (-19).
Proof.
  set (u := ulp1 binary64). assert (Eu : u = / 9007199254740992) by (unfold u, ulp1; simpl f_prec; rewrite pow2m by lia; reflexivity).
  assert (Ee : 0 < eta binary64 <= u) by (split; [apply eta_pos|apply (Heta binary64 valid64)]).
  set (h := bpow (-20)). assert (Eh : h = / 1048576) by (unfold h; change (-20)%Z with (- (20))%Z; rewrite pow2m by lia; reflexivity).
  assert (E19 : bpow (-19) = / 524288) by (change (-19)%Z with (- (19))%Z; rewrite pow2m by lia; reflexivity).
  assert (Fh : fmt binary64 h) by (apply fmt_pow; [exact valid64|simpl; lia]).
  assert (F1 : fmt binary64 1) by (apply fmt_1; exact valid64).
  assert (SQ : forall y, 0 <= y <= 5 / 4 -> Rabs (rnd binary64 (y * y) - y * y) <= 4 * u).
  { intros y Hy. eapply Rle_trans; [apply (rnd_err binary64)|]. fold u. rewrite Rabs_pos_eq by apply Rle_0_sqr. nra. }
  assert (MV : 0 <= rnd binary64 (1 + h) <= 5 / 4).
  { assert (Q := rnd_err_add binary64 1 h F1 Fh). fold u in Q. rewrite (Rabs_pos_eq (1 + h)) in Q by lra. rewrite Eu, Eh in *. dabs; lra. }
  destruct (C111_finite_differences binary64 toy_gen unit square_fl (one_by_one 1) 1 1 h 2 (4 * u) (fun x => x 0%nat * x 0%nat) (fun x => rnd binary64 (x 0%nat * x 0%nat)) (toy_world tt) (fun _ _ t => 2 * (1 + t)) valid64 eq_refl)
    as (D & w' & E & S & Z); auto; try lra.
  - intros x y H. now rewrite (H 0%nat) by lia.
  - intros x y H. now rewrite (H 0%nat) by lia.
  - intros. apply rnd_fmt. exact valid64.
  - intros i Hi. cbv beta. apply SQ. unfold one_by_one. rewrite at_mk2. lra.
  - intros i k Hi Hk. assert (k = 0%nat) by lia. subst k. cbv beta zeta. simpl Nat.eqb. cbv iota. apply SQ. unfold one_by_one. rewrite at_mk2. exact MV.
  - intros i k t Hi Hk _. assert (k = 0%nat) by lia. subst k. simpl Nat.eqb. cbv iota. unfold one_by_one. cbn -[Rplus Rmult].
    replace (2 * (1 + t)) with ((0 + 1) * (1 + t) + (1 + t) * (0 + 1)) by ring.
    apply (derivable_pt_lim_mult (fun t => 1 + t) (fun t => 1 + t)); apply (derivable_pt_lim_plus (fun _ => 1) (fun t => t)); (apply derivable_pt_lim_const || apply derivable_pt_lim_id).
  - intros i k t Hi Hk [T0 _]. replace (2 * (1 + t) - 2 * (1 + 0)) with (2 * t) by ring. rewrite Rabs_pos_eq; lra.
  - exists D, w'. split; auto. destruct (Z 0%nat 0%nat ltac:(lia) ltac:(lia)) as (_ & Q). cbv zeta in Q. fold u in Q.
    change ((one_by_one 1).[0%nat, 0%nat]) with 1 in Q. rewrite (Rabs_pos_eq (1 + h)) in Q by lra. rewrite (Rabs_pos_eq (2 * (1 + 0))) in Q by lra.
    replace (2 * (1 + 0)) with 2 in Q by ring. eapply Rle_trans; [exact Q|]. destruct Ee as [_ Ee]. rewrite E19. rewrite Eu, Eh in *. lra.
Qed.
