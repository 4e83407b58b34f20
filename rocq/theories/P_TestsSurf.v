(** Proofs about the unit tests of the response surfaces *)
From Coq Require Import String Reals Lra Lia List Arith ZArith Bool.
From Verif Require Import Prelude Py NumArr LinAlg Lsq Sorting M_Misc M_RespSurf M_Tests M_TestsSurf P_Misc P_IndexSet P_Poly P_PolyTrain P_PolyFacts GaussPD P_Rbf SolveRef Cholesky Properties_RespSurf Properties_RbfObj
  P_Notebooks P_Tests Properties_TestsSpace.
Import ListNotations.
Open Scope R_scope.

Lemma h6_val : h6 = / 1000000.
Proof. unfold h6. f_equal. lra. Qed.
Lemma h6_pos : 0 < h6.
Proof. rewrite h6_val. lra. Qed.
Lemma tol5 : 15 / 10 * / 10 ^ 5 = 15 * h6.
Proof. rewrite h6_val. field. Qed.

Lemma nudge_shape : forall X r c k, shape X = [r; c] -> shape (nudge X k) = [r; c].
Proof. intros X r c k H. unfold nudge. now rewrite (nrows_shape2 _ X _ _ H), (ncols_shape2 _ X _ _ H). Qed.
Lemma nudge_at : forall X k i j, (nudge X k).[i, j] = if Nat.eqb j k then X.[i, j] + h6 else X.[i, j].
Proof. reflexivity. Qed.
Lemma column_shape : forall X r c j, shape X = [r; c] -> shape (column X j) = [r; 1%nat].
Proof. intros X r c j H. unfold column. now rewrite (nrows_shape2 _ X _ _ H). Qed.
Lemma of_col_shape : forall X r c g, shape X = [r; c] -> shape (of_col X g) = [r; 1%nat].
Proof. intros X r c g H. unfold of_col. now rewrite (nrows_shape2 _ X _ _ H). Qed.
Lemma of_row_shape : forall X r c g, shape X = [r; c] -> shape (of_row X g) = [r; 1%nat].
Proof. intros X r c g H. unfold of_row. now rewrite (nrows_shape2 _ X _ _ H). Qed.
Lemma quotient_ok : forall B1 B0 r c, shape B1 = [r; c] -> shape B0 = [r; c] -> exists Q, quotient B1 B0 = Ok Q /\ shape Q = [r; c] /\
  forall i j, (i < r)%nat -> (j < c)%nat -> Q.[i, j] = (B1.[i, j] - B0.[i, j]) / h6.
Proof.
  intros B1 B0 r c H1 H0. unfold quotient. destruct (bcast2_same _ _ _ Rminus B1 B0 r c H1 H0) as (d & -> & Sd & Vd). cbn [rbind].
  eexists. split; [reflexivity|]. split; [exact Sd|]. intros i j Hi Hj. change ((amap (fun x => x / h6) d).[i, j]) with (d.[i, j] / h6). now rewrite Vd.
Qed.
Lemma face_shape : forall D r c d k, shape D = [r; c; d] -> shape (face D k) = [r; c].
Proof. intros D r c d k H. unfold face, nrows, ncols. rewrite H. reflexivity. Qed.

(** ** the bases *)
Lemma mono2 : forall p q x, mono 2 [p; q] x = x 0%nat ^ p * x 1%nat ^ q.
Proof. intros. unfold mono. cbn [prodf nth]. ring. Qed.
Section Fd.
  Context {G : gen} {U : Type}.
  Notation W := (world G U (nd R)).

  Lemma basis_fd : forall (w : W), let x := drawn G in
    (fst (test_grad_polynomial_bases_fd w) = Ok tt <-> forall k, (k < 20)%nat -> -15 < 3 * x k + h6 < 15) /\
    (fst (test_grad_polynomial_bases_fd w) = Ok tt \/ fst (test_grad_polynomial_bases_fd w) = Err AssertionError).
  Proof.
    intros w x. unfold test_grad_polynomial_bases_fd. rewrite seed_step. set (w0 := set_rng w _).
    destruct (normal2_ev G (U := U) (L := nd R) 10 2 w0) as (X & EX & SX & VX). rewrite (nb _ _ w0 _ _ EX). set (w1 := set_rng w0 _).
    assert (XV : forall i j, (i < 10)%nat -> (j < 2)%nat -> X.[i, j] = x (i * 2 + j)%nat) by (intros i j Hi Hj; now rewrite VX).
    destruct (grad_polynomial_bases_ok X 3 10 2 SX ltac:(lia)) as (L & EL & EG). rewrite bind_lift, EG.
    set (L0 := [[0; 0]; [1; 0]; [0; 1]; [2; 0]; [1; 1]; [0; 2]; [3; 0]; [2; 1]; [1; 2]; [0; 3]]%nat).
    assert (E2 : index_set 3 2 = Ok L0) by reflexivity. assert (L = L0) by congruence. subst L. clear EL EG.
    set (dB := mk3 10 (List.length L0) 2 _).
    assert (PB : forall Y, shape Y = [10%nat; 2%nat] -> polynomial_bases Y 3 = Ok (mk2 10 10 (fun r i => mono 2 (nth i L0 []) (fun j => Y.[r, j])), L0)).
    { intros Y SY. destruct (polynomial_bases_ok Y 3 10 2 SY ltac:(lia)) as (L & EL & EB). assert (L = L0) by congruence. subst L. exact EB. }
    rewrite bind_lift, (PB X SX). cbv beta iota. set (B0 := mk2 10 10 _).
    rewrite bind_lift, (PB (nudge X 0) (nudge_shape X 10 2 0 SX)). cbv beta iota. set (B1 := mk2 10 10 _).
    destruct (quotient_ok B1 B0 10 10 eq_refl eq_refl) as (Q1 & E1 & S1 & V1). rewrite bind_lift, E1.
    assert (C1 : assert_almost_equal 5 (face dB 0) Q1 = Ok tt <-> forall i, (i < 10)%nat -> -15 < 3 * x (i * 2)%nat + h6 < 15 /\ -15 < x (i * 2 + 1)%nat < 15).
    { unfold assert_almost_equal. rewrite (compare2 _ _ (near_ 5) (face dB 0) Q1 10 10 eq_refl S1). split.
      - intros H i Hi. assert (K6 := H i 6%nat Hi ltac:(lia)). assert (K7 := H i 7%nat Hi ltac:(lia)). apply near_spec in K6, K7. rewrite tol5, V1 in K6, K7 by lia.
        unfold face, dB, B1, B0 in K6, K7. rewrite !at_mk2, at_mk3 in K6, K7. unfold dmono in K6, K7. cbn [L0 nth dec_at Nat.eqb] in K6, K7. rewrite !mono2 in K6. rewrite !mono2 in K7. cbn [Nat.sub INR pow] in K6, K7. rewrite !nudge_at in K6. rewrite !nudge_at in K7. cbn [Nat.eqb] in K6, K7. rewrite ?(XV i 0%nat Hi ltac:(lia)), ?(XV i 1%nat Hi ltac:(lia)) in K6. rewrite ?(XV i 0%nat Hi ltac:(lia)), ?(XV i 1%nat Hi ltac:(lia)) in K7. rewrite Nat.add_0_r in K6, K7.
        set (a := x (i * 2)%nat) in *. set (b := x (i * 2 + 1)%nat) in *. assert (P := h6_pos).
        match type of K6 with Rabs ?e < _ => replace e with (h6 * (3 * a + h6)) in K6 by (field; lra) end.
        match type of K7 with Rabs ?e < _ => replace e with (h6 * b) in K7 by (field; lra) end.
        rewrite Rabs_mult, (Rabs_right h6) in K6, K7 by lra.
        assert (K6' : Rabs (3 * a + h6) < 15) by (apply (Rmult_lt_reg_l h6); lra). assert (K7' : Rabs b < 15) by (apply (Rmult_lt_reg_l h6); lra).
        apply Rabs_def2 in K6', K7'. lra.
      - intros H i j Hi Hj. destruct (H i Hi) as (K6 & K7). apply near_spec. rewrite tol5, V1 by lia. unfold face, dB, B1, B0. rewrite !at_mk2, at_mk3. unfold dmono.
        set (a := x (i * 2)%nat) in *. set (b := x (i * 2 + 1)%nat) in *. assert (P := h6_pos). assert (P' := h6_val).
        destruct j as [|[|[|[|[|[|[|[|[|[|j]]]]]]]]]]; [| | | | | | | | | |lia]; cbn [L0 nth dec_at Nat.eqb]; rewrite !mono2; cbn [Nat.sub INR pow]; rewrite ?nudge_at; cbn [Nat.eqb]; rewrite ?(XV i 0%nat Hi ltac:(lia)), ?(XV i 1%nat Hi ltac:(lia)); rewrite ?Nat.add_0_r; fold a; fold b.
        all: match goal with |- Rabs ?e < _ => first [replace e with 0 by (field; lra)|replace e with h6 by (field; lra)|replace e with (h6 * (3 * a + h6)) by (field; lra)|replace e with (h6 * b) by (field; lra)] end.
        all: try (rewrite Rabs_R0; lra). all: try (rewrite Rabs_right; lra).
        + rewrite Rabs_mult, (Rabs_right h6), (Rmult_comm 15) by lra. apply Rmult_lt_compat_l; [lra|]. apply Rabs_def1; lra.
        + rewrite Rabs_mult, (Rabs_right h6), (Rmult_comm 15) by lra. apply Rmult_lt_compat_l; [lra|]. apply Rabs_def1; lra. }
    destruct (compare_cases _ _ (near_ 5) (face dB 0) Q1) as [A1|A1]; fold (assert_almost_equal 5 (face dB 0) Q1) in A1.
    - rewrite (bind_assert _ _ _ _ _ A1). assert (A0 := proj1 C1 A1). clear A1. rename A0 into A1.
      rewrite bind_lift, (PB (nudge X 1) (nudge_shape X 10 2 1 SX)). cbv beta iota. set (B2 := mk2 10 10 _).
      destruct (quotient_ok B2 B0 10 10 eq_refl eq_refl) as (Q2 & E3 & S2 & V2). rewrite bind_lift, E3. unfold mlift. cbn [fst].
      assert (C2 : assert_almost_equal 5 (face dB 1) Q2 = Ok tt <-> forall i, (i < 10)%nat -> -15 < 3 * x (i * 2 + 1)%nat + h6 < 15).
      { unfold assert_almost_equal. rewrite (compare2 _ _ (near_ 5) (face dB 1) Q2 10 10 eq_refl S2). split.
        - intros H i Hi. assert (K6 := H i 9%nat Hi ltac:(lia)). apply near_spec in K6. rewrite tol5, V2 in K6 by lia.
          unfold face, dB, B2, B0 in K6. rewrite !at_mk2, at_mk3 in K6. unfold dmono in K6. cbn [L0 nth dec_at Nat.eqb] in K6. rewrite !mono2 in K6. cbn [Nat.sub INR pow] in K6. rewrite !nudge_at in K6. cbn [Nat.eqb] in K6. rewrite ?(XV i 0%nat Hi ltac:(lia)), ?(XV i 1%nat Hi ltac:(lia)) in K6. rewrite ?Nat.add_0_r in K6.
          set (a := x (i * 2)%nat) in *. set (b := x (i * 2 + 1)%nat) in *. assert (P := h6_pos).
          match type of K6 with Rabs ?e < _ => replace e with (h6 * (3 * b + h6)) in K6 by (field; lra) end.
          rewrite Rabs_mult, (Rabs_right h6) in K6 by lra. assert (K6' : Rabs (3 * b + h6) < 15) by (apply (Rmult_lt_reg_l h6); lra). apply Rabs_def2 in K6'. lra.
        - intros H i j Hi Hj. assert (K6 := H i Hi). destruct (A1 i Hi) as (K5 & _). apply near_spec. rewrite tol5, V2 by lia. unfold face, dB, B2, B0. rewrite !at_mk2, at_mk3. unfold dmono.
          set (a := x (i * 2)%nat) in *. set (b := x (i * 2 + 1)%nat) in *. assert (P := h6_pos). assert (P' := h6_val).
          destruct j as [|[|[|[|[|[|[|[|[|[|j]]]]]]]]]]; [| | | | | | | | | |lia]; cbn [L0 nth dec_at Nat.eqb]; rewrite !mono2; cbn [Nat.sub INR pow]; rewrite ?nudge_at; cbn [Nat.eqb]; rewrite ?(XV i 0%nat Hi ltac:(lia)), ?(XV i 1%nat Hi ltac:(lia)); rewrite ?Nat.add_0_r; fold a; fold b.
          all: match goal with |- Rabs ?e < _ => first [replace e with 0 by (field; lra)|replace e with h6 by (field; lra)|replace e with (h6 * (3 * b + h6)) by (field; lra)|replace e with (h6 * a) by (field; lra)] end.
          all: try (rewrite Rabs_R0; lra). all: try (rewrite Rabs_right; lra).
          + rewrite Rabs_mult, (Rabs_right h6), (Rmult_comm 15) by lra. apply Rmult_lt_compat_l; [lra|]. apply Rabs_def1; lra.
          + rewrite Rabs_mult, (Rabs_right h6), (Rmult_comm 15) by lra. apply Rmult_lt_compat_l; [lra|]. apply Rabs_def1; lra. }
      split; [|apply (compare_cases _ _ (near_ 5))].
      rewrite C2. split.
      + intros H k Hk. assert (DM := Nat.div_mod k 2 ltac:(lia)). assert (MB := Nat.mod_upper_bound k 2 ltac:(lia)). destruct (Nat.eq_dec (k mod 2) 0) as [E0|E0].
        * replace k with (k / 2 * 2)%nat by lia. apply A1. apply Nat.div_lt_upper_bound; lia.
        * replace k with (k / 2 * 2 + 1)%nat by lia. apply H. apply Nat.div_lt_upper_bound; lia.
      + intros H i Hi. apply H. lia.
    - rewrite bind_lift, A1. cbn [fst]. split; [|now right]. split; [discriminate|]. intros H. exfalso. assert (K : assert_almost_equal 5 (face dB 0) Q1 = Ok tt); [|rewrite A1 in K; discriminate]. apply C1. intros i Hi.
      assert (P' := h6_val). assert (Z1 := H (i * 2)%nat ltac:(lia)). assert (Z2 := H (i * 2 + 1)%nat ltac:(lia)). lra.
  Qed.
End Fd.

(** ** the Gaussians *)
Definition bell (a b t : R) : R := exp (- (a - t) * (a - t) - b).
Lemma bell_d : forall a b t, derivable_pt_lim (bell a b) t (2 * (a - t) * bell a b t).
Proof.
  intros a b t. unfold bell.
  assert (D1 : derivable_pt_lim (fun t => - (a - t) * (a - t) - b) t (2 * (a - t))).
  { replace (2 * (a - t)) with ((1 * (a - t) + - (a - t) * (0 - 1)) - 0) by ring.
    apply (derivable_pt_lim_minus (fun t => - (a - t) * (a - t)) (fun _ => b)); [|apply derivable_pt_lim_const].
    apply (derivable_pt_lim_mult (fun t => - (a - t)) (fun t => a - t)).
    - replace 1 with (- (0 - 1)) by ring. apply (derivable_pt_lim_opp (fun t => a - t)). apply (derivable_pt_lim_minus (fun _ => a) id); [apply derivable_pt_lim_const|apply derivable_pt_lim_id].
    - apply (derivable_pt_lim_minus (fun _ => a) id); [apply derivable_pt_lim_const|apply derivable_pt_lim_id]. }
  rewrite Rmult_comm. apply (derivable_pt_lim_comp (fun t => - (a - t) * (a - t) - b) exp); [exact D1|apply derivable_pt_lim_exp].
Qed.
Lemma bell_d2 : forall a b t, derivable_pt_lim (fun t => 2 * (a - t) * bell a b t) t ((4 * (a - t) * (a - t) - 2) * bell a b t).
Proof.
  intros a b t. replace ((4 * (a - t) * (a - t) - 2) * bell a b t) with (2 * (0 - 1) * bell a b t + 2 * (a - t) * (2 * (a - t) * bell a b t)) by ring.
  apply (derivable_pt_lim_mult (fun t => 2 * (a - t)) (bell a b)); [|apply bell_d].
  apply (derivable_pt_lim_scal (fun t => a - t) 2). apply (derivable_pt_lim_minus (fun _ => a) id); [apply derivable_pt_lim_const|apply derivable_pt_lim_id].
Qed.
Lemma bell_curv : forall a b t, 0 <= b -> Rabs ((4 * (a - t) * (a - t) - 2) * bell a b t) <= 4.
Proof.
  intros a b t Hb. set (u := a - t). assert (B0 : 0 < bell a b t) by apply exp_pos. rewrite Rabs_mult, (Rabs_right (bell a b t)) by lra.
  assert (BB : bell a b t * (1 + u * u) <= 1).
  { unfold bell. fold u. replace (- u * u - b) with (- (u * u + b)) by ring. rewrite exp_Ropp. assert (E := exp_ineq1_le (u * u + b)). assert (P := exp_pos (u * u + b)).
    apply (Rmult_le_reg_l (exp (u * u + b))); [exact P|]. rewrite <- Rmult_assoc, Rinv_r by lra. nra. }
  assert (Rabs (4 * u * u - 2) <= 4 * (1 + u * u)) by (apply Rabs_le; nra). assert (0 <= Rabs (4 * u * u - 2)) by apply Rabs_pos. nra.
Qed.
Lemma bell_fd : forall a b t h, 0 <= b -> 0 < h -> Rabs ((bell a b (t + h) - bell a b t) / h - 2 * (a - t) * bell a b t) <= 4 * h.
Proof.
  intros a b t h Hb Hh. destruct (MVT_cor2 (bell a b) (fun t => 2 * (a - t) * bell a b t) t (t + h) ltac:(lra)) as (c & Ec & Hc); [intros; apply bell_d|]. rewrite Ec. replace (t + h - t) with h by ring.
  replace (2 * (a - c) * bell a b c * h / h) with (2 * (a - c) * bell a b c) by (field; lra).
  destruct (MVT_cor2 (fun t => 2 * (a - t) * bell a b t) (fun t => (4 * (a - t) * (a - t) - 2) * bell a b t) t c ltac:(lra)) as (c2 & E2 & H2); [intros; apply bell_d2|]. rewrite E2, Rabs_mult.
  assert (B := bell_curv a b c2 Hb). rewrite (Rabs_right (c - t)) by lra. assert (0 <= Rabs ((4 * (a - c2) * (a - c2) - 2) * bell a b c2)) by apply Rabs_pos. nra.
Qed.

Section FdG.
  Context {G : gen} {U : Type}.
  Notation W := (world G U (nd R)).

  Lemma gauss2 : forall x y, gauss 2 (fun k => ones2.[k, 0%nat]) x y = bell (x 0%nat) ((x 1%nat - y 1%nat) * (x 1%nat - y 1%nat)) (y 0%nat) /\
    gauss 2 (fun k => ones2.[k, 0%nat]) x y = bell (x 1%nat) ((x 0%nat - y 0%nat) * (x 0%nat - y 0%nat)) (y 1%nat).
  Proof. intros x y. unfold gauss, bell. cbn [sumf]. unfold ones2. rewrite !at_mk2. split; f_equal; field. Qed.

  Lemma gauss_fd : forall (w : W), fst (test_grad_exponential_squared_fd w) = Ok tt.
  Proof.
    intros w. unfold test_grad_exponential_squared_fd. rewrite seed_step. set (w0 := set_rng w _).
    destruct (normal2_ev G (U := U) (L := nd R) 10 2 w0) as (X & EX & SX & _). rewrite (nb _ _ w0 _ _ EX). set (w1 := set_rng w0 _).
    rewrite bind_lift, (exponential_squared_ok X X 1 ones2 10 10 2 SX SX eq_refl). set (C0 := mk2 10 10 _).
    destruct (grad_exponential_squared_ok X X 1 ones2 10 10 2 SX SX eq_refl) as (dC & ED & SD & VD). rewrite bind_lift, ED.
    assert (P := h6_pos). assert (P' := h6_val).
    rewrite bind_lift, (exponential_squared_ok X (nudge X 0) 1 ones2 10 10 2 SX (nudge_shape X 10 2 0 SX) eq_refl). set (C1 := mk2 10 10 _).
    destruct (quotient_ok C1 C0 10 10 eq_refl eq_refl) as (Q1 & E1 & S1 & V1). rewrite bind_lift, E1.
    rewrite bind_assert.
    2: { apply (compare2 _ _ (near_ 5) (face dC 0) Q1 10 10 (face_shape dC 10 10 2 0 SD) S1). intros i j Hi Hj. apply near_spec. rewrite tol5, V1 by lia. unfold face, C1, C0. rewrite !at_mk2, VD by lia. unfold dgauss.
      rewrite !(proj1 (gauss2 _ _)). rewrite !nudge_at. cbn [Nat.eqb]. set (a := X.[i, 0%nat]). set (t := X.[j, 0%nat]). set (b := (X.[i, 1%nat] - X.[j, 1%nat]) * (X.[i, 1%nat] - X.[j, 1%nat])). change (ones2.[0%nat, 0%nat]) with 1.
      match goal with |- Rabs ?e < _ => replace e with ((bell a b (t + h6) - bell a b t) / h6 - 2 * (a - t) * bell a b t) by (field; lra) end.
      eapply Rle_lt_trans; [apply bell_fd; [apply Rle_0_sqr|exact P]|lra]. }
    rewrite bind_lift, (exponential_squared_ok X (nudge X 1) 1 ones2 10 10 2 SX (nudge_shape X 10 2 1 SX) eq_refl). set (C2 := mk2 10 10 _).
    destruct (quotient_ok C2 C0 10 10 eq_refl eq_refl) as (Q2 & E2 & S2 & V2). rewrite bind_lift, E2. unfold mlift. cbn [fst].
    apply (compare2 _ _ (near_ 5) (face dC 1) Q2 10 10 (face_shape dC 10 10 2 1 SD) S2). intros i j Hi Hj. apply near_spec. rewrite tol5, V2 by lia. unfold face, C2, C0. rewrite !at_mk2, VD by lia. unfold dgauss.
    rewrite !(proj2 (gauss2 _ _)). rewrite !nudge_at. cbn [Nat.eqb]. set (a := X.[i, 1%nat]). set (t := X.[j, 1%nat]). set (b := (X.[i, 0%nat] - X.[j, 0%nat]) * (X.[i, 0%nat] - X.[j, 0%nat])). change (ones2.[1%nat, 0%nat]) with 1.
    match goal with |- Rabs ?e < _ => replace e with ((bell a b (t + h6) - bell a b t) / h6 - 2 * (a - t) * bell a b t) by (field; lra) end.
    eapply Rle_lt_trans; [apply bell_fd; [apply Rle_0_sqr|exact P]|lra].
  Qed.
End FdG.

(** ** trained surfaces *)
Section Surf.
  Context {S : Type}.
  Variable predict : S -> nd R -> bool -> res (nd R * option (nd R)).
  (** predict returns arrays of the right shapes *)
  Definition works (s : S) (m : nat) : Prop := forall Y P, shape Y = [P; m] ->
    exists F D F', predict s Y true = Ok (F, Some D) /\ shape F = [P; 1%nat] /\ shape D = [P; m] /\ predict s Y false = Ok (F', None) /\ shape F' = [P; 1%nat].
  (** and they hold the values and slopes of the polynomial *)
  Definition fits (s : S) (m T : nat) (a : nat -> R) (e : nat -> nat -> nat) : Prop := forall Y P, shape Y = [P; m] ->
    exists F D, predict s Y true = Ok (F, Some D) /\ shape F = [P; 1%nat] /\ shape D = [P; m] /\
      forall r, (r < P)%nat -> F.[r, 0%nat] = terms_eval m T a e (fun j => Y.[r, j]) /\
        forall k, (k < m)%nat -> derivable_pt_lim (fun t => terms_eval m T a e (set_at (fun j => Y.[r, j]) k t)) (Y.[r, k]) (D.[r, k]).
End Surf.

(** the points determine the polynomials of degree N *)
Definition poised (X : nd R) (N M : nat) : Prop := forall B L, polynomial_bases X N = Ok (B, L) -> full_rank M (ncols B) (fun r i => B.[r, i]).

Lemma terms_ext : forall m T a e x y, (forall j, (j < m)%nat -> x j = y j) -> terms_eval m T a e x = terms_eval m T a e y.
Proof. intros m T a e x y H. unfold terms_eval. apply sumf_ext. intros t Ht. f_equal. apply prodf_ext. intros j Hj. now rewrite H. Qed.

Section Poly.
  Variable lstsq : nd R -> nd R -> res (nd R).
  Hypothesis HL : lstsq_contract lstsq.
  Hypothesis HT : lstsq_total lstsq.
  Lemma poly_works : forall N X f M m s, shape X = [M; m] -> shape f = [M; 1%nat] -> (1 <= m)%nat -> (1 <= N)%nat -> ptrain lstsq N X f = Ok s -> works poly_predict s m.
  Proof using HL.
    intros N X f M m s HX Hf Hm HN Hs Y P HY. destruct (poly_train_inv lstsq HL N X f None M m HX Hf Hm HN Logic.I) as (L & EL & _ & Htr & _). specialize (Htr s Hs).
    destruct (C37_predict_gradient s Y P m HY Hm (trained_shape N X f None M m L s Hm EL Htr)) as (F & D & E1 & E2 & S1 & S2 & _). exists F, D, F. auto.
  Qed.
  Lemma poly_fits : forall N X f M m s T a e, shape X = [M; m] -> shape f = [M; 1%nat] -> (1 <= m)%nat -> (1 <= N)%nat -> ptrain lstsq N X f = Ok s -> poised X N M ->
    (forall t, (t < T)%nat -> (nsum m (e t) <= N)%nat) -> (forall r, (r < M)%nat -> f.[r, 0%nat] = terms_eval m T a e (fun j => X.[r, j])) -> fits poly_predict s m T a e.
  Proof using HL.
    intros N X f M m s T a e HX Hf Hm HN Hs HR He Hd Y P HY. destruct (poly_train_inv lstsq HL N X f None M m HX Hf Hm HN Logic.I) as (L & EL & _ & Htr & _). specialize (Htr s Hs).
    assert (REP := C38_reproduces_polynomials lstsq N X f None M m s T a e HL HX Hf Hm HN Logic.I Hs HR He Hd).
    destruct (C37_predict_gradient s Y P m HY Hm (trained_shape N X f None M m L s Hm EL Htr)) as (F & D & E1 & E2 & S1 & S2 & DV). exists F, D. split; [exact E1|]. split; [exact S1|]. split; [exact S2|].
    intros r Hr. destruct (REP Y P HY) as (F2 & E3 & _ & V). rewrite E2 in E3. injection E3 as <-. split; [now apply V|]. intros k Hk. eapply derivable_pt_lim_ext; [|exact (DV r k Hr Hk)].
    intros t. cbv beta. destruct (REP (move Y P m r k t) P eq_refl) as (F3 & -> & _ & V3). rewrite V3 by auto. apply terms_ext. intros j Hj. now rewrite move_row.
  Qed.
  Lemma ptrain_returns : forall N X f M m, shape X = [M; m] -> shape f = [M; 1%nat] -> (1 <= m)%nat -> (1 <= N)%nat -> (binom (N + m) m <= M)%nat -> exists s, ptrain lstsq N X f = Ok s.
  Proof using HL HT. intros. apply (C38_training_returns lstsq N X f None M m HL HT); auto. Qed.
End Poly.

Section Rbf.
  Variables (solve : nd R -> nd R -> res (nd R)) (cholesky : nd R -> res (nd R)) (fminbound : (R -> res R) -> res R).
  Hypothesis HS : solve_contract solve.
  Hypothesis HS' : solve_sound solve.
  Hypothesis HC : cholesky_contract cholesky.
  Hypothesis HF : fminbound_ok fminbound.
  Lemma rbf_works : forall N X f v e M m s, shape X = [M; m] -> shape f = [M; 1%nat] -> (1 <= m)%nat -> rbf_train solve cholesky fminbound N X f v e = Ok s -> works rbf_predict s m.
  Proof using HS'.
    intros N X f v e M m s HX Hf Hm Hs Y P HY. destruct (rbf_train_inv solve cholesky fminbound N X f v e M m s HS' HX Hf Hm Hs) as (L & l & nu & EL & _ & _ & _ & _ & T).
    destruct (rbf_predict_ok s Y P m M true HY Hm (r_shape _ _ _ _ _ _ _ _ T)) as (L1 & F & _ & S1 & _ & D & E1 & S2 & _).
    destruct (rbf_predict_ok s Y P m M false HY Hm (r_shape _ _ _ _ _ _ _ _ T)) as (L2 & F' & _ & S3 & _ & D' & E2 & _). exists F, D, F'. auto.
  Qed.
  Lemma rbf_fits : forall N X f M m s T a e, shape X = [M; m] -> shape f = [M; 1%nat] -> (1 <= m)%nat -> rtrain solve cholesky fminbound N X f = Ok s -> poised X N M ->
    (forall t, (t < T)%nat -> (nsum m (e t) <= N)%nat) -> (forall r, (r < M)%nat -> f.[r, 0%nat] = terms_eval m T a e (fun j => X.[r, j])) -> fits rbf_predict s m T a e.
  Proof using HS'.
    intros N X f M m s T a e HX Hf Hm Hs HR He Hd Y P HY. destruct (rbf_train_inv solve cholesky fminbound N X f None None M m s HS' HX Hf Hm Hs) as (L & l & nu & EL & _ & _ & _ & _ & TR).
    assert (REP := C40_reproduces_polynomials solve cholesky fminbound N X f None None M m s T a e HS' HX Hf Hm Hs Logic.I HR He Hd).
    assert (SH := r_shape _ _ _ _ _ _ _ _ TR). destruct SH as (H1 & H2 & H3 & H4).
    destruct (C39_predict_gradient s Y P m M HY Hm H1 H2 H3 H4) as (F & D & E1 & S1 & S2 & SAME & DV). exists F, D. split; [exact E1|]. split; [exact S1|]. split; [exact S2|].
    intros r Hr. destruct (REP Y P HY) as (F2 & E3 & S3 & V). split.
    - destruct (SAME F2 E3) as (_ & Q). rewrite <- V by auto. symmetry. apply Q. rewrite S3. repeat constructor; auto.
    - intros k Hk. eapply derivable_pt_lim_ext; [|exact (DV r k Hr Hk)].
      intros t. cbv beta. destruct (REP (move Y P m r k t) P eq_refl) as (F3 & -> & _ & V3). rewrite V3 by auto. apply terms_ext. intros j Hj. now rewrite move_row.
  Qed.
  Lemma rtrain_returns : forall N X f M m, shape X = [M; m] -> shape f = [M; 1%nat] -> (1 <= m)%nat -> (binom (N + m) m <= M)%nat -> poised X N M -> exists s, rtrain solve cholesky fminbound N X f = Ok s.
  Proof using HS HC HF. intros N X f M m HX Hf Hm HM HR. apply (C78_training_returns_partial solve cholesky fminbound N X f None None M m HS HC HF HX Hf Hm HM HR Logic.I Logic.I). left. exact Logic.I. Qed.
End Rbf.

(** ** the tests of exact data *)
Section Exact.
  Context {G : gen} {U S : Type}.
  Notation W := (world G U (nd R)).
  Variable train : nat -> nd R -> nd R -> res S.
  Variable predict : S -> nd R -> bool -> res (nd R * option (nd R)).

  Lemma part_1d : forall N g g' X T a e s (w : W), shape X = [10%nat; 1%nat] -> train N X (of_col X g) = Ok s -> fits predict s 1 T a e ->
    (forall x, terms_eval 1 T a e x = g (x 0%nat)) -> (forall x, derivable_pt_lim g x (g' x)) ->
    exists w', exact_1d_part train predict N g g' X w = (Ok tt, w').
  Proof.
    intros N g g' X T a e s w HX Es FT TE DG. unfold exact_1d_part. rewrite bind_lift, Es, seed_step. set (w0 := set_rng w _).
    destruct (normal2_ev G (U := U) (L := nd R) 10 2 w0) as (Z & EZ & SZ & _). rewrite (nb _ _ w0 _ _ EZ). set (w1 := set_rng w0 _). set (Xt := column Z 0).
    assert (SX : shape Xt = [10%nat; 1%nat]) by exact (column_shape Z 10 2 0 SZ).
    destruct (FT Xt 10%nat SX) as (F & D & EP & SF & SD & V). rewrite bind_lift, EP. cbv beta iota. rewrite bind_lift. cbn [need_grad].
    rewrite bind_assert; [|apply (almost_same 10 F (of_col Xt g) 10 1 SF (of_col_shape Xt 10 1 g SX)); intros i j Hi Hj; replace j with 0%nat by lia; rewrite (proj1 (V i Hi)), TE; reflexivity].
    unfold mlift. rewrite (almost_same 10 D (of_col Xt g') 10 1 SD (of_col_shape Xt 10 1 g' SX)); [eauto|]. intros i j Hi Hj. replace j with 0%nat by lia.
    apply (uniqueness_limite g (Xt.[i, 0%nat])); [|apply DG]. eapply derivable_pt_lim_ext; [|exact (proj2 (V i Hi) 0%nat ltac:(lia))]. intros t. cbv beta. rewrite TE. reflexivity.
  Qed.

  Lemma part_2d : forall N g g1 g2 X T a e s (w : W), train N X (of_row X g) = Ok s -> fits predict s 2 T a e ->
    (forall x, terms_eval 2 T a e x = g (x 0%nat) (x 1%nat)) -> (forall x y, derivable_pt_lim (fun t => g t y) x (g1 x y)) -> (forall x y, derivable_pt_lim (g x) y (g2 x y)) ->
    exists w', exact_2d_part train predict N g g1 g2 X w = (Ok tt, w').
  Proof.
    intros N g g1 g2 X T a e s w Es FT TE D1 D2. unfold exact_2d_part. rewrite bind_lift, Es.
    destruct (normal2_ev G (U := U) (L := nd R) 10 2 w) as (Xt & EZ & SX & _). rewrite (nb _ _ w _ _ EZ). set (w1 := set_rng w _).
    destruct (FT Xt 10%nat SX) as (F & D & EP & SF & SD & V). rewrite bind_lift, EP. cbv beta iota. rewrite bind_lift. cbn [need_grad].
    rewrite bind_assert; [|apply (almost_same 10 F (of_row Xt g) 10 1 SF (of_row_shape Xt 10 2 g SX)); intros i j Hi Hj; replace j with 0%nat by lia; rewrite (proj1 (V i Hi)), TE; reflexivity].
    rewrite bind_assert.
    - unfold mlift. rewrite (almost_same 10 (column D 1) (of_row Xt g2) 10 1 (column_shape D 10 2 1 SD) (of_row_shape Xt 10 2 g2 SX)); [eauto|]. intros i j Hi Hj. unfold column, of_row. rewrite !at_mk2.
      apply (uniqueness_limite (g (Xt.[i, 0%nat])) (Xt.[i, 1%nat])); [|apply D2]. eapply derivable_pt_lim_ext; [|exact (proj2 (V i Hi) 1%nat ltac:(lia))]. intros t. cbv beta. rewrite TE. reflexivity.
    - apply (almost_same 10 (column D 0) (of_row Xt g1) 10 1 (column_shape D 10 2 0 SD) (of_row_shape Xt 10 2 g1 SX)). intros i j Hi Hj. unfold column, of_row. rewrite !at_mk2.
      apply (uniqueness_limite (fun t => g t (Xt.[i, 1%nat])) (Xt.[i, 0%nat])); [|apply D1]. eapply derivable_pt_lim_ext; [|exact (proj2 (V i Hi) 0%nat ltac:(lia))]. intros t. cbv beta. rewrite TE. reflexivity.
  Qed.

  (** the tests of gradients end in a pass or an AssertionError *)
  Lemma grad_1d_ends : forall N (w : W), (forall X, shape X = [10%nat; 1%nat] -> (forall i, (i < 10)%nat -> X.[i, 0%nat] = drawn G (i * 2)) -> exists s, train N X (of_col X cos) = Ok s /\ works predict s 1) ->
    fst (test_grad_1d train predict N w) = Ok tt \/ fst (test_grad_1d train predict N w) = Err AssertionError.
  Proof.
    intros N w H. unfold test_grad_1d. rewrite seed_step. set (w0 := set_rng w _).
    destruct (normal2_ev G (U := U) (L := nd R) 10 2 w0) as (Z & EZ & SZ & VZ). rewrite (nb _ _ w0 _ _ EZ). set (w1 := set_rng w0 _).
    destruct (H (column Z 0) (column_shape Z 10 2 0 SZ)) as (s & Es & WK). { intros i Hi. unfold column. rewrite at_mk2, VZ by lia. now rewrite Nat.add_0_r. }
    rewrite bind_lift, Es. destruct (normal2_ev G (U := U) (L := nd R) 10 2 w1) as (Z2 & EZ2 & SZ2 & _). rewrite (nb _ _ w1 _ _ EZ2). set (w2 := set_rng w1 _). set (Xt := column Z2 0).
    assert (SX : shape Xt = [10%nat; 1%nat]) by exact (column_shape Z2 10 2 0 SZ2).
    destruct (WK Xt 10%nat SX) as (F & D & _ & EP & SF & SD & _). rewrite bind_lift, EP. cbv beta iota. rewrite bind_lift. cbn [need_grad].
    destruct (WK (nudge Xt 0) 10%nat (nudge_shape Xt 10 1 0 SX)) as (_ & _ & F' & _ & _ & _ & EP' & SF'). rewrite bind_lift, EP'. cbv beta iota.
    destruct (quotient_ok F' F 10 1 SF' SF) as (Q & EQ & _). rewrite bind_lift, EQ. unfold mlift. cbn [fst]. apply (compare_cases _ _ (near_ 5)).
  Qed.
  Lemma grad_2d_ends : forall N (w : W), (forall X, shape X = [200%nat; 2%nat] -> (forall i j, (i < 200)%nat -> (j < 2)%nat -> X.[i, j] = drawn G (i * 2 + j)) -> exists s, train N X (of_row X (fun x y => cos x * sin y)) = Ok s /\ works predict s 2) ->
    fst (test_grad_2d train predict N w) = Ok tt \/ fst (test_grad_2d train predict N w) = Err AssertionError.
  Proof.
    intros N w H. unfold test_grad_2d. rewrite seed_step. set (w0 := set_rng w _).
    destruct (normal2_ev G (U := U) (L := nd R) 200 2 w0) as (Z & EZ & SZ & VZ). rewrite (nb _ _ w0 _ _ EZ). set (w1 := set_rng w0 _).
    destruct (H Z SZ) as (s & Es & WK). { intros i j Hi Hj. now rewrite VZ. }
    rewrite bind_lift, Es. destruct (normal2_ev G (U := U) (L := nd R) 10 2 w1) as (Xt & EZ2 & SX & _). rewrite (nb _ _ w1 _ _ EZ2). set (w2 := set_rng w1 _).
    destruct (WK Xt 10%nat SX) as (F & D & _ & EP & SF & SD & _). rewrite bind_lift, EP. cbv beta iota. rewrite bind_lift. cbn [need_grad].
    destruct (WK (nudge Xt 0) 10%nat (nudge_shape Xt 10 2 0 SX)) as (_ & _ & F' & _ & _ & _ & EP' & SF'). rewrite bind_lift, EP'. cbv beta iota.
    destruct (quotient_ok F' F 10 1 SF' SF) as (Q & EQ & _). rewrite bind_lift, EQ.
    destruct (compare_cases _ _ (near_ 5) (column D 0) Q) as [A|A]; fold (assert_almost_equal 5 (column D 0) Q) in A; [rewrite (bind_assert _ _ _ _ _ A)|rewrite bind_lift, A; now right].
    destruct (WK (nudge Xt 1) 10%nat (nudge_shape Xt 10 2 1 SX)) as (_ & _ & F2 & _ & _ & _ & EP2 & SF2). rewrite bind_lift, EP2. cbv beta iota.
    destruct (quotient_ok F2 F 10 1 SF2 SF) as (Q2 & EQ2 & _). rewrite bind_lift, EQ2. unfold mlift. cbn [fst]. apply (compare_cases _ _ (near_ 5)).
  Qed.

  (** the loops of the convergence tests *)
  Lemma converge_1d_ok : forall N p Xt s (w : W), shape Xt = [50%nat; 1%nat] -> train N (line_col p) (of_col (line_col p) (fun x => sin (PI * x))) = Ok s -> works predict s 1 ->
    converge_1d train predict N p Xt w = (Ok tt, w).
  Proof.
    intros N p Xt s w SX Es WK. unfold converge_1d. rewrite bind_lift, Es. destruct (WK Xt 50%nat SX) as (F & D & _ & EP & SF & SD & _). rewrite bind_lift, EP. cbv beta iota. rewrite bind_lift. cbn [need_grad].
    destruct (bcast2_same _ _ _ Rminus F (of_col Xt (fun x => sin (PI * x))) 50 1 SF (of_col_shape Xt 50 1 _ SX)) as (d & Ed & _). rewrite bind_lift, Ed.
    destruct (bcast2_same _ _ _ Rminus D (of_col Xt (fun x => PI * cos (PI * x))) 50 1 SD (of_col_shape Xt 50 1 _ SX)) as (d2 & Ed2 & _). rewrite bind_lift, Ed2. reflexivity.
  Qed.
  Lemma converge_2d_ok : forall N p Xt s (w : W), shape Xt = [50%nat; 2%nat] -> train N (mesh p) (of_row (mesh p) (fun x y => sin (PI * x) * cos (PI * y))) = Ok s -> works predict s 2 ->
    converge_2d train predict N p Xt w = (Ok tt, w).
  Proof.
    intros N p Xt s w SX Es WK. unfold converge_2d. rewrite bind_lift, Es. destruct (WK Xt 50%nat SX) as (F & D & _ & EP & SF & SD & _). rewrite bind_lift, EP. cbv beta iota. rewrite bind_lift. cbn [need_grad].
    destruct (bcast2_same _ _ _ Rminus F (of_row Xt (fun x y => sin (PI * x) * cos (PI * y))) 50 1 SF (of_row_shape Xt 50 2 _ SX)) as (d & Ed & _). rewrite bind_lift, Ed.
    destruct (bcast2_same _ _ _ Rminus (column D 0) (of_row Xt (fun x y => cos (PI * y) * PI * cos (PI * x))) 50 1 (column_shape D 50 2 0 SD) (of_row_shape Xt 50 2 _ SX)) as (d2 & Ed2 & _). rewrite bind_lift, Ed2.
    destruct (bcast2_same _ _ _ Rminus (column D 1) (of_row Xt (fun x y => - sin (PI * x) * PI * sin (PI * y))) 50 1 (column_shape D 50 2 1 SD) (of_row_shape Xt 50 2 _ SX)) as (d3 & Ed3 & _). rewrite bind_lift, Ed3. reflexivity.
  Qed.
  Lemma each_ok : forall (body : nat -> Py.M W unit) l w, (forall x, In x l -> body x w = (Ok tt, w)) -> each body l w = (Ok tt, w).
  Proof. induction l as [|x l IH]; intros w H; cbn [each]; [reflexivity|]. rewrite (nb _ _ w tt w (H x ltac:(now left))). apply IH. intros y Hy. apply H. now right. Qed.
End Exact.

(** ** points that determine polynomials *)
Lemma poised_of : forall X N M m L, shape X = [M; m] -> (1 <= m)%nat -> index_set N m = Ok L ->
  (forall c, (forall r, (r < M)%nat -> sumf (List.length L) (fun i => mono m (nth i L []) (fun j => X.[r, j]) * c i) = 0) -> forall i, (i < List.length L)%nat -> c i = 0) -> poised X N M.
Proof.
  intros X N M m L HX Hm EL H B L' EB. destruct (polynomial_bases_ok X N M m HX Hm) as (L2 & EL2 & EB2). rewrite EL in EL2. injection EL2 as <-. rewrite EB2 in EB. injection EB as <- _.
  unfold ncols. cbn [shape mk2 nth]. intros c Hc. apply H. intros r Hr. rewrite <- (Hc r Hr). apply sumf_ext. intros i Hi. now rewrite at_mk2.
Qed.
Lemma mono1 : forall p x, mono 1 [p] x = x 0%nat ^ p.
Proof. intros. unfold mono. cbn [prodf nth]. ring. Qed.

(** two distinct points on a line; three distinct points *)
Lemma poised_1_1 : forall X M, shape X = [M; 1%nat] -> (exists i j, (i < M)%nat /\ (j < M)%nat /\ X.[i, 0%nat] <> X.[j, 0%nat]) -> poised X 1 M.
Proof.
  intros X M HX (i & j & Hi & Hj & NE). apply (poised_of X 1 M 1 [[0]; [1]]%nat HX ltac:(lia) eq_refl). intros c H k Hk. cbn [List.length] in *.
  assert (K1 := H i Hi). assert (K2 := H j Hj). cbn [sumf nth] in K1, K2. rewrite !mono1 in K1. rewrite !mono1 in K2. cbn [pow] in K1, K2.
  assert (c 1%nat = 0) by (apply (Rmult_eq_reg_l (X.[i, 0%nat] - X.[j, 0%nat])); [|lra]; lra). destruct k as [|[|k]]; [|auto|lia]. rewrite H0 in K1. lra.
Qed.
Lemma poised_2_1 : forall X M, shape X = [M; 1%nat] -> (exists i j l, (i < M)%nat /\ (j < M)%nat /\ (l < M)%nat /\ X.[i, 0%nat] <> X.[j, 0%nat] /\ X.[i, 0%nat] <> X.[l, 0%nat] /\ X.[j, 0%nat] <> X.[l, 0%nat]) -> poised X 2 M.
Proof.
  intros X M HX (i & j & l & Hi & Hj & Hl & N1 & N2 & N3). apply (poised_of X 2 M 1 [[0]; [1]; [2]]%nat HX ltac:(lia) eq_refl). intros c H k Hk. cbn [List.length] in *.
  assert (K1 := H i Hi). assert (K2 := H j Hj). assert (K3 := H l Hl). cbn [sumf nth] in K1, K2, K3. rewrite !mono1 in K1. rewrite !mono1 in K2. rewrite !mono1 in K3. cbn [pow] in K1, K2, K3.
  set (x := X.[i, 0%nat]) in *. set (y := X.[j, 0%nat]) in *. set (z := X.[l, 0%nat]) in *.
  assert (A1 : c 1%nat + c 2%nat * (x + y) = 0) by (apply (Rmult_eq_reg_l (x - y)); [|lra]; nra).
  assert (A2 : c 1%nat + c 2%nat * (x + z) = 0) by (apply (Rmult_eq_reg_l (x - z)); [|lra]; nra).
  assert (A3 : c 2%nat = 0) by (apply (Rmult_eq_reg_l (y - z)); [|lra]; nra).
  rewrite A3 in *. assert (c 1%nat = 0) by lra. destruct k as [|[|[|k]]]; [|auto|auto|lia]. rewrite H0 in K1. lra.
Qed.
(** points not on a line; points not on a conic *)
Definition no_line (x y : nat -> R) (M : nat) : Prop := forall c0 c1 c2, (forall i, (i < M)%nat -> c0 + c1 * x i + c2 * y i = 0) -> c0 = 0 /\ c1 = 0 /\ c2 = 0.
Definition no_conic (x y : nat -> R) (M : nat) : Prop := forall c0 c1 c2 c3 c4 c5, (forall i, (i < M)%nat -> c0 + c1 * x i + c2 * y i + c3 * x i * x i + c4 * x i * y i + c5 * y i * y i = 0) ->
  c0 = 0 /\ c1 = 0 /\ c2 = 0 /\ c3 = 0 /\ c4 = 0 /\ c5 = 0.
Lemma conic_line : forall x y M, no_conic x y M -> no_line x y M.
Proof. intros x y M H c0 c1 c2 K. destruct (H c0 c1 c2 0 0 0) as (? & ? & ? & _); [|auto]. intros i Hi. transitivity (c0 + c1 * x i + c2 * y i); [ring|auto]. Qed.
Lemma poised_1_2 : forall X M, shape X = [M; 2%nat] -> no_line (fun i => X.[i, 0%nat]) (fun i => X.[i, 1%nat]) M -> poised X 1 M.
Proof.
  intros X M HX NL. apply (poised_of X 1 M 2 [[0; 0]; [1; 0]; [0; 1]]%nat HX ltac:(lia) eq_refl). intros c H k Hk. cbn [List.length] in *.
  destruct (NL (c 0%nat) (c 1%nat) (c 2%nat)) as (A & B & C). { intros i Hi. rewrite <- (H i Hi). cbn [sumf nth]. rewrite !mono2. ring. } destruct k as [|[|[|k]]]; auto. lia.
Qed.
Lemma poised_2_2 : forall X M, shape X = [M; 2%nat] -> no_conic (fun i => X.[i, 0%nat]) (fun i => X.[i, 1%nat]) M -> poised X 2 M.
Proof.
  intros X M HX NL. apply (poised_of X 2 M 2 [[0; 0]; [1; 0]; [0; 1]; [2; 0]; [1; 1]; [0; 2]]%nat HX ltac:(lia) eq_refl). intros c H k Hk. cbn [List.length] in *.
  destruct (NL (c 0%nat) (c 1%nat) (c 2%nat) (c 3%nat) (c 4%nat) (c 5%nat)) as (A & B & C & D & E & F). { intros i Hi. rewrite <- (H i Hi). cbn [sumf nth]. rewrite !mono2. ring. } destruct k as [|[|[|[|[|[|k]]]]]]; auto. lia.
Qed.
Lemma poised_0_1 : forall X M, shape X = [M; 1%nat] -> (1 <= M)%nat -> poised X 0 M.
Proof.
  intros X M HX HM. apply (poised_of X 0 M 1 [[0]]%nat HX ltac:(lia) eq_refl). intros c H k Hk. cbn [List.length] in *. assert (K := H 0%nat ltac:(lia)). cbn [sumf nth] in K. rewrite mono1 in K. cbn [pow] in K. replace k with 0%nat by lia. lra.
Qed.
(** the mesh with an odd number of points in each direction *)
Lemma poised_mesh : forall q, (1 <= q)%nat -> poised (mesh (2 * q + 1)) 2 ((2 * q + 1) * (2 * q + 1)).
Proof.
  intros q Hq. set (p := (2 * q + 1)%nat). assert (Hp : p = (2 * q + 1)%nat) by reflexivity. clearbody p.
  assert (PT : forall a b, (a < p)%nat -> (b < p)%nat -> (b * p + a < p * p)%nat /\ (mesh p).[(b * p + a)%nat, 0%nat] = line p a /\ (mesh p).[(b * p + a)%nat, 1%nat] = line p b).
  { intros a b Ha Hb. split; [nia|]. unfold mesh. rewrite !at_mk2. cbn [Nat.eqb]. split; f_equal.
    - rewrite Nat.add_comm, Nat.mod_add by lia. now apply Nat.mod_small.
    - rewrite Nat.div_add_l by lia. rewrite (Nat.div_small a p) by auto. lia. }
  assert (IQ : 0 < INR q) by (apply lt_0_INR; lia).
  assert (L0 : line p 0 = -1) by (unfold line; simpl; unfold Rdiv; ring).
  assert (L1 : line p q = 0). { unfold line. rewrite Hp. replace (2 * q + 1 - 1)%nat with (2 * q)%nat by lia. rewrite mult_INR. simpl (INR 2). field. lra. }
  assert (L2 : line p (2 * q) = 1). { unfold line. rewrite Hp. replace (2 * q + 1 - 1)%nat with (2 * q)%nat by lia. rewrite mult_INR. simpl (INR 2). field. lra. }
  apply poised_2_2; [reflexivity|]. intros c0 c1 c2 c3 c4 c5 H.
  assert (K : forall a b, (a < p)%nat -> (b < p)%nat -> c0 + c1 * line p a + c2 * line p b + c3 * line p a * line p a + c4 * line p a * line p b + c5 * line p b * line p b = 0).
  { intros a b Ha Hb. destruct (PT a b Ha Hb) as (A & B & C). assert (Q := H _ A). cbv beta in Q. now rewrite B, C in Q. }
  assert (K1 := K q q ltac:(lia) ltac:(lia)). assert (K2 := K 0%nat q ltac:(lia) ltac:(lia)). assert (K3 := K (2 * q)%nat q ltac:(lia) ltac:(lia)). assert (K4 := K q 0%nat ltac:(lia) ltac:(lia)). assert (K5 := K q (2 * q)%nat ltac:(lia) ltac:(lia)). assert (K6 := K (2 * q)%nat (2 * q)%nat ltac:(lia) ltac:(lia)).
  rewrite ?L0, ?L1, ?L2 in *. lra.
Qed.

(** points on no curve of degree five *)
Definition no_quintic (x y : nat -> R) (M : nat) : Prop := forall c : nat -> nat -> R,
  (forall i, (i < M)%nat -> sumf 6 (fun p => sumf (6 - p) (fun q => c p q * x i ^ p * y i ^ q)) = 0) -> forall p q, (p + q <= 5)%nat -> c p q = 0.
Lemma poised_5_2 : forall X M, shape X = [M; 2%nat] -> no_quintic (fun i => X.[i, 0%nat]) (fun i => X.[i, 1%nat]) M -> poised X 5 M.
Proof.
  intros X M HX NL. destruct (index_set 5 2) as [L|] eqn:EL; [|discriminate]. assert (EL' := EL).
  match eval vm_compute in (index_set 5 2) with Ok ?l => assert (LL : L = l) by (vm_compute in EL; injection EL as <-; reflexivity) end.
  apply (poised_of X 5 M 2 L HX ltac:(lia) EL'). subst L. clear EL EL'. intros c H.
  assert (K : forall p q, (p + q <= 5)%nat -> c ((p + q) * (p + q + 1) / 2 + q)%nat = 0).
  { intros p q. apply (NL (fun p q => c ((p + q) * (p + q + 1) / 2 + q)%nat)). intros i Hi. rewrite <- (H i Hi). cbv beta. cbn [List.length sumf nth]. rewrite !mono2. 
    cbn [Nat.add Nat.mul Nat.div Nat.divmod Nat.sub fst snd sumf]. ring. }
  intros i Hi. cbn [List.length] in Hi.
  assert (C : exists p q, (p + q <= 5)%nat /\ i = ((p + q) * (p + q + 1) / 2 + q)%nat).
  { destruct i as [|[|[|[|[|[|[|[|[|[|[|[|[|[|[|[|[|[|[|[|[|i]]]]]]]]]]]]]]]]]]]]].
    - exists 0%nat, 0%nat. split; [lia|reflexivity].
    - exists 1%nat, 0%nat. split; [lia|reflexivity].
    - exists 0%nat, 1%nat. split; [lia|reflexivity].
    - exists 2%nat, 0%nat. split; [lia|reflexivity].
    - exists 1%nat, 1%nat. split; [lia|reflexivity].
    - exists 0%nat, 2%nat. split; [lia|reflexivity].
    - exists 3%nat, 0%nat. split; [lia|reflexivity].
    - exists 2%nat, 1%nat. split; [lia|reflexivity].
    - exists 1%nat, 2%nat. split; [lia|reflexivity].
    - exists 0%nat, 3%nat. split; [lia|reflexivity].
    - exists 4%nat, 0%nat. split; [lia|reflexivity].
    - exists 3%nat, 1%nat. split; [lia|reflexivity].
    - exists 2%nat, 2%nat. split; [lia|reflexivity].
    - exists 1%nat, 3%nat. split; [lia|reflexivity].
    - exists 0%nat, 4%nat. split; [lia|reflexivity].
    - exists 5%nat, 0%nat. split; [lia|reflexivity].
    - exists 4%nat, 1%nat. split; [lia|reflexivity].
    - exists 3%nat, 2%nat. split; [lia|reflexivity].
    - exists 2%nat, 3%nat. split; [lia|reflexivity].
    - exists 1%nat, 4%nat. split; [lia|reflexivity].
    - exists 0%nat, 5%nat. split; [lia|reflexivity].
    - lia. }
  destruct C as (p & q & Hpq & ->). now apply K.
Qed.
