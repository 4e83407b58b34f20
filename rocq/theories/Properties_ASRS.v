(** Final theorems for response_surfaces.py: C41 *)
From Coq Require Import String Reals Lra Lia List Arith ZArith Bool FunctionalExtensionality.
From Verif Require Import Prelude Py NumArr LinAlg Lsq Toy M_Misc M_RespSurf M_Gradients M_Subspaces M_Domains M_ASRS P_IndexSet P_Poly P_PolyTrain P_PolyFacts P_Rbf P_Domains P_ASRS Properties_RespSurf Properties_Domains.
Import ListNotations.
Open Scope R_scope.

(** X with t h added to row i *)
Definition nudge (X : nd R) (M m i : nat) (h : nat -> R) (t : R) : nd R :=
  mk2 M m (fun a b => if Nat.eqb a i then X.[a, b] + t * h b else X.[a, b]).
Definition value_at (r : res (nd R * option (nd R))) (i : nat) : R := match r with Ok (F, _) => F.[i, 0%nat] | Err _ => 0 end.
(** [p] evaluates every M-by-n array, returns the same values with and without
    gradients, and row i of the gradient gives the derivative of value i in
    every direction h *)
Definition true_gradient (p : predictor) (n : nat) : Prop := forall X M, shape X = [M; n] ->
  exists F D F', p X true = Ok (F, Some D) /\ p X false = Ok (F', None) /\ shape F = [M; 1%nat] /\ shape D = [M; n] /\ F' === F /\
    forall i h, (i < M)%nat -> derivable_pt_lim (fun t => value_at (p (nudge X M n i h t) false) i) 0 (sumf n (fun k => D.[i, k] * h k)).
(** [p] only looks at the entries of the array *)
Definition same_result (a b : res (nd R * option (nd R))) : Prop :=
  match a, b with
  | Ok (F, None), Ok (F', None) => F === F'
  | Ok (F, Some D), Ok (F', Some D') => F === F' /\ D === D'
  | Err e, Err e' => e = e'
  | _, _ => False
  end.
Definition entrywise (p : predictor) (n : nat) : Prop := forall X X' M g, shape X = [M; n] -> X === X' -> same_result (p X g) (p X' g).

Lemma predict_form : forall s m n Wm W1 W2 X M, frame (d_subs (av_domain (as_map s))) m n Wm W1 W2 -> shape X = [M; m] ->
  let Y := mk2 M n (fun r j => sumf m (fun i => X.[r, i] * W1.[i, j])) in
    asrs_predict s X false = (do (f, _) <- predict_av s Y false; Ok (f, None)) /\
    (forall f D, predict_av s Y true = Ok (f, Some D) -> shape D = [M; n] ->
       exists dfdx, asrs_predict s X true = Ok (f, Some dfdx) /\ asrs_gradient s X = Ok (Some dfdx) /\ gradient_av s Y = Ok (Some D) /\
         shape dfdx = [M; m] /\ forall r k, dfdx.[r, k] = sumf n (fun j => D.[r, j] * W1.[k, j])) /\
    asrs_call s X = (do (f, _) <- predict_av s Y false; Ok f).
Proof.
  intros s m n Wm W1 W2 X M F HX Y. assert (S1 := fr_s1 _ _ _ _ _ _ F).
  assert (EF : exists Z, av_forward (as_map s) X = Ok (Y, Z)).
  { unfold av_forward. rewrite (process_inputs_ok _ X M m HX). cbn [rbind].
    rewrite (fr_1 _ _ _ _ _ _ F), (fr_2 _ _ _ _ _ _ F). cbn [need rbind].
    rewrite (npdot2 X W1 M m n HX S1), (npdot2 X W2 M m (m - n) HX (fr_s2 _ _ _ _ _ _ F)). cbn [rbind]. eexists. reflexivity. }
  destruct EF as (Z & EF). assert (E0 : asrs_predict s X false = (do (f, _) <- predict_av s Y false; Ok (f, None))).
  { unfold asrs_predict. rewrite EF. cbn [rbind]. destruct (predict_av s Y false) as [[f d]|]; reflexivity. }
  split; auto. split.
  - intros f D EP SD.
    assert (E : asrs_predict s X true = Ok (f, Some (mk2 M m (fun r k => sumf n (fun j => D.[r, j] * (tr W1).[j, k]))))).
    { unfold asrs_predict. rewrite EF. cbn [rbind]. rewrite EP. cbn [rbind]. rewrite (fr_1 _ _ _ _ _ _ F). cbn [need rbind].
      rewrite (npdot2 D (tr W1) M n m SD); [reflexivity|]. unfold tr. now rewrite shape_mk2, (nrows_shape2 _ _ _ _ S1), (ncols_shape2 _ _ _ _ S1). }
    eexists. split; [exact E|]. unfold asrs_gradient, gradient_av. rewrite E. cbn [rbind]. unfold predict_av in EP. rewrite EP. repeat split.
  - unfold asrs_call. rewrite E0. destruct (predict_av s Y false) as [[f d]|]; reflexivity.
Qed.

(** predict(X) is predict_av(X W1); with gradients, the same values and
    predict_av's gradient times W1^T *)
Theorem C41_predict : forall s m n Wm W1 W2 X M, frame (d_subs (av_domain (as_map s))) m n Wm W1 W2 -> shape X = [M; m] ->
  exists Y, shape Y = [M; n] /\ (forall r j, Y.[r, j] = sumf m (fun i => X.[r, i] * W1.[i, j])) /\
    asrs_predict s X false = (do (f, _) <- predict_av s Y false; Ok (f, None)) /\
    (forall f D, predict_av s Y true = Ok (f, Some D) -> shape D = [M; n] ->
       exists dfdx, asrs_predict s X true = Ok (f, Some dfdx) /\ asrs_gradient s X = Ok (Some dfdx) /\ gradient_av s Y = Ok (Some D) /\
         shape dfdx = [M; m] /\ forall r k, dfdx.[r, k] = sumf n (fun j => D.[r, j] * W1.[k, j])) /\
    asrs_call s X = (do (f, _) <- predict_av s Y false; Ok f).
Proof.
  intros s m n Wm W1 W2 X M F HX. exists (mk2 M n (fun r j => sumf m (fun i => X.[r, i] * W1.[i, j]))).
  split; [reflexivity|]. split; [intros; now rewrite at_mk2|]. exact (predict_form s m n Wm W1 W2 X M F HX).
Qed.
Print Assumptions C41_predict.

(** moving the rows of X along W2 changes neither value nor gradient *)
Theorem C41_inactive_directions : forall s m n Wm W1 W2 X X' M (c : nat -> nat -> R),
  frame (d_subs (av_domain (as_map s))) m n Wm W1 W2 -> shape X = [M; m] -> shape X' = [M; m] ->
  (forall r k, (r < M)%nat -> (k < m)%nat -> X'.[r, k] = X.[r, k] + sumf (m - n) (fun j => W2.[k, j] * c r j)) ->
  entrywise (rs_predict (as_rs s)) n -> true_gradient (rs_predict (as_rs s)) n ->
  forall g, same_result (asrs_predict s X g) (asrs_predict s X' g).
Proof.
  intros s m n Wm W1 W2 X X' M c F HX HX' Hc HE HG g. assert (Hle := fr_le _ _ _ _ _ _ F).
  destruct (C41_predict s m n Wm W1 W2 X M F HX) as (Y & SY & VY & P0 & P1 & _).
  destruct (C41_predict s m n Wm W1 W2 X' M F HX') as (Y' & SY' & VY' & P0' & P1' & _).
  assert (EY : Y === Y').
  { apply (eqnd2 _ M n); auto. intros r j Hr Hj. rewrite VY, VY'.
    rewrite (sumf_ext m (fun i => X'.[r, i] * W1.[i, j]) (fun i => X.[r, i] * W1.[i, j] + sumf (m - n) (fun b => W2.[i, b] * c r b * W1.[i, j]))).
    2: { intros i Hi. rewrite Hc by auto. rewrite Rmult_plus_distr_r. f_equal. rewrite <- sumf_scal_r. reflexivity. }
    rewrite sumf_plus, sumf_swap. rewrite (sumf_zero (m - n)); [ring|]. intros b Hb.
    rewrite (sumf_ext m _ (fun i => Wm.[i, (n + b)%nat] * Wm.[i, j] * c r b)).
    2: { intros i Hi. rewrite (fr_e1 _ _ _ _ _ _ F), (fr_e2 _ _ _ _ _ _ F) by auto. ring. }
    rewrite sumf_scal_r, (fr_o _ _ _ _ _ _ F) by lia. destruct (Nat.eqb_spec (n + b) j); [lia|ring]. }
  specialize (HE Y Y' M g SY EY). destruct g.
  - destruct (HG Y M SY) as (A & D & _ & E1 & _ & _ & SD & _). destruct (HG Y' M SY') as (A' & D' & _ & E1' & _ & _ & SD' & _).
    rewrite E1, E1' in HE. destruct HE as [HA HD].
    destruct (P1 A D E1 SD) as (d & Q1 & _ & _ & Q2 & Q3). destruct (P1' A' D' E1' SD') as (d' & Q1' & _ & _ & Q2' & Q3').
    rewrite Q1, Q1'. split; auto. apply (eqnd2 _ M m); auto. intros r k Hr Hk. rewrite Q3, Q3'. apply sumf_ext. intros j Hj. f_equal. eapply eqnd_at2; eauto.
  - rewrite P0, P0'. unfold predict_av. destruct (rs_predict (as_rs s) Y false) as [[f [d|]]|], (rs_predict (as_rs s) Y' false) as [[f' [d'|]]|]; simpl in *; tauto.
Qed.
Print Assumptions C41_inactive_directions.

(** a true gradient in the active variables gives a true gradient in x,
    without component along W2 *)
Theorem C41_gradient : forall s m n Wm W1 W2, frame (d_subs (av_domain (as_map s))) m n Wm W1 W2 ->
  true_gradient (rs_predict (as_rs s)) n ->
  true_gradient (asrs_predict s) m /\
  forall X M, shape X = [M; m] -> exists D, asrs_gradient s X = Ok (Some D) /\ shape D = [M; m] /\
    forall r j, (j < m - n)%nat -> sumf m (fun k => D.[r, k] * W2.[k, j]) = 0.
Proof.
  intros s m n Wm W1 W2 F HG. assert (Hle := fr_le _ _ _ _ _ _ F). split.
  - intros X M HX. destruct (predict_form s m n Wm W1 W2 X M F HX) as (P0 & P1 & _). set (Y := mk2 M n _) in *.
    destruct (HG Y M eq_refl) as (A & D & A' & E1 & E2 & SA & SD & EA & HD). destruct (P1 A D E1 SD) as (d & Q1 & _ & _ & Q2 & Q3).
    exists A, d, A'. split; auto. split; [rewrite P0; unfold predict_av; now rewrite E2|]. split; auto. split; auto. split; auto.
    intros i h Hi. set (hy := fun j => sumf m (fun k => h k * W1.[k, j])).
    replace (sumf m (fun k => d.[i, k] * h k)) with (sumf n (fun j => D.[i, j] * hy j)).
    2: { unfold hy. rewrite (sumf_ext m _ (fun k => sumf n (fun j => D.[i, j] * W1.[k, j] * h k))).
         2: { intros k Hk. rewrite Q3, <- sumf_scal_r. reflexivity. }
         rewrite sumf_swap. apply sumf_ext. intros j Hj. rewrite <- sumf_scal_l. apply sumf_ext. intros; ring. }
    eapply derivable_pt_lim_ext; [|exact (HD i hy Hi)]. intros t. cbv beta.
    destruct (predict_form s m n Wm W1 W2 (nudge X M m i h t) M F eq_refl) as (P2 & _). rewrite P2.
    replace (mk2 M n (fun r j => sumf m (fun i0 => (nudge X M m i h t).[r, i0] * W1.[i0, j]))) with (nudge Y M n i hy t).
    + unfold predict_av. destruct (rs_predict (as_rs s) (nudge Y M n i hy t) false) as [[f0 d0]|]; reflexivity.
    + unfold nudge at 1. f_equal. apply functional_extensionality. intros r. apply functional_extensionality. intros j.
      unfold Y, nudge, hy. rewrite at_mk2. destruct (Nat.eqb_spec r i) as [->|Nr].
      * rewrite <- sumf_scal_l, <- sumf_plus. apply sumf_ext. intros k Hk. rewrite at_mk2, Nat.eqb_refl. ring.
      * apply sumf_ext. intros k Hk. rewrite at_mk2. destruct (Nat.eqb_spec r i); [contradiction|reflexivity].
  - intros X M HX. destruct (predict_form s m n Wm W1 W2 X M F HX) as (P0 & P1 & _). set (Y := mk2 M n _) in *.
    destruct (HG Y M eq_refl) as (A & D & A' & E1 & E2 & SA & SD & EA & HD). destruct (P1 A D E1 SD) as (d & _ & Q1 & _ & Q2 & Q3).
    exists d. split; auto. split; auto. intros r j Hj.
    rewrite (sumf_ext m _ (fun k => sumf n (fun a => D.[r, a] * (Wm.[k, a] * Wm.[k, (n + j)%nat])))).
    2: { intros k Hk. rewrite Q3, <- sumf_scal_r. apply sumf_ext. intros a Ha. rewrite (fr_e1 _ _ _ _ _ _ F), (fr_e2 _ _ _ _ _ _ F) by auto. ring. }
    rewrite sumf_swap. apply sumf_zero. intros a Ha. rewrite sumf_scal_l, (fr_o _ _ _ _ _ _ F) by lia. destruct (Nat.eqb_spec a (n + j)); [lia|ring].
Qed.
Print Assumptions C41_gradient.

(** the two surfaces of the package have true gradients and look at entries only *)
Lemma poly_surface : forall N s n, (1 <= n)%nat -> shape (pa_weights s) = [binom (pa_N s + n) n; 1%nat] ->
  true_gradient (rs_predict (RSPoly N (Some s))) n /\ entrywise (rs_predict (RSPoly N (Some s))) n.
Proof.
  intros N s n Hn Hw. cbn [rs_predict]. split.
  - intros X M HX.
    destruct (poly_predict_ok s X M n true HX Hn Hw) as (L & F & HL & E1 & E2 & E3).
    destruct (poly_predict_ok s X M n false HX Hn Hw) as (L' & F' & HL' & E1' & E2' & E3'). rewrite HL in HL'. injection HL' as <-.
    do 3 eexists. split; [exact E3|]. split; [exact E3'|]. split; auto. split; [reflexivity|]. split.
    { apply (eqnd2 _ M 1); auto. intros i j Hi Hj. assert (j = 0%nat) as -> by lia. now rewrite E2, E2'. }
    intros i h Hi. eapply derivable_pt_lim_ext; [|exact (poly_line n L (fun c => (pa_weights s).[c, 0%nat]) (fun j => X.[i, j]) h)].
    intros t. cbv beta. destruct (poly_predict_ok s (nudge X M n i h t) M n false eq_refl Hn Hw) as (L' & F2 & HL2 & _ & E4 & E5).
    rewrite HL in HL2. injection HL2 as <-. change (rs_predict (RSPoly N (Some s)) (nudge X M n i h t) false) with (poly_predict s (nudge X M n i h t) false). rewrite E5. unfold value_at. rewrite E4 by auto. symmetry. apply poly_eval_ext. intros j Hj.
    unfold nudge, along. rewrite at_mk2, Nat.eqb_refl. reflexivity.
  - intros X X' M g HX EX. assert (HX' : shape X' = [M; n]) by (destruct EX as [E _]; congruence).
    destruct (poly_predict_ok s X M n g HX Hn Hw) as (L & F & HL & E1 & E2 & E3).
    destruct (poly_predict_ok s X' M n g HX' Hn Hw) as (L' & F' & HL' & E1' & E2' & E3'). rewrite HL in HL'. injection HL' as <-.
    assert (EF : F === F').
    { apply (eqnd2 _ M 1); auto. intros i j Hi Hj. assert (j = 0%nat) as -> by lia. rewrite E2, E2' by auto. apply poly_eval_ext. intros k Hk. eapply eqnd_at2; eauto. }
    change (same_result (poly_predict s X g) (poly_predict s X' g)). rewrite E3, E3'. destruct g; simpl; auto. split; auto. apply (eqnd2 _ M n); auto. intros i j Hi Hj. rewrite !at_mk2. apply poly_deval_ext. intros k Hk. eapply eqnd_at2; eauto.
Qed.

Lemma rbf_surface : forall N s n T, (1 <= n)%nat -> rbf_shape s T n ->
  true_gradient (rs_predict (RSRbf N (Some s))) n /\ entrywise (rs_predict (RSRbf N (Some s))) n.
Proof.
  intros N s n T Hn Hs. cbn [rs_predict]. split.
  - intros X M HX.
    destruct (rbf_predict_ok s X M n T true HX Hn Hs) as (L & F & HL & E1 & E2 & D & E3 & E4 & E5).
    destruct (rbf_predict_ok s X M n T false HX Hn Hs) as (L' & F' & HL' & E1' & E2' & D' & E3' & _). rewrite HL in HL'. injection HL' as <-.
    exists F, D, F'. split; [exact E3|]. split; [exact E3'|]. split; auto. split; auto. split.
    { apply (eqnd2 _ M 1); auto. intros i j Hi Hj. assert (j = 0%nat) as -> by lia. now rewrite E2, E2'. }
    intros i h Hi. rewrite (sumf_ext n _ (fun k => rbf_deval s T n L k (fun j => X.[i, j]) * h k)) by (intros; now rewrite E5).
    eapply derivable_pt_lim_ext; [|exact (rbf_line s T n L (fun j => X.[i, j]) h)].
    intros t. cbv beta. destruct (rbf_predict_ok s (nudge X M n i h t) M n T false eq_refl Hn Hs) as (L' & F2 & HL2 & _ & E6 & D2 & E7 & _).
    rewrite HL in HL2. injection HL2 as <-. change (rs_predict (RSRbf N (Some s)) (nudge X M n i h t) false) with (rbf_predict s (nudge X M n i h t) false). rewrite E7. unfold value_at. rewrite E6 by auto. symmetry. apply rbf_eval_ext. intros j Hj.
    unfold nudge, along. rewrite at_mk2, Nat.eqb_refl. reflexivity.
  - intros X X' M g HX EX. assert (HX' : shape X' = [M; n]) by (destruct EX as [E _]; congruence).
    destruct (rbf_predict_ok s X M n T g HX Hn Hs) as (L & F & HL & E1 & E2 & D & E3 & E4 & E5).
    destruct (rbf_predict_ok s X' M n T g HX' Hn Hs) as (L' & F' & HL' & E1' & E2' & D' & E3' & E4' & E5'). rewrite HL in HL'. injection HL' as <-.
    assert (EF : F === F').
    { apply (eqnd2 _ M 1); auto. intros i j Hi Hj. assert (j = 0%nat) as -> by lia. rewrite E2, E2' by auto. apply rbf_eval_ext. intros k Hk. eapply eqnd_at2; eauto. }
    change (same_result (rbf_predict s X g) (rbf_predict s X' g)). rewrite E3, E3'. destruct g; simpl; auto. split; auto. apply (eqnd2 _ M n); auto. intros i j Hi Hj. rewrite E5, E5' by auto. apply rbf_deval_ext; auto. intros k Hk. eapply eqnd_at2; eauto.
Qed.

(** after train_with_data (or any successful _train) with a polynomial or
    radial-basis surface: predict has the true gradient in x, which does not
    see W2, and predictions do not change along W2 *)
Theorem C41_trained_surface : forall solve cholesky fminbound lstsq s s' m n Wm W1 W2 X f v M,
  solve_sound solve -> lstsq_contract lstsq ->
  frame (d_subs (av_domain (as_map s))) m n Wm W1 W2 -> (1 <= n)%nat ->
  match as_rs s with RSRbf _ _ => True | RSPoly N _ => (1 <= N)%nat | RSUser _ _ => False end ->
  shape X = [M; m] -> shape f = [M; 1%nat] ->
  train_with_data solve cholesky fminbound lstsq s X f v = Ok s' ->
  as_map s' = as_map s /\ true_gradient (asrs_predict s') m /\
  (forall X P, shape X = [P; m] -> exists D, asrs_gradient s' X = Ok (Some D) /\ shape D = [P; m] /\
    forall r j, (j < m - n)%nat -> sumf m (fun k => D.[r, k] * W2.[k, j]) = 0) /\
  (forall X X' P (c : nat -> nat -> R) g, shape X = [P; m] -> shape X' = [P; m] ->
    (forall r k, (r < P)%nat -> (k < m)%nat -> X'.[r, k] = X.[r, k] + sumf (m - n) (fun j => W2.[k, j] * c r j)) ->
    same_result (asrs_predict s' X g) (asrs_predict s' X' g)).
Proof.
  intros solve cholesky fminbound lstsq s s' m n Wm W1 W2 X f v M HS HL F Hn HK HX Hf HT.
  unfold train_with_data, av_forward in HT. rewrite (process_inputs_ok _ X M m HX) in HT. cbn [rbind] in HT.
  rewrite (fr_1 _ _ _ _ _ _ F), (fr_2 _ _ _ _ _ _ F) in HT. cbn [need rbind] in HT.
  rewrite (npdot2 X W1 M m n HX (fr_s1 _ _ _ _ _ _ F)), (npdot2 X W2 M m (m - n) HX (fr_s2 _ _ _ _ _ _ F)) in HT. cbn [rbind] in HT.
  set (Y := mk2 M n _) in HT. unfold asrs_train in HT. apply rbind_ok in HT. destruct HT as (r & Er & HT). injection HT as <-.
  assert (Q : true_gradient (rs_predict r) n /\ entrywise (rs_predict r) n).
  { unfold rs_train in Er. destruct (as_rs s) as [N st|N st|t st]; [| |contradiction].
    - apply rbind_ok in Er. destruct Er as (q & Eq & Er). injection Er as <-.
      destruct (rbf_train_inv solve cholesky fminbound N Y f v _ M n q HS eq_refl Hf Hn Eq) as (L & l & nu & _ & _ & _ & _ & _ & T).
      exact (rbf_surface N q n M Hn (r_shape _ _ _ _ _ _ _ _ T)).
    - apply rbind_ok in Er. destruct Er as (q & Eq & Er). injection Er as <-.
      destruct (poly_train_inv lstsq HL N Y f None M n eq_refl Hf Hn HK I) as (L & EL & _ & Htr & _).
      exact (poly_surface N q n Hn (trained_shape N Y f None M n L q Hn EL (Htr q Eq))). }
  destruct Q as [Q1 Q2]. split; [reflexivity|].
  destruct (C41_gradient (ASRS r (as_map s)) m n Wm W1 W2 F Q1) as [G1 G2]. split; auto. split; auto.
  intros X0 X' P c g H0 H' HC. exact (C41_inactive_directions (ASRS r (as_map s)) m n Wm W1 W2 X0 X' P c F H0 H' HC Q2 Q1 g).
Qed.
Print Assumptions C41_trained_surface.

(** the surface y^2 over W1 = (1, 2, 2)/3, at (1, 1, 1); and a training run with
    three arbitrary points *)
Definition s41 : asrs := ASRS (RSPoly 2 (Some {| pa_N := 2; pa_X := mat_of [[0]]; pa_f := mat_of [[0]]; pa_weights := mat_of [[0]; [0]; [1]];
    pa_Rsqr := Fin 1; pa_g := mat_of [[0]]; pa_H := None |})) (AVM MUnbounded (AVD DUnbounded sub3 3 1 None None None None)).
Example C41_case : (exists F D, asrs_predict s41 (mat_of [[1; 1; 1]]) true = Ok (F, Some D) /\
    F.[0%nat, 0%nat] = 25 / 9 /\ D.[0%nat, 0%nat] = 10 / 9 /\ D.[0%nat, 1%nat] = 20 / 9 /\ D.[0%nat, 2%nat] = 20 / 9) /\
  true_gradient (asrs_predict s41) 3 /\
  forall solve cholesky fminbound f, shape f = [3%nat; 1%nat] -> exists s', train_with_data solve cholesky fminbound lstsq_ref s41 (mat_of [[1; 1; 1]; [0; 1; 0]; [1; 0; 0]]) f None = Ok s'.
Proof.
  split; [|split].
  - eexists _, _. split; [reflexivity|]. repeat split; cbn; field.
  - apply (C41_gradient s41 3 1 W3 W31 W32 frame3). apply poly_surface; [lia|reflexivity].
  - intros solve cholesky fminbound f Hf. set (X := mat_of _). unfold train_with_data, av_forward, s41. cbn [as_map av_domain d_subs sub3 s_W1 s_W2 need rbind].
    rewrite (process_inputs_ok _ X 3 3 eq_refl). cbn [rbind].
    rewrite (npdot2 X W31 3 3 1 eq_refl eq_refl), (npdot2 X W32 3 3 2 eq_refl eq_refl). cbn [rbind].
    unfold asrs_train, rs_train. cbn [as_rs as_map]. set (Y := mk2 3 1 _).
    destruct (C38_training_returns lstsq_ref 2 Y f None 3 1 lstsq_ref_contract lstsq_ref_total eq_refl Hf) as (q & ->); [lia|lia|exact I|cbn; lia|].
    cbn [rbind]. eexists. reflexivity.
Qed.
