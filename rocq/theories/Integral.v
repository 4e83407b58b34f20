(** Riemann integrals through antiderivatives; limits at infinity. *)
From Coq Require Import Reals Lra Lia List Arith.
From Verif Require Import Prelude.
Import ListNotations.
Open Scope R_scope.

Lemma ftc : forall f F a b (pr : Riemann_integrable f a b), a <= b ->
  (forall x, derivable_pt_lim F x (f x)) -> continuity f -> RiemannInt pr = F b - F a.
Proof.
  intros f F a b pr Hab HF Hc.
  assert (D : derivable F) by (intros x; exists (f x); apply HF).
  assert (E : forall x, derive F D x = f x).
  { intros x. unfold derive. apply derive_pt_eq_0. apply HF. }
  assert (C : continuity (derive F D)).
  { intros x. unfold continuity_pt, continue_in, limit1_in, limit_in. intros eps He.
    destruct (Hc x eps He) as (d & Hd & H). exists d. split; auto. intros y Hy. rewrite !E. now apply H. }
  set (G := mkC1 (c1 := F) (diff0 := D) C).
  assert (pr' : Riemann_integrable (derive G (diff0 G)) a b).
  { apply continuity_implies_RiemannInt; auto. }
  transitivity (RiemannInt pr').
  - apply RiemannInt_P18; [exact Hab|intros x _; symmetry; apply E].
  - apply (FTC_Riemann G).
Qed.

Lemma cont_ext : forall f g, (forall x, f x = g x) -> continuity f -> continuity g.
Proof.
  intros f g E H x eps He. destruct (H x eps He) as (d & Hd & K). exists d. split; auto. intros y Hy. rewrite <- !E. now apply K.
Qed.
Lemma derivable_lim_continuous : forall F f, (forall x, derivable_pt_lim F x (f x)) -> continuity F.
Proof.
  intros F f H x. apply derivable_continuous_pt. exists (f x). apply H.
Qed.

Lemma dlim_ext : forall F G x l, (forall y, F y = G y) -> derivable_pt_lim F x l -> derivable_pt_lim G x l.
Proof.
  intros F G x l E H eps He. destruct (H eps He) as (d & Hd). exists d. intros h h0 hd. rewrite <- !E. now apply Hd.
Qed.
Lemma dlim_sumf : forall n (F : nat -> R -> R) (f : nat -> R) x,
  (forall i, (i < n)%nat -> derivable_pt_lim (F i) x (f i)) ->
  derivable_pt_lim (fun y => sumf n (fun i => F i y)) x (sumf n f).
Proof.
  induction n; intros F f x H; simpl.
  - apply derivable_pt_lim_const.
  - apply (derivable_pt_lim_plus (fun y => sumf n (fun i => F i y)) (F n)); auto.
Qed.
Lemma dlim_scal : forall c F x l, derivable_pt_lim F x l -> derivable_pt_lim (fun y => c * F y) x (c * l).
Proof. intros. now apply (derivable_pt_lim_scal F). Qed.
Lemma dlim_plus : forall F G x l m, derivable_pt_lim F x l -> derivable_pt_lim G x m -> derivable_pt_lim (fun y => F y + G y) x (l + m).
Proof. intros. now apply (derivable_pt_lim_plus F G). Qed.
Lemma dlim_minus : forall F G x l m, derivable_pt_lim F x l -> derivable_pt_lim G x m -> derivable_pt_lim (fun y => F y - G y) x (l - m).
Proof. intros. now apply (derivable_pt_lim_minus F G). Qed.
Lemma dlim_mult : forall F G x l m, derivable_pt_lim F x l -> derivable_pt_lim G x m -> derivable_pt_lim (fun y => F y * G y) x (l * G x + F x * m).
Proof. intros. now apply (derivable_pt_lim_mult F G). Qed.
Lemma dlim_id : forall x, derivable_pt_lim (fun y => y) x 1.
Proof. intros. apply derivable_pt_lim_id. Qed.
Lemma dlim_eq : forall F x l m, l = m -> derivable_pt_lim F x l -> derivable_pt_lim F x m.
Proof. intros; now subst. Qed.

(** ** functions tending to 0 at both infinities *)
Definition vanish (f : R -> R) : Prop := forall eps, 0 < eps -> exists T, 0 < T /\ forall x, T <= Rabs x -> Rabs (f x) < eps.

Lemma vanish_ext : forall f g, (forall x, f x = g x) -> vanish f -> vanish g.
Proof. intros f g E H eps He. destruct (H eps He) as (T & T0 & HT). exists T. split; auto. intros. rewrite <- E. auto. Qed.
Lemma vanish_0 : vanish (fun _ => 0).
Proof. intros eps He. exists 1. split; [lra|]. intros. rewrite Rabs_R0. auto. Qed.
Lemma vanish_plus : forall f g, vanish f -> vanish g -> vanish (fun x => f x + g x).
Proof.
  intros f g Hf Hg eps He. destruct (Hf (eps / 2)) as (T1 & P1 & H1); [lra|]. destruct (Hg (eps / 2)) as (T2 & P2 & H2); [lra|].
  exists (Rmax T1 T2). split; [assert (M := Rmax_l T1 T2); lra|]. intros x Hx.
  assert (M1 := Rmax_l T1 T2). assert (M2 := Rmax_r T1 T2).
  assert (A := H1 x ltac:(lra)). assert (B := H2 x ltac:(lra)). assert (C := Rabs_triang (f x) (g x)). lra.
Qed.
Lemma vanish_scal : forall c f, vanish f -> vanish (fun x => c * f x).
Proof.
  intros c f Hf eps He. destruct (Hf (eps / (Rabs c + 1))) as (T & P & H).
  - apply Rdiv_lt_0_compat; auto. assert (A := Rabs_pos c). lra.
  - exists T. split; auto. intros x Hx. rewrite Rabs_mult. specialize (H x Hx). assert (A := Rabs_pos c).
    apply (Rmult_lt_compat_l (Rabs c + 1)) in H; [|lra].
    replace ((Rabs c + 1) * (eps / (Rabs c + 1))) with eps in H by (field; lra).
    assert (B := Rabs_pos (f x)). nra.
Qed.
Lemma vanish_sumf : forall n (f : nat -> R -> R), (forall i, (i < n)%nat -> vanish (f i)) -> vanish (fun x => sumf n (fun i => f i x)).
Proof.
  induction n; intros f H; simpl; [apply vanish_0|]. apply vanish_plus; auto.
Qed.

(** t^n e^{-t} is bounded *)
Lemma exp_ge : forall x, x <= exp x.
Proof. intros. assert (A := exp_ineq1_le x). lra. Qed.
Lemma exp_mult_nat : forall m y, exp (INR m * y) = exp y ^ m.
Proof.
  induction m as [|m IH]; intros y; [simpl; rewrite Rmult_0_l; apply exp_0|].
  rewrite S_INR, Rmult_plus_distr_r, exp_plus, IH, Rmult_1_l. simpl. ring.
Qed.
Lemma pow_exp_bound : forall n t, 0 <= t -> t ^ n * exp (- t) <= INR n ^ n.
Proof.
  intros n t Ht. destruct n as [|n].
  - simpl. rewrite Rmult_1_l. rewrite <- exp_0 at 1. destruct (Rle_lt_or_eq_dec 0 t Ht) as [H| <-].
    + left. apply exp_increasing. lra.
    + right. f_equal. lra.
  - set (k := INR (S n)). assert (K : 0 < k) by (unfold k; apply lt_0_INR; lia).
    assert (E : exp t = exp (t / k) ^ S n).
    { replace (exp t) with (exp (INR (S n) * (t / k))) by (f_equal; unfold k in *; field; lra). apply exp_mult_nat. }
    rewrite exp_Ropp. apply (Rmult_le_reg_r (exp t)); [apply exp_pos|].
    rewrite Rmult_assoc, Rinv_l, Rmult_1_r by (assert (A := exp_pos t); lra).
    rewrite E, <- Rpow_mult_distr. apply pow_incr. split; auto.
    assert (A := exp_ge (t / k)). apply (Rmult_le_compat_l k) in A; [|lra].
    replace (k * (t / k)) with t in A by (field; lra). auto.
Qed.

Definition phi (x : R) : R := exp (- (x * x / 2)).

Lemma phi_pos : forall x, 0 < phi x.  Proof. intros. apply exp_pos. Qed.
Lemma phi_deriv : forall x, derivable_pt_lim phi x (- x * phi x).
Proof.
  intros x. unfold phi. apply (dlim_eq _ _ (exp (- (x * x / 2)) * (- x))); [ring|].
  apply (derivable_pt_lim_comp (fun y => - (y * y / 2)) exp); [|apply derivable_pt_lim_exp].
  apply (dlim_ext (fun y => (-1 / 2) * (y * y))); [intros; field|].
  apply (dlim_eq _ _ (-1 / 2 * (1 * x + x * 1))); [field|]. apply dlim_scal.
  apply (dlim_mult (fun y => y) (fun y => y)); apply dlim_id.
Qed.
Lemma vanish_pow_phi : forall k, vanish (fun x => x ^ k * phi x).
Proof.
  intros k eps He. set (n := S k). set (B := 2 ^ n * INR n ^ n).
  assert (HB : 0 < B). { unfold B. apply Rmult_lt_0_compat; apply pow_lt; [lra|]. apply lt_0_INR. unfold n; lia. }
  exists (1 + B / eps). assert (Q : 0 < B / eps) by (apply Rdiv_lt_0_compat; auto). split; [lra|].
  intros x Hx. set (a := Rabs x) in *. assert (Ha : 1 <= a) by lra.
  assert (P := pow_exp_bound n (x * x / 2)).
  assert (Hxx : x * x = a * a).
  { unfold a. destruct (Rcase_abs x); [rewrite Rabs_left by auto; ring|rewrite Rabs_right by auto; ring]. }
  rewrite Hxx in P. specialize (P ltac:(nra)). fold n in P.
  unfold phi. rewrite Hxx. rewrite Rabs_mult, <- RPow_abs. fold a. rewrite (Rabs_right (exp _)) by (left; apply exp_pos).
  set (E := exp (- (a * a / 2))) in *. assert (HE : 0 < E) by apply exp_pos.
  assert (P2 : (a * a) ^ n * E <= B).
  { unfold B. replace ((a * a) ^ n) with (2 ^ n * (a * a / 2) ^ n) by (rewrite <- Rpow_mult_distr; f_equal; field).
    rewrite Rmult_assoc. apply Rmult_le_compat_l; [left; apply pow_lt; lra|auto]. }
  assert (P3 : a ^ k * a <= (a * a) ^ n).
  { rewrite Rpow_mult_distr. replace (a ^ k * a) with (a ^ n * 1) by (unfold n; simpl; ring).
    apply Rmult_le_compat_l; [apply pow_le; lra|]. apply pow_R1_Rle; auto. }
  assert (P4 : a ^ k * E * a <= B). { replace (a ^ k * E * a) with (a ^ k * a * E) by ring. nra. }
  apply (Rmult_lt_reg_r a); [lra|]. apply Rle_lt_trans with B; auto.
  apply (Rmult_lt_reg_r (/ eps)); [now apply Rinv_0_lt_compat|].
  replace (eps * a * / eps) with a by (field; lra). unfold Rdiv in *. lra.
Qed.

(** mass of the Gaussian density in the middle *)
Lemma phi_cont : continuity phi.
Proof. apply (derivable_lim_continuous phi (fun x => - x * phi x)). apply phi_deriv. Qed.
Lemma phi_mass : forall T (pr : Riemann_integrable phi (- T) T), 1 <= T -> 2 * phi 1 <= RiemannInt pr.
Proof.
  intros T pr HT.
  assert (C : forall a b, Riemann_integrable phi a b).
  { intros. destruct (Rle_dec a b).
    - apply continuity_implies_RiemannInt; auto. intros x _. apply phi_cont.
    - apply RiemannInt_P1. apply continuity_implies_RiemannInt; [lra|]. intros x _. apply phi_cont. }
  rewrite <- (RiemannInt_P26 (C (- T) (- (1))) (C (- (1)) T) pr).
  rewrite <- (RiemannInt_P26 (C (- (1)) 1) (C 1 T) (C (- (1)) T)).
  assert (Z : forall a b (p : Riemann_integrable phi a b), a <= b -> 0 <= RiemannInt p).
  { intros a b p Hab. assert (A := RiemannInt_P19 (RiemannInt_P14 a b 0) p Hab).
    rewrite RiemannInt_P15 in A. rewrite Rmult_0_l in A. apply A. intros. unfold fct_cte. left. apply phi_pos. }
  assert (Z1 := Z _ _ (C (- T) (- (1))) ltac:(lra)). assert (Z2 := Z _ _ (C 1 T) ltac:(lra)).
  assert (M : phi 1 * (1 - - (1)) <= RiemannInt (C (- (1)) 1)).
  { assert (A := RiemannInt_P19 (RiemannInt_P14 (- (1)) 1 (phi 1)) (C (- (1)) 1)). rewrite RiemannInt_P15 in A. apply A; [lra|].
    intros x Hx. unfold fct_cte, phi. destruct (Req_dec (x * x) (1 * 1)) as [->|]; [lra|]. left. apply exp_increasing. nra. }
  lra.
Qed.
