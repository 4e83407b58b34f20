(** Proofs about PolynomialApproximation *)
From Coq Require Import Reals Lra Lia List Arith ZArith Bool Sorted.
From Verif Require Import Prelude Py NumArr LinAlg Lsq M_Misc M_RespSurf Sorting P_Misc P_IndexSet.
Import ListNotations.
Open Scope R_scope.

(** ** monomials *)
Definition mono (m : nat) (al : list nat) (x : nat -> R) : R := prodf m (fun j => x j ^ nth j al 0%nat).
Definition set_at (x : nat -> R) (k : nat) (t : R) : nat -> R := fun j => if Nat.eqb j k then t else x j.

Lemma prodf_ext : forall n f g, (forall i, (i < n)%nat -> f i = g i) -> prodf n f = prodf n g.
Proof. induction n; intros f g H; simpl; auto. rewrite (IHn f g), H; auto. Qed.
Lemma prodf_one : forall n, prodf n (fun _ => 1) = 1.
Proof. induction n; simpl; auto. rewrite IHn. ring. Qed.
Lemma prodf_mult : forall n f g, prodf n (fun i => f i * g i) = prodf n f * prodf n g.
Proof. induction n; intros; simpl; [ring|]. rewrite IHn. ring. Qed.
Lemma prodf_split : forall n f k, (k < n)%nat -> prodf n f = f k * prodf n (fun j => if Nat.eqb j k then 1 else f j).
Proof.
  induction n; intros f k H; [lia|]. cbn [prodf]. destruct (Nat.eq_dec k n) as [->|N].
  - rewrite Nat.eqb_refl, Rmult_1_r. rewrite (prodf_ext n (fun j => if Nat.eqb j n then 1 else f j) f); [ring|].
    intros i Hi. destruct (Nat.eqb_spec i n); [lia|auto].
  - rewrite (IHn f k) by lia. destruct (Nat.eqb_spec n k); [lia|]. ring.
Qed.
Lemma prodf_zero : forall n f k, (k < n)%nat -> f k = 0 -> prodf n f = 0.
Proof. intros n f k H E. rewrite (prodf_split n f k H), E. ring. Qed.

Lemma mono_ext : forall m al x y, (forall j, (j < m)%nat -> x j = y j) -> mono m al x = mono m al y.
Proof. intros. apply prodf_ext. intros i Hi. now rewrite H. Qed.

Lemma nth_dec_at : forall l k j, nth j (dec_at k l) 0%nat = if Nat.eqb j k then (nth j l 0 - 1)%nat else nth j l 0%nat.
Proof.
  induction l as [|a l IH]; intros k j; simpl.
  - destruct k, j; simpl; auto. destruct (Nat.eqb j k); auto.
  - destruct k as [|k], j as [|j]; simpl; auto.
Qed.
Lemma length_dec_at : forall l k, length (dec_at k l) = length l.
Proof. induction l; intros [|k]; simpl; auto. Qed.

(** the gradient entry the code computes for multi-index [al] *)
Definition dmono (m : nat) (al : list nat) (k : nat) (x : nat -> R) : R :=
  if Nat.eqb (nth k al 0%nat) 0 then 0 else INR (nth k al 0%nat) * mono m (dec_at k al) x.

Lemma mono_split : forall m al k x t, (k < m)%nat ->
  mono m al (set_at x k t) = t ^ nth k al 0%nat * prodf m (fun j => if Nat.eqb j k then 1 else x j ^ nth j al 0%nat).
Proof.
  intros m al k x t Hk. unfold mono. rewrite (prodf_split m _ k Hk). unfold set_at. rewrite Nat.eqb_refl. f_equal.
  apply prodf_ext. intros j Hj. destruct (Nat.eqb j k); auto.
Qed.

Lemma set_at_id : forall x k j, set_at x k (x k) j = x j.
Proof. intros. unfold set_at. destruct (Nat.eqb_spec j k); congruence. Qed.

Lemma mono_deriv : forall m al k x, (k < m)%nat ->
  derivable_pt_lim (fun t => mono m al (set_at x k t)) (x k) (dmono m al k x).
Proof.
  intros m al k x Hk. set (c := prodf m (fun j => if Nat.eqb j k then 1 else x j ^ nth j al 0%nat)).
  assert (E : forall t, mono m al (set_at x k t) = t ^ nth k al 0%nat * c) by (intros; apply mono_split; auto).
  assert (D : dmono m al k x = INR (nth k al 0%nat) * x k ^ pred (nth k al 0%nat) * c).
  { unfold dmono. destruct (Nat.eqb_spec (nth k al 0%nat) 0) as [Z|Z].
    - rewrite Z. simpl. ring.
    - rewrite (mono_ext m (dec_at k al) x (set_at x k (x k))) by (intros; now rewrite set_at_id).
      rewrite mono_split by auto. rewrite nth_dec_at, Nat.eqb_refl, Nat.sub_1_r.
      rewrite Rmult_assoc. f_equal. f_equal. apply prodf_ext. intros j Hj. rewrite nth_dec_at. destruct (Nat.eqb j k); auto. }
  rewrite D.
  apply (derivable_pt_lim_ext (fun t => t ^ nth k al 0%nat * c)); [intros; now rewrite E|].
  replace (INR (nth k al 0%nat) * x k ^ pred (nth k al 0%nat) * c) with
    (INR (nth k al 0%nat) * x k ^ pred (nth k al 0%nat) * c + x k ^ nth k al 0%nat * 0) by ring.
  apply (derivable_pt_lim_mult (fun t => t ^ nth k al 0%nat) (fct_cte c)).
  - apply derivable_pt_lim_pow.
  - apply derivable_pt_lim_const.
Qed.

(** ** derivative of finite sums *)
Lemma deriv_sumf : forall n (F : nat -> R -> R) (F' : nat -> R) x,
  (forall i, (i < n)%nat -> derivable_pt_lim (F i) x (F' i)) ->
  derivable_pt_lim (fun t => sumf n (fun i => F i t)) x (sumf n F').
Proof.
  induction n; intros F F' x H; cbn [sumf].
  - apply derivable_pt_lim_const.
  - apply (derivable_pt_lim_plus (fun t => sumf n (fun i => F i t)) (F n)).
    + apply IHn. auto.
    + apply H. lia.
Qed.
Lemma deriv_scal : forall c F x l, derivable_pt_lim F x l -> derivable_pt_lim (fun t => F t * c) x (l * c).
Proof.
  intros c F x l H. replace (l * c) with (l * c + F x * 0) by ring.
  apply (derivable_pt_lim_mult F (fct_cte c)); auto. apply derivable_pt_lim_const.
Qed.

(** ** predict *)
Definition poly_eval (m : nat) (L : list (list nat)) (w : nat -> R) (x : nat -> R) : R :=
  sumf (length L) (fun c => mono m (nth c L []) x * w c).
Definition poly_deval (m : nat) (L : list (list nat)) (w : nat -> R) (k : nat) (x : nat -> R) : R :=
  sumf (length L) (fun c => dmono m (nth c L []) k x * w c).

Lemma poly_eval_deriv : forall m L w k x, (k < m)%nat ->
  derivable_pt_lim (fun t => poly_eval m L w (set_at x k t)) (x k) (poly_deval m L w k x).
Proof.
  intros m L w k x Hk. apply (deriv_sumf (length L) (fun c t => mono m (nth c L []) (set_at x k t) * w c)).
  intros c Hc. apply deriv_scal, mono_deriv; auto.
Qed.

Lemma polynomial_bases_ok : forall X N M m, shape X = [M; m] -> (1 <= m)%nat ->
  exists L, index_set N m = Ok L /\
  polynomial_bases X N = Ok (mk2 M (length L) (fun r i => mono m (nth i L []) (fun j => X.[r, j])), L).
Proof.
  intros X N M m HX Hm. destruct (index_set_ok N m Hm) as (L & HL). exists L. split; auto.
  unfold polynomial_bases, shape2. rewrite HX. cbn [rbind]. rewrite HL. reflexivity.
Qed.
Lemma grad_polynomial_bases_ok : forall X N M m, shape X = [M; m] -> (1 <= m)%nat ->
  exists L, index_set N m = Ok L /\
  grad_polynomial_bases X N = Ok (mk3 M (length L) m (fun r i k => dmono m (nth i L []) k (fun j => X.[r, j]))).
Proof.
  intros X N M m HX Hm. destruct (index_set_ok N m Hm) as (L & HL). exists L. split; auto.
  unfold grad_polynomial_bases, shape2. rewrite HX. cbn [rbind]. rewrite HL. reflexivity.
Qed.

Lemma poly_predict_ok : forall s X M m cg, shape X = [M; m] -> (1 <= m)%nat ->
  shape (pa_weights s) = [binom (pa_N s + m) m; 1%nat] ->
  exists L F, index_set (pa_N s) m = Ok L /\ shape F = [M; 1%nat] /\
  (forall r, (r < M)%nat -> F.[r, 0%nat] = poly_eval m L (fun c => (pa_weights s).[c, 0%nat]) (fun j => X.[r, j])) /\
  poly_predict s X cg = Ok (F, if cg then Some (mk2 M m (fun r k => poly_deval m L (fun c => (pa_weights s).[c, 0%nat]) k (fun j => X.[r, j]))) else None).
Proof.
  intros s X M m cg HX Hm Hw.
  destruct (polynomial_bases_ok X (pa_N s) M m HX Hm) as (L & HL & EB).
  destruct (grad_polynomial_bases_ok X (pa_N s) M m HX Hm) as (L' & HL' & EG). rewrite HL in HL'. injection HL' as <-.
  assert (LL : length L = binom (pa_N s + m) m) by (eapply index_set_length; eauto).
  set (B := mk2 M (length L) (fun r i => mono m (nth i L []) (fun j => X.[r, j]))) in *.
  rewrite <- LL in Hw.
  pose proof (mdot_ok B (pa_weights s) M (length L) 1 eq_refl Hw) as HD.
  set (F := mk2 M 1 (fun i j => sumf (length L) (fun l => B.[i, l] * (pa_weights s).[l, j]))) in *.
  exists L, F. split; auto. split; [reflexivity|]. split; [reflexivity|].
  unfold poly_predict. rewrite (process_inputs_eq _ X M m HX). cbn [rbind]. rewrite EB. cbn [rbind].
  rewrite HD. cbn [rbind]. change [M; 1%nat] with (shape F) at 1. rewrite reshape_id. cbn [rbind].
  destruct cg; auto. rewrite EG. cbn [rbind]. rewrite (nrows_shape2 _ _ _ _ Hw).
  change (ncols (mk3 M (length L) m _)) with (length L). rewrite Nat.eqb_refl. reflexivity.
Qed.
