(** Averages over resampled index lists, and how far eigenvalues and leading eigenvectors of two
    symmetric matrices can be apart given the sum of squares of the difference *)
From Coq Require Import Reals Lra Lia List Arith ZArith Bool.
From Verif Require Import Prelude LinAlg Spectral.
Import ListNotations.
Open Scope R_scope.

(** ** The average over all ways of drawing M indices below K, each index equally likely and drawn independently *)
Fixpoint draw_mean (K M : nat) (F : list nat -> R) : R :=
  match M with
  | O => F []
  | S M => sumf K (fun a => draw_mean K M (fun l => F (a :: l))) / INR K
  end.

Definition drawn_from (K M : nat) (l : list nat) : Prop := List.length l = M /\ Forall (fun k => (k < K)%nat) l.

Lemma drawn_cons : forall K M a l, (a < K)%nat -> drawn_from K M l -> drawn_from K (S M) (a :: l).
Proof. intros K M a l Ha (H1 & H2). split; [cbn; lia|constructor; auto]. Qed.

Lemma draw_mean_ext : forall K M F G, (forall l, drawn_from K M l -> F l = G l) -> draw_mean K M F = draw_mean K M G.
Proof.
  intros K. induction M as [|M IH]; intros F G H; cbn [draw_mean].
  - apply H. split; auto.
  - f_equal. apply sumf_ext; intros a Ha. apply IH. intros l Hl. apply H. now apply drawn_cons.
Qed.

Lemma draw_mean_le : forall K M F G, (0 < K)%nat -> (forall l, drawn_from K M l -> F l <= G l) -> draw_mean K M F <= draw_mean K M G.
Proof.
  intros K. induction M as [|M IH]; intros F G HK H; cbn [draw_mean].
  - apply H. split; auto.
  - apply Rmult_le_compat_r; [left; apply Rinv_0_lt_compat, lt_0_INR; auto|].
    apply sumf_le; intros a Ha. apply IH; auto. intros l Hl. apply H. now apply drawn_cons.
Qed.

Lemma draw_mean_plus : forall K M F G, draw_mean K M (fun l => F l + G l) = draw_mean K M F + draw_mean K M G.
Proof.
  intros K. induction M as [|M IH]; intros F G; cbn [draw_mean]; [reflexivity|].
  rewrite (sumf_ext K _ (fun a => draw_mean K M (fun l => F (a :: l)) + draw_mean K M (fun l => G (a :: l)))) by (intros; apply IH).
  rewrite sumf_plus. unfold Rdiv. ring.
Qed.

Lemma draw_mean_scal : forall K M c F, draw_mean K M (fun l => c * F l) = c * draw_mean K M F.
Proof.
  intros K. induction M as [|M IH]; intros c F; cbn [draw_mean]; [reflexivity|].
  rewrite (sumf_ext K _ (fun a => c * draw_mean K M (fun l => F (a :: l)))) by (intros; apply IH).
  rewrite sumf_scal_l. unfold Rdiv. ring.
Qed.

Lemma draw_mean_const : forall K M c, (0 < K)%nat -> draw_mean K M (fun _ => c) = c.
Proof.
  intros K. induction M as [|M IH]; intros c HK; cbn [draw_mean]; [reflexivity|].
  rewrite (sumf_ext K _ (fun _ => c)) by (intros; now apply IH). rewrite sumf_const. field.
  apply not_0_INR; lia.
Qed.

Lemma draw_mean_sum : forall K M n (F : nat -> list nat -> R),
  draw_mean K M (fun l => sumf n (fun i => F i l)) = sumf n (fun i => draw_mean K M (F i)).
Proof.
  intros K M. induction n as [|n IH]; intros F; cbn [sumf].
  - transitivity (draw_mean K M (fun l => 0 * 0)); [apply draw_mean_ext; intros; ring|]. rewrite draw_mean_scal. ring.
  - rewrite draw_mean_plus, IH. reflexivity.
Qed.

(** the total of a quantity over the drawn indices *)
Fixpoint lsum (a : nat -> R) (l : list nat) : R := match l with [] => 0 | s :: l => a s + lsum a l end.

Lemma lsum_nth : forall a l, lsum a l = sumf (List.length l) (fun i => a (nth i l 0%nat)).
Proof.
  intros a. induction l as [|s l IH]; [reflexivity|]. cbn [lsum List.length]. rewrite sumf_shift, IH. reflexivity.
Qed.

Lemma draw_mean_lsum : forall K M a, (0 < K)%nat -> draw_mean K M (lsum a) = INR M * (sumf K a / INR K).
Proof.
  intros K. induction M as [|M IH]; intros a HK; cbn [draw_mean]; [cbn; ring|].
  assert (HKR : INR K <> 0) by (apply not_0_INR; lia).
  rewrite (sumf_ext K _ (fun s => a s + INR M * (sumf K a / INR K))).
  - rewrite sumf_plus, sumf_const, S_INR. field; auto.
  - intros s Hs. cbn [lsum]. rewrite draw_mean_plus, draw_mean_const, IH by auto. reflexivity.
Qed.

Lemma draw_mean_lsum2 : forall K M a b, (0 < K)%nat ->
  draw_mean K M (fun l => lsum a l * lsum b l) =
    INR M * (sumf K (fun s => a s * b s) / INR K) + INR M * (INR M - 1) * (sumf K a / INR K) * (sumf K b / INR K).
Proof.
  intros K. induction M as [|M IH]; intros a b HK; cbn [draw_mean]; [cbn; ring|].
  assert (HKR : INR K <> 0) by (apply not_0_INR; lia).
  rewrite (sumf_ext K _ (fun s => a s * b s + a s * (INR M * (sumf K b / INR K)) + b s * (INR M * (sumf K a / INR K))
      + (INR M * (sumf K (fun s => a s * b s) / INR K) + INR M * (INR M - 1) * (sumf K a / INR K) * (sumf K b / INR K)))).
  - rewrite !sumf_plus, !sumf_scal_r, sumf_const, S_INR. field; auto.
  - intros s Hs. cbn [lsum].
    rewrite (draw_mean_ext K M _ (fun l => (a s * b s + a s * lsum b l) + (b s * lsum a l + lsum a l * lsum b l))) by (intros; ring).
    rewrite !draw_mean_plus, !draw_mean_scal, draw_mean_const, !draw_mean_lsum, IH by auto. ring.
Qed.

(** ** Two symmetric matrices *)
Lemma abel_le : forall n lam p q, decreasing n lam -> (forall k, (k <= n)%nat -> sumf k q <= sumf k p) -> sumf n q = sumf n p ->
  sumf n (fun j => lam j * q j) <= sumf n (fun j => lam j * p j).
Proof.
  intros n lam p q HD HP HT.
  destruct n as [|n]; [cbn; lra|].
  assert (A : forall k, (k <= n)%nat -> lam k * (sumf (S k) p - sumf (S k) q) <= sumf (S k) (fun j => lam j * p j) - sumf (S k) (fun j => lam j * q j)).
  { induction k as [|k IH]; intros Hk; [cbn; lra|].
    assert (I := IH ltac:(lia)). assert (D := HD k (S k) ltac:(lia) ltac:(lia)). assert (P := HP (S k) ltac:(lia)).
    change (sumf (S (S k)) p) with (sumf (S k) p + p (S k)). change (sumf (S (S k)) q) with (sumf (S k) q + q (S k)).
    change (sumf (S (S k)) (fun j => lam j * p j)) with (sumf (S k) (fun j => lam j * p j) + lam (S k) * p (S k)).
    change (sumf (S (S k)) (fun j => lam j * q j)) with (sumf (S k) (fun j => lam j * q j) + lam (S k) * q (S k)).
    nra. }
  assert (B := A n ltac:(lia)). rewrite HT in B. lra.
Qed.

Definition frob (m : nat) (A B : nat -> nat -> R) : R := sumf m (fun i => sumf m (fun k => A i k * B i k)).

Lemma frob_comm : forall m A B, frob m A B = frob m B A.
Proof. intros. apply sumf_ext; intros; apply sumf_ext; intros; ring. Qed.
Lemma frob_sub_r : forall m A B C, frob m A (fun i k => B i k - C i k) = frob m A B - frob m A C.
Proof.
  intros. unfold frob. rewrite <- sumf_minus. apply sumf_ext; intros. rewrite <- sumf_minus. apply sumf_ext; intros; ring.
Qed.
Lemma frob_sub_l : forall m A B C, frob m (fun i k => B i k - C i k) A = frob m B A - frob m C A.
Proof. intros. rewrite frob_comm, frob_sub_r, !(frob_comm m A). reflexivity. Qed.
Lemma frob_ext : forall m A B A' B', (forall i k, (i < m)%nat -> (k < m)%nat -> A i k = A' i k) ->
  (forall i k, (i < m)%nat -> (k < m)%nat -> B i k = B' i k) -> frob m A B = frob m A' B'.
Proof. intros m A B A' B' H1 H2. apply sumf_ext; intros; apply sumf_ext; intros. rewrite H1, H2; auto. Qed.
Lemma frob_self_nonneg : forall m A, 0 <= frob m A A.
Proof. intros. apply sumf_nonneg; intros. apply sumf_sq_nonneg. Qed.

(** against a weighted sum of v v^T *)
Lemma frob_rank : forall m C k t V, frob m C (fun i l => sumf k (fun a => t a * V i a * V l a)) = sumf k (fun a => t a * quad m C (fun i => V i a)).
Proof.
  intros m C k t V. unfold frob, quad.
  rewrite (sumf_ext m _ (fun i => sumf k (fun a => sumf m (fun l => t a * (V i a * C i l * V l a))))).
  - rewrite sumf_swap. apply sumf_ext; intros a Ha. rewrite <- sumf_scal_l. apply sumf_ext; intros i Hi. now rewrite sumf_scal_l.
  - intros i Hi. rewrite sumf_swap. apply sumf_ext; intros l Hl. rewrite <- sumf_scal_l. apply sumf_ext; intros; ring.
Qed.

Lemma frob_spectral : forall m A C lam V, orthonormal m m V -> eigcols m C lam V ->
  frob m A C = sumf m (fun j => lam j * quad m A (fun i => V i j)).
Proof.
  intros m A C lam V HO HE. rewrite <- frob_rank. apply frob_ext; auto. intros. now apply reassemble.
Qed.

Lemma frob_self : forall m C lam V, orthonormal m m V -> eigcols m C lam V -> frob m C C = sumf m (fun j => lam j * lam j).
Proof.
  intros m C lam V HO HE. rewrite (frob_spectral m C C lam V HO HE). apply sumf_ext; intros j Hj.
  now rewrite (quad_eigvec m C lam V HO HE j Hj).
Qed.

(** sum over an orthonormal basis of the quadratic form = trace *)
Lemma trace_basis : forall m A V, orthonormal m m V -> sumf m (fun j => quad m A (fun i => V i j)) = sumf m (fun i => A i i).
Proof.
  intros m A V HO.
  rewrite (sumf_ext m _ (fun j => 1 * quad m A (fun i => V i j))) by (intros; ring).
  rewrite <- (frob_rank m A m (fun _ => 1) V). unfold frob. apply sumf_ext; intros i Hi.
  rewrite (sumf_ext m _ (fun k => kron_delta i k * A i k)).
  - apply (sumf_kd_l m i (fun k => A i k)); auto.
  - intros k Hk. rewrite <- (ortho_rows m V HO i k Hi Hk). rewrite Rmult_comm. f_equal. apply sumf_ext; intros; ring.
Qed.

Section Two.
  Variables (m : nat) (C C' : nat -> nat -> R) (lam lam' : nat -> R) (V V' : nat -> nat -> R).
  Hypothesis (HO : orthonormal m m V) (HE : eigcols m C lam V) (HD : decreasing m lam).
  Hypothesis (HO' : orthonormal m m V') (HE' : eigcols m C' lam' V') (HD' : decreasing m lam').

  Lemma trace_ineq : frob m C C' <= sumf m (fun j => lam j * lam' j).
  Proof.
    rewrite frob_comm, (frob_spectral m C' C lam V HO HE). apply abel_le; auto.
    - intros k Hk. apply (ky_fan m C' lam' V'); auto. apply (orthonormal_sub m m); auto.
    - rewrite trace_basis by auto. now apply trace_spectral with (V := V').
  Qed.

  Lemma hoffman_wielandt : sumf m (fun j => (lam' j - lam j) * (lam' j - lam j)) <=
    frob m (fun i k => C' i k - C i k) (fun i k => C' i k - C i k).
  Proof.
    rewrite frob_sub_r, !frob_sub_l, (frob_self m C lam V), (frob_self m C' lam' V'), (frob_comm m C' C) by auto.
    rewrite (sumf_ext m _ (fun j => (lam' j * lam' j - 2 * (lam j * lam' j)) + lam j * lam j)) by (intros; ring).
    rewrite sumf_plus, sumf_minus, sumf_scal_l. generalize trace_ineq. lra.
  Qed.

  Variable k : nat.
  Hypothesis Hk : (k <= m)%nat.
  Let ip (a b : nat) : R := dot m (fun i => V i a) (fun i => V' i b).
  Definition leak : R := sumf k (fun a => sumf (m - k) (fun b => ip a (k + b)%nat * ip a (k + b)%nat)).

  Lemma ip_row : forall a, (a < m)%nat -> sumf m (fun b => ip a b * ip a b) = 1.
  Proof.
    intros a Ha. unfold ip. transitivity (dot m (fun i => V i a) (fun i => V i a)).
    2: { unfold dot. rewrite (HO a a Ha Ha). apply kd_same. }
    rewrite (sumf_ext m _ (fun j => dot m (fun i => V' i j) (fun i => V i a) * dot m (fun i => V' i j) (fun i => V i a)))
      by (intros jj Hjj; rewrite (dot_comm m (fun i => V' i jj)); reflexivity).
    exact (ortho_parseval m V' HO' (fun i => V i a)).
  Qed.
  Lemma ip_col : forall b, (b < m)%nat -> sumf m (fun a => ip a b * ip a b) = 1.
  Proof.
    intros b Hb. unfold ip. transitivity (dot m (fun i => V' i b) (fun i => V' i b)).
    2: { unfold dot. rewrite (HO' b b Hb Hb). apply kd_same. }
    exact (ortho_parseval m V HO (fun i => V' i b)).
  Qed.

  Lemma leak_eq : leak = INR k - sumf k (fun a => sumf k (fun b => ip a b * ip a b)).
  Proof.
    unfold leak. rewrite <- (Rmult_1_r (INR k)), <- sumf_const, <- sumf_minus. apply sumf_ext; intros a Ha.
    assert (E := ip_row a ltac:(lia)). rewrite (sumf_le_split m k) in E by auto. lra.
  Qed.

  (** quad C over the leading vectors of the other basis *)
  Lemma quad_lead : sumf k (fun a => quad m C (fun i => V' i a)) = sumf m (fun j => lam j * sumf k (fun a => ip j a * ip j a)).
  Proof.
    rewrite (sumf_ext k _ (fun a => sumf m (fun j => lam j * (ip j a * ip j a)))).
    - rewrite sumf_swap. apply sumf_ext; intros; apply sumf_scal_l.
    - intros a Ha. rewrite (quad_spectral m C lam V HO HE). reflexivity.
  Qed.

  Lemma gap_leak : (1 <= k)%nat -> (k < m)%nat ->
    (lam (k - 1)%nat - lam k) * leak <= sumf k lam - sumf k (fun a => quad m C (fun i => V' i a)).
  Proof.
    intros H1 H2. rewrite quad_lead. set (t := fun j => sumf k (fun a => ip j a * ip j a)).
    change (sumf m (fun j => lam j * sumf k (fun a => ip j a * ip j a))) with (sumf m (fun j => lam j * t j)).
    assert (T : forall j, (j < m)%nat -> 0 <= t j <= 1).
    { intros j Hj. split; [apply sumf_sq_nonneg|]. rewrite <- (ip_row j Hj). unfold t.
      rewrite (sumf_le_split m k) by auto. assert (0 <= sumf (m - k) (fun i => ip j (k + i)%nat * ip j (k + i)%nat)) by apply sumf_sq_nonneg. lra. }
    assert (ST : sumf m t = INR k).
    { unfold t. rewrite sumf_swap, (sumf_ext k _ (fun _ => 1)) by (intros; apply ip_col; lia). rewrite sumf_const; ring. }
    assert (L1 : leak = sumf k (fun j => 1 - t j)).
    { rewrite leak_eq, sumf_minus, sumf_const. unfold t. ring. }
    assert (L2 : leak = sumf (m - k) (fun i => t (k + i)%nat)).
    { rewrite L1, sumf_minus, sumf_const. rewrite (sumf_le_split m k t) in ST by auto. lra. }
    rewrite (sumf_le_split m k (fun j => lam j * t j)) by auto.
    assert (A : lam (k - 1)%nat * leak <= sumf k lam - sumf k (fun j => lam j * t j)).
    { rewrite L1, <- sumf_scal_l, <- sumf_minus. apply sumf_le; intros j Hj.
      assert (lam (k - 1)%nat <= lam j) by (apply HD; lia). destruct (T j ltac:(lia)). nra. }
    assert (B : sumf (m - k) (fun i => lam (k + i)%nat * t (k + i)%nat) <= lam k * leak).
    { rewrite L2, <- sumf_scal_l. apply sumf_le; intros j Hj.
      assert (lam (k + j)%nat <= lam k) by (apply HD; lia). destruct (T (k + j)%nat ltac:(lia)). nra. }
    lra.
  Qed.

  Let P (i l : nat) : R := sumf k (fun a => 1 * V i a * V l a).
  Let P' (i l : nat) : R := sumf k (fun a => 1 * V' i a * V' l a).

  Lemma quadP : forall Q U, (forall i l, Q i l = sumf k (fun a => 1 * U i a * U l a)) -> forall x, quad m Q x = sumf k (fun a => dot m (fun i => U i a) x * dot m (fun i => U i a) x).
  Proof.
    intros Q U HQ x. unfold quad.
    rewrite (sumf_ext m _ (fun i => sumf k (fun a => sumf m (fun l => (U i a * x i) * (U l a * x l))))).
    - rewrite sumf_swap. apply sumf_ext; intros a Ha. unfold dot. rewrite sumf_mul. reflexivity.
    - intros i Hi. rewrite sumf_swap. apply sumf_ext; intros l Hl. rewrite HQ, <- sumf_scal_l, <- sumf_scal_r. apply sumf_ext; intros; ring.
  Qed.

  Lemma projdiff : frob m (fun i l => P i l - P' i l) (fun i l => P i l - P' i l) = 2 * leak.
  Proof.
    assert (PP : forall Q U, orthonormal m m U -> (forall i l, Q i l = sumf k (fun a => 1 * U i a * U l a)) -> frob m Q Q = INR k).
    { intros Q U HU HQ. rewrite (frob_ext m Q Q Q (fun i l => sumf k (fun a => 1 * U i a * U l a))) by auto.
      rewrite (frob_rank m Q k (fun _ => 1) U), <- (Rmult_1_r (INR k)), <- sumf_const. apply sumf_ext; intros a Ha.
      rewrite (quadP Q U HQ). rewrite (sumf_single k a); auto.
      - unfold dot. rewrite (HU a a) by lia. rewrite kd_same. ring.
      - intros b Hb Hba. unfold dot. rewrite (HU b a) by lia. rewrite kd_diff by auto. ring. }
    rewrite frob_sub_r, !frob_sub_l, (PP P V HO (fun i l => eq_refl)), (PP P' V' HO' (fun i l => eq_refl)), (frob_comm m P' P).
    rewrite leak_eq.
    assert (X : frob m P P' = sumf k (fun a => sumf k (fun b => ip a b * ip a b))).
    { unfold P' at 1. rewrite (frob_rank m P k (fun _ => 1) V'). rewrite sumf_swap. apply sumf_ext; intros b Hb.
      rewrite (quadP P V (fun i l => eq_refl)). unfold ip. ring. }
    rewrite X. ring.
  Qed.

  (** the leading k directions leak out of each other by at most 2 |C' - C|^2 / gap^2 *)
  Lemma leak_bound : (1 <= k)%nat -> (k < m)%nat -> 0 < lam (k - 1)%nat - lam k ->
    leak * ((lam (k - 1)%nat - lam k) * (lam (k - 1)%nat - lam k)) <= 2 * frob m (fun i l => C' i l - C i l) (fun i l => C' i l - C i l).
  Proof.
    intros H1 H2 HG. set (g := lam (k - 1)%nat - lam k) in *.
    assert (A := gap_leak H1 H2). fold g in A.
    assert (B : sumf k (fun a => quad m C' (fun i => V i a)) <= sumf k lam').
    { apply (ky_fan m C' lam' V'); auto. apply (orthonormal_sub m m); auto. }
    assert (F : forall D U, frob m D (fun i l => sumf k (fun a => 1 * U i a * U l a)) = sumf k (fun a => quad m D (fun i => U i a))).
    { intros D U. rewrite (frob_rank m D k (fun _ => 1) U). apply sumf_ext; intros; ring. }
    assert (E : frob m (fun i l => C' i l - C i l) (fun i l => P i l - P' i l) =
       (sumf k (fun a => quad m C' (fun i => V i a)) - sumf k lam') - (sumf k lam - sumf k (fun a => quad m C (fun i => V' i a)))).
    { rewrite frob_sub_r, !frob_sub_l. unfold P, P'. rewrite !F.
      rewrite (sumf_ext k (fun a => quad m C (fun i => V i a)) lam) by (intros; apply (quad_eigvec m C lam V); auto; lia).
      rewrite (sumf_ext k (fun a => quad m C' (fun i => V' i a)) lam') by (intros; apply (quad_eigvec m C' lam' V'); auto; lia).
      ring. }
    (* completing the square: |2 (C'-C) + g (P-P')|^2 >= 0 *)
    assert (S : 0 <= 4 * frob m (fun i l => C' i l - C i l) (fun i l => C' i l - C i l)
       + 4 * g * frob m (fun i l => C' i l - C i l) (fun i l => P i l - P' i l)
       + g * g * frob m (fun i l => P i l - P' i l) (fun i l => P i l - P' i l)).
    { eapply Rle_trans; [apply (frob_self_nonneg m (fun i l => 2 * (C' i l - C i l) + g * (P i l - P' i l)))|].
      right. unfold frob. rewrite <- !sumf_scal_l, <- !sumf_plus. apply sumf_ext; intros i Hi.
      rewrite <- !sumf_scal_l, <- !sumf_plus. apply sumf_ext; intros l Hl. ring. }
    rewrite projdiff, E in S. nra.
  Qed.
End Two.
