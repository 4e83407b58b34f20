(** Least squares: the contract of numpy.linalg.lstsq, its consequences, and a
    reference implementation showing that the contract can be met. *)
From Coq Require Import Reals Lra Lia List Arith.
From Verif Require Import Prelude Py NumArr LinAlg.
Import ListNotations.
Open Scope R_scope.

(** residual of [A u = b] (p equations, q unknowns) *)
Definition resid (q : nat) (A : nat -> nat -> R) (b u : nat -> R) (i : nat) : R :=
  sumf q (fun j => A i j * u j) - b i.
Definition rss (p q : nat) (A : nat -> nat -> R) (b u : nat -> R) : R :=
  sumf p (fun i => resid q A b u i * resid q A b u i).

(** [u] minimises the residual sum of squares *)
Definition lsq_min (p q : nat) (A : nat -> nat -> R) (b u : nat -> R) : Prop :=
  forall v, rss p q A b u <= rss p q A b v.

(** full column rank *)
Definition full_rank (p q : nat) (A : nat -> nat -> R) : Prop :=
  forall x, (forall i, (i < p)%nat -> sumf q (fun j => A i j * x j) = 0) -> forall j, (j < q)%nat -> x j = 0.

Definition normal_eqs (p q : nat) (A : nat -> nat -> R) (b u : nat -> R) : Prop :=
  forall j, (j < q)%nat -> sumf p (fun i => A i j * resid q A b u i) = 0.

Lemma quad_nonneg_lin0 : forall a b, (forall t, 0 <= 2 * t * a + t * t * b) -> a = 0.
Proof.
  intros a b H. destruct (Req_dec a 0) as [|Ha]; auto. exfalso.
  destruct (Rle_dec b 0) as [Hb|Hb].
  - specialize (H (- a)). assert (0 < a * a) by nra. nra.
  - assert (Hb' : 0 < b) by lra. specialize (H (- a / b)).
    replace (2 * (- a / b) * a + - a / b * (- a / b) * b) with (- (a * a) / b) in H by (field; lra).
    assert (0 < a * a) by nra. assert (0 < (a * a) / b) by (apply Rdiv_lt_0_compat; auto).
    unfold Rdiv in *. lra.
Qed.

Lemma resid_add : forall q A b u v i,
  resid q A b (fun j => u j + v j) i = resid q A b u i + sumf q (fun j => A i j * v j).
Proof.
  intros. unfold resid. rewrite (sumf_ext q _ (fun j => A i j * u j + A i j * v j)) by (intros; ring).
  rewrite sumf_plus. ring.
Qed.

Lemma rss_add : forall p q A b u v,
  rss p q A b (fun j => u j + v j) = rss p q A b u
    + 2 * sumf q (fun j => v j * sumf p (fun i => A i j * resid q A b u i))
    + sumf p (fun i => sumf q (fun j => A i j * v j) * sumf q (fun j => A i j * v j)).
Proof.
  intros. unfold rss.
  rewrite (sumf_ext p _ (fun i => resid q A b u i * resid q A b u i
     + 2 * sumf q (fun j => v j * (A i j * resid q A b u i))
     + sumf q (fun j => A i j * v j) * sumf q (fun j => A i j * v j))).
  - rewrite !sumf_plus, sumf_scal_l, sumf_swap. do 3 f_equal.
    apply sumf_ext; intros. now rewrite sumf_scal_l.
  - intros i Hi. rewrite resid_add.
    rewrite (sumf_ext q (fun j => v j * (A i j * resid q A b u i)) (fun j => A i j * v j * resid q A b u i)) by (intros; ring).
    rewrite sumf_scal_r. ring.
Qed.

Lemma normal_min : forall p q A b u, normal_eqs p q A b u -> lsq_min p q A b u.
Proof.
  intros p q A b u H v.
  assert (E : rss p q A b v = rss p q A b (fun j => u j + (v j - u j))).
  { unfold rss, resid. apply sumf_ext; intros i Hi.
    rewrite (sumf_ext q (fun j => A i j * (u j + (v j - u j))) (fun j => A i j * v j)) by (intros; ring). reflexivity. }
  rewrite E, rss_add.
  rewrite (sumf_zero q (fun j => (v j - u j) * _)).
  - pose proof (sumf_sq_nonneg p (fun i => sumf q (fun j => A i j * (v j - u j)))). lra.
  - intros j Hj. rewrite H by auto. ring.
Qed.

Lemma min_normal : forall p q A b u, lsq_min p q A b u -> normal_eqs p q A b u.
Proof.
  intros p q A b u H j Hj.
  apply (quad_nonneg_lin0 _ (sumf p (fun i => A i j * A i j))). intros t.
  specialize (H (fun k => u k + t * kron_delta j k)). rewrite rss_add in H.
  rewrite (sumf_ext q _ (fun k => kron_delta j k * (t * sumf p (fun i => A i k * resid q A b u i)))) in H by (intros; ring).
  rewrite (sumf_kd_l q j (fun k => t * sumf p (fun i => A i k * resid q A b u i)) Hj) in H.
  rewrite (sumf_ext p (fun i => sumf q (fun k => A i k * (t * kron_delta j k)) * sumf q (fun k => A i k * (t * kron_delta j k)))
             (fun i => t * t * (A i j * A i j))) in H.
  - rewrite sumf_scal_l in H. cbv beta in H. lra.
  - intros i Hi. rewrite (sumf_ext q _ (fun k => kron_delta j k * (t * A i k))) by (intros; ring).
    rewrite (sumf_kd_l q j (fun k => t * A i k) Hj). ring.
Qed.

(** two minimisers have the same fitted values *)
Lemma lsq_fitted_unique : forall p q A b u v, lsq_min p q A b u -> lsq_min p q A b v ->
  forall i, (i < p)%nat -> sumf q (fun j => A i j * u j) = sumf q (fun j => A i j * v j).
Proof.
  intros p q A b u v Hu Hv i Hi. apply min_normal in Hu as Nu.
  assert (E : rss p q A b v = rss p q A b u).
  { apply Rle_antisym; auto. }
  assert (E2 : rss p q A b v = rss p q A b (fun j => u j + (v j - u j))).
  { unfold rss, resid. apply sumf_ext; intros k Hk.
    rewrite (sumf_ext q (fun j => A k j * (u j + (v j - u j))) (fun j => A k j * v j)) by (intros; ring). reflexivity. }
  rewrite E2, rss_add, (sumf_zero q (fun j => (v j - u j) * _)) in E.
  2:{ intros j Hj. rewrite Nu by auto. ring. }
  assert (Z : sumf p (fun i => sumf q (fun j => A i j * (v j - u j)) * sumf q (fun j => A i j * (v j - u j))) = 0) by lra.
  pose proof (sumf_sq_eq0 p _ Z i Hi) as Q. simpl in Q.
  rewrite (sumf_ext q _ (fun j => A i j * v j - A i j * u j)) in Q by (intros; ring).
  rewrite sumf_minus in Q. lra.
Qed.

Lemma lsq_unique : forall p q A b u v, full_rank p q A -> lsq_min p q A b u -> lsq_min p q A b v ->
  forall j, (j < q)%nat -> u j = v j.
Proof.
  intros p q A b u v HR Hu Hv j Hj.
  assert (E : (fun j => u j - v j) j = 0).
  { apply (HR (fun j => u j - v j)); auto. intros i Hi.
    rewrite (sumf_ext q _ (fun j => A i j * u j - A i j * v j)) by (intros; ring).
    rewrite sumf_minus, (lsq_fitted_unique p q A b u v Hu Hv i Hi). ring. }
  simpl in E. lra.
Qed.

Lemma exact_is_min : forall p q A b v, (forall i, (i < p)%nat -> sumf q (fun j => A i j * v j) = b i) -> lsq_min p q A b v.
Proof.
  intros p q A b v H. apply normal_min. intros j Hj. apply sumf_zero. intros i Hi. unfold resid. rewrite H by auto. ring.
Qed.

(** data that can be fitted exactly are fitted exactly *)
Lemma lsq_exact : forall p q A b u v, full_rank p q A -> lsq_min p q A b u ->
  (forall i, (i < p)%nat -> sumf q (fun j => A i j * v j) = b i) -> forall j, (j < q)%nat -> u j = v j.
Proof. intros p q A b u v HR Hu H. apply (lsq_unique p q A b u v HR Hu). now apply exact_is_min. Qed.

(** scaling all rows by a nonzero factor changes nothing *)
Lemma lsq_scale : forall p q A b u s, s <> 0 ->
  lsq_min p q (fun i j => A i j * s) (fun i => b i * s) u -> lsq_min p q A b u.
Proof.
  intros p q A b u s Hs H. apply normal_min. apply min_normal in H. intros j Hj. specialize (H j Hj).
  rewrite (sumf_ext p _ (fun i => (s * s) * (A i j * resid q A b u i))) in H.
  - rewrite sumf_scal_l in H. apply Rmult_integral in H. destruct H as [H|H]; auto. nra.
  - intros i Hi. unfold resid. rewrite (sumf_ext q _ (fun k => A i k * u k * s)) by (intros; ring).
    rewrite sumf_scal_r. ring.
Qed.

(** ** A reference solver (Gram-Schmidt), showing that minimisers exist *)

Fixpoint lsq_ref (p q : nat) (A : nat -> nat -> R) (b : nat -> R) : nat -> R :=
  match q with
  | O => fun _ => 0
  | S q' =>
      let c := lsq_ref p q' A (fun i => A i q') in
      let r := fun i => A i q' - sumf q' (fun j => A i j * c j) in
      let rr := sumf p (fun i => r i * r i) in
      let t := if Req_EM_T rr 0 then 0 else sumf p (fun i => r i * b i) / rr in
      let u0 := lsq_ref p q' A b in
      fun j => if Nat.ltb j q' then u0 j - t * c j else t
  end.

Lemma lsq_ref_normal : forall p q A b, normal_eqs p q A b (lsq_ref p q A b).
Proof.
  intros p. induction q as [|q IH]; intros A b; [intros j Hj; lia|].
  set (c := lsq_ref p q A (fun i => A i q)).
  set (r := fun i => A i q - sumf q (fun j => A i j * c j)).
  set (rr := sumf p (fun i => r i * r i)).
  set (t := if Req_EM_T rr 0 then 0 else sumf p (fun i => r i * b i) / rr).
  set (u0 := lsq_ref p q A b).
  assert (Hc : forall j, (j < q)%nat -> sumf p (fun i => A i j * r i) = 0).
  { intros j Hj. pose proof (IH A (fun i => A i q) j Hj) as H. fold c in H. unfold resid in H.
    rewrite (sumf_ext p (fun i => A i j * r i) (fun i => - (A i j * (sumf q (fun k => A i k * c k) - A i q)))).
    - rewrite sumf_opp, H. ring.
    - intros. unfold r. ring. }
  assert (Hu0 : forall j, (j < q)%nat -> sumf p (fun i => A i j * (sumf q (fun k => A i k * u0 k) - b i)) = 0).
  { intros j Hj. exact (IH A b j Hj). }
  assert (Hres : forall i, resid (S q) A b (lsq_ref p (S q) A b) i
                 = (sumf q (fun k => A i k * u0 k) - b i) + t * r i).
  { intros i. unfold resid.
    assert (E : forall j, lsq_ref p (S q) A b j = if Nat.ltb j q then u0 j - t * c j else t) by reflexivity.
    rewrite (sumf_ext (S q) _ (fun k => A i k * (if Nat.ltb k q then u0 k - t * c k else t))) by (intros; now rewrite E).
    cbn [sumf].
    rewrite (sumf_ext q _ (fun k => A i k * u0 k - t * (A i k * c k))).
    - rewrite sumf_minus, sumf_scal_l. destruct (Nat.ltb_spec q q); [lia|]. unfold r. ring.
    - intros k Hk. destruct (Nat.ltb_spec k q); [ring|lia]. }
  assert (Horth : forall j, (j < q)%nat -> sumf p (fun i => A i j * resid (S q) A b (lsq_ref p (S q) A b) i) = 0).
  { intros j Hj.
    rewrite (sumf_ext p _ (fun i => A i j * (sumf q (fun k => A i k * u0 k) - b i) + t * (A i j * r i))).
    - rewrite sumf_plus, sumf_scal_l, Hu0, Hc by auto. ring.
    - intros i Hi. rewrite Hres. ring. }
  intros j Hj. destruct (Nat.eq_dec j q) as [->|]; [|apply Horth; lia].
  (* last column = r + combination of previous ones *)
  assert (Hr : sumf p (fun i => r i * resid (S q) A b (lsq_ref p (S q) A b) i) = 0).
  { rewrite (sumf_ext p _ (fun i => sumf q (fun k => u0 k * (A i k * r i)) - r i * b i + t * (r i * r i))).
    - rewrite sumf_plus, sumf_minus, sumf_swap, sumf_scal_l. fold rr.
      rewrite sumf_zero.
      + unfold t. destruct (Req_EM_T rr 0) as [Z|Z].
        * rewrite Z. rewrite sumf_zero; [ring|]. intros i Hi. rewrite (sumf_sq_eq0 p r Z i Hi). ring.
        * field. exact Z.
      + intros k Hk. rewrite sumf_scal_l, Hc by auto. ring.
    - intros i Hi. rewrite Hres.
      rewrite (sumf_ext q (fun k => u0 k * (A i k * r i)) (fun k => A i k * u0 k * r i)) by (intros; ring).
      rewrite sumf_scal_r. ring. }
  rewrite (sumf_ext p _ (fun i => r i * resid (S q) A b (lsq_ref p (S q) A b) i
       + sumf q (fun k => c k * (A i k * resid (S q) A b (lsq_ref p (S q) A b) i)))).
  - rewrite sumf_plus, Hr, sumf_swap, sumf_zero; [ring|].
    intros k Hk. rewrite sumf_scal_l, Horth by auto. ring.
  - intros i Hi. set (e := resid (S q) A b (lsq_ref p (S q) A b) i).
    rewrite (sumf_ext q (fun k => c k * (A i k * e)) (fun k => A i k * c k * e)) by (intros; ring).
    rewrite sumf_scal_r. unfold r. ring.
Qed.

(** ** The contract on arrays *)

Definition lstsq_contract (lstsq : nd R -> nd R -> res (nd R)) : Prop :=
  forall p q A b u, shape A = [p; q] -> shape b = [p; 1%nat] -> lstsq A b = Ok u ->
  shape u = [q; 1%nat] /\ lsq_min p q (fun i j => A.[i, j]) (fun i => b.[i, 0%nat]) (fun j => u.[j, 0%nat]).

Definition lstsq_total (lstsq : nd R -> nd R -> res (nd R)) : Prop :=
  forall p q A b, shape A = [p; q] -> shape b = [p; 1%nat] -> exists u, lstsq A b = Ok u.

Definition lstsq_ref (A b : nd R) : res (nd R) :=
  Ok (mk2 (ncols A) 1 (fun j _ => lsq_ref (nrows A) (ncols A) (fun i k => A.[i, k]) (fun i => b.[i, 0%nat]) j)).

Lemma lstsq_ref_contract : lstsq_contract lstsq_ref.
Proof.
  intros p q A b u HA Hb H. unfold lstsq_ref in H. injection H as H. rewrite <- H.
  rewrite (ncols_shape2 _ _ _ _ HA), (nrows_shape2 _ _ _ _ HA). split; [reflexivity|].
  apply normal_min. apply (lsq_ref_normal p q (fun i j => A.[i, j]) (fun i => b.[i, 0%nat])).
Qed.

Lemma lstsq_ref_total : lstsq_total lstsq_ref.
Proof. intros p q A b _ _. eexists; reflexivity. Qed.
