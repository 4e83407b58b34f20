(** A concrete linear solver meeting the contracts assumed of
    numpy.linalg.solve; it shows that the hypotheses on [solve] can be met. *)
From Coq Require Import String Reals Lra Lia List Arith Bool.
From Verif Require Import Prelude Py NumArr LinAlg Lsq P_Misc P_Rbf.
Import ListNotations.
Open Scope R_scope.

Fixpoint all_upto (n : nat) (p : nat -> bool) : bool :=
  match n with O => true | S k => (all_upto k p && p k)%bool end.
Lemma all_upto_true : forall n p, all_upto n p = true <-> forall i, (i < n)%nat -> p i = true.
Proof.
  induction n; intros p; cbn [all_upto].
  - split; auto. intros _ i Hi. lia.
  - rewrite andb_true_iff, IHn. split.
    + intros [H1 H2] i Hi. destruct (Nat.eq_dec i n); [subst; auto|]. apply H1. lia.
    + intros H. split; [intros; apply H; lia|apply H; lia].
Qed.

Definition solve_ref (A B : nd R) : res (nd R) :=
  let n := nrows A in let p := ncols B in
  let V := mk2 n p (fun i j => lsq_ref n n (fun a b => A.[a, b]) (fun a => B.[a, j]) i) in
  if all_upto n (fun i => all_upto p (fun j => if Req_EM_T (sumf n (fun k => A.[i, k] * V.[k, j])) (B.[i, j]) then true else false))
  then Ok V else Err (Exc "Singular matrix").

Lemma solve_ref_sound : solve_sound solve_ref.
Proof.
  intros n p A B V HA HB H. unfold solve_ref in H.
  rewrite (nrows_shape2 _ _ _ _ HA), (ncols_shape2 _ _ _ _ HB) in H. cbv zeta in H.
  destruct (all_upto n _) eqn:E; [|discriminate]. injection H as <-. split; [reflexivity|].
  intros i j Hi Hj. rewrite all_upto_true in E. specialize (E i Hi). rewrite all_upto_true in E. specialize (E j Hj).
  destruct (Req_EM_T _ _); auto. discriminate.
Qed.

Lemma nonsingular_span : forall n (A : nat -> nat -> R),
  (forall x, (forall i, (i < n)%nat -> sumf n (fun k => A i k * x k) = 0) -> forall i, (i < n)%nat -> x i = 0) ->
  forall b : nat -> R, exists x, forall i, (i < n)%nat -> sumf n (fun k => A i k * x k) = b i.
Proof.
  intros n A H b.
  destruct (indep_span n (fun k i => A i k)) with (x := b) as (c & Hc).
  - intros c Hc. apply H. intros i Hi. rewrite <- (Hc i Hi). apply sumf_ext. intros; ring.
  - exists c. intros i Hi. rewrite (Hc i Hi). apply sumf_ext. intros; ring.
Qed.

Lemma solve_ref_contract : solve_contract solve_ref.
Proof.
  intros n p A B HA HB HN. unfold solve_ref. rewrite (nrows_shape2 _ _ _ _ HA), (ncols_shape2 _ _ _ _ HB). cbv zeta.
  set (V := mk2 n p _).
  assert (S : forall i j, (i < n)%nat -> (j < p)%nat -> sumf n (fun k => A.[i, k] * V.[k, j]) = B.[i, j]).
  { intros i j Hi Hj. destruct (nonsingular_span n (fun a b => A.[a, b]) HN (fun a => B.[a, j])) as (x & Hx).
    pose proof (exact_is_min n n (fun a b => A.[a, b]) (fun a => B.[a, j]) x Hx) as Hm.
    pose proof (normal_min _ _ _ _ _ (lsq_ref_normal n n (fun a b => A.[a, b]) (fun a => B.[a, j]))) as Hr.
    rewrite <- (Hx i Hi). rewrite <- (lsq_fitted_unique _ _ _ _ _ _ Hr Hm i Hi). reflexivity. }
  assert (E : all_upto n (fun i => all_upto p (fun j => if Req_EM_T (sumf n (fun k => A.[i, k] * V.[k, j])) (B.[i, j]) then true else false)) = true).
  { apply all_upto_true. intros i Hi. apply all_upto_true. intros j Hj. destruct (Req_EM_T _ _) as [|Ne]; [reflexivity|exfalso; apply Ne; auto]. }
  rewrite E. exists V. repeat split; auto.
Qed.
