(** means of polynomials in several variables under a product density, and
    rules whose product sums are exact *)
From Coq Require Import Reals Lra Lia List Arith ZArith Bool.
From Verif Require Import Prelude Py NumArr GaussRules M_RespSurf P_IndexSet P_Poly P_PolyFacts PolySub.
Import ListNotations.
Open Scope R_scope.

(** replace coordinate k of x by t *)
Definition upd (x : nat -> R) (k : nat) (t : R) : nat -> R := fun j => if Nat.eqb j k then t else x j.

(** L is the mean of g over the first m coordinates, independent and each of the
    law whose means are [mean1]: the last coordinate is averaged first, the
    result over the next one, and so on; nothing else may be left in it *)
Fixpoint mean_nd (mean1 : (R -> R) -> R -> Prop) (m : nat) (g : (nat -> R) -> R) (L : R) : Prop :=
  match m with
  | O => forall x, g x = L
  | S k => exists h, (forall x, mean1 (fun t => g (upd x k t)) (h x)) /\ mean_nd mean1 k h L
  end.

Lemma mean_nd_ext : forall (mean1 : (R -> R) -> R -> Prop) m g g' L, (forall x, g x = g' x) -> mean_nd mean1 m g L -> mean_nd mean1 m g' L.
Proof. intros mean1 m g g' L E H. replace g' with g; auto. now apply FunctionalExtensionality.functional_extensionality. Qed.

Lemma mean_nd_unique : forall (mean1 : (R -> R) -> R -> Prop) m g L L', (forall f a b, mean1 f a -> mean1 f b -> a = b) ->
  mean_nd mean1 m g L -> mean_nd mean1 m g L' -> L = L'.
Proof.
  intros mean1 m g L L' U. revert g. induction m; intros g H H'; cbn [mean_nd] in *.
  - rewrite <- (H (fun _ => 0)). apply H'.
  - destruct H as (h & A & B), H' as (h' & A' & B'). apply (IHm h B).
    apply (mean_nd_ext mean1 m h'); auto. intros x. eapply U; eauto.
Qed.

(** ** one variable *)
Definition monol (k : nat) : list R := repeat 0 k ++ [1].
Lemma monol_length : forall k, length (monol k) = S k.
Proof. intros. unfold monol. rewrite app_length, repeat_length. simpl. lia. Qed.
Lemma monol_eval : forall k x, peval (monol k) x = x ^ k.
Proof. induction k; intros x; unfold monol in *; simpl; [ring|]. rewrite IHk. ring. Qed.
Lemma monol_nth : forall k j, nth j (monol k) 0 = if Nat.eqb j k then 1 else 0.
Proof. induction k; intros [|j]; unfold monol in *; simpl; auto. destruct j; reflexivity. Qed.

Fixpoint padd (a b : list R) : list R :=
  match a, b with [], _ => b | _, [] => a | x :: a', y :: b' => (x + y) :: padd a' b' end.
Lemma padd_eval : forall a b x, peval (padd a b) x = peval a x + peval b x.
Proof. induction a as [|u a IH]; intros [|v b] x; simpl; try ring. rewrite IH. ring. Qed.
Lemma pscal_eval : forall s a x, peval (map (Rmult s) a) x = s * peval a x.
Proof. induction a as [|u a IH]; intros x; simpl; [ring|]. rewrite IH. ring. Qed.

Section Moments.
  Variable mu : nat -> R.
  (** the value of the linear functional with moments mu at a polynomial *)
  Definition pmom (c : list R) : R := sumf (length c) (fun k => nth k c 0 * mu k).
  Lemma pmom_long : forall c n, (length c <= n)%nat -> pmom c = sumf n (fun k => nth k c 0 * mu k).
  Proof.
    intros c n H. unfold pmom. rewrite (sumf_le_split n (length c)) by auto.
    rewrite (sumf_zero (n - length c)); [ring|]. intros i Hi. rewrite nth_overflow by lia. ring.
  Qed.
  Lemma padd_nth : forall a b j, nth j (padd a b) 0 = nth j a 0 + nth j b 0.
  Proof. induction a as [|u a IH]; intros [|v b] [|j]; simpl; try ring. apply IH. Qed.
  Lemma padd_length : forall a b, length (padd a b) = Nat.max (length a) (length b).
  Proof. induction a as [|u a IH]; intros [|v b]; simpl; auto. Qed.
  Lemma pmom_add : forall a b, pmom (padd a b) = pmom a + pmom b.
  Proof.
    intros a b. set (n := Nat.max (length a) (length b)). rewrite (pmom_long (padd a b) n), (pmom_long a n), (pmom_long b n) by (rewrite ?padd_length; unfold n; lia).
    rewrite <- sumf_plus. apply sumf_ext. intros k Hk. rewrite padd_nth. ring.
  Qed.
  Lemma pmom_scal : forall s a, pmom (map (Rmult s) a) = s * pmom a.
  Proof.
    intros s a. unfold pmom. rewrite map_length, <- sumf_scal_l. apply sumf_ext. intros k Hk.
    rewrite (nth_indep _ 0 (s * 0)) by (now rewrite map_length). rewrite map_nth. ring.
  Qed.
  Lemma pmom_mono : forall k, pmom (monol k) = mu k.
  Proof.
    intros k. unfold pmom. rewrite monol_length. cbn [sumf]. rewrite sumf_zero.
    - rewrite monol_nth, Nat.eqb_refl. ring.
    - intros i Hi. rewrite monol_nth, (proj2 (Nat.eqb_neq i k)) by lia. ring.
  Qed.

  (** coefficients of a sum of powers *)
  Fixpoint collect (T : nat) (b : nat -> R) (e : nat -> nat) : list R :=
    match T with O => [] | S t => padd (collect t b e) (map (Rmult (b t)) (monol (e t))) end.
  Lemma collect_eval : forall T b e x, peval (collect T b e) x = sumf T (fun t => b t * x ^ e t).
  Proof. induction T; intros b e x; simpl; [reflexivity|]. rewrite padd_eval, pscal_eval, monol_eval, IHT. reflexivity. Qed.
  Lemma collect_mom : forall T b e, pmom (collect T b e) = sumf T (fun t => b t * mu (e t)).
  Proof. induction T; intros b e; simpl; [reflexivity|]. rewrite pmom_add, pmom_scal, pmom_mono, IHT. reflexivity. Qed.

  Variable mean1 : (R -> R) -> R -> Prop.
  Hypothesis MP : forall c, mean1 (peval c) (pmom c).

  Lemma prodf_upd : forall m x t (e : nat -> nat), prodf m (fun j => upd x m t j ^ e j) = prodf m (fun j => x j ^ e j).
  Proof. intros. apply prodf_ext. intros j Hj. unfold upd. now rewrite (proj2 (Nat.eqb_neq j m)) by lia. Qed.

  Lemma mean_terms : forall m T a e, mean_nd mean1 m (terms_eval m T a e) (sumf T (fun t => a t * prodf m (fun j => mu (e t j)))).
  Proof.
    induction m; intros T a e; cbn [mean_nd].
    - intros x. reflexivity.
    - exists (terms_eval m T (fun t => a t * mu (e t m)) e). split.
      + intros x. set (b := fun t => a t * prodf m (fun j => x j ^ e t j)).
        replace (fun t => terms_eval (S m) T a e (upd x m t)) with (peval (collect T b (fun t => e t m))).
        * replace (terms_eval m T (fun t => a t * mu (e t m)) e x) with (pmom (collect T b (fun t => e t m))); [apply MP|].
          rewrite collect_mom. unfold terms_eval. apply sumf_ext. intros t Ht. unfold b. ring.
        * apply FunctionalExtensionality.functional_extensionality. intros t. rewrite collect_eval. unfold terms_eval. apply sumf_ext. intros i Hi. cbn [prodf].
          rewrite prodf_upd. unfold upd. rewrite Nat.eqb_refl. unfold b. ring.
      + eapply mean_nd_ext; [intros; reflexivity|].
        replace (sumf T (fun t => a t * prodf (S m) (fun j => mu (e t j)))) with (sumf T (fun t => (a t * mu (e t m)) * prodf m (fun j => mu (e t j)))); [apply IHm|].
        apply sumf_ext. intros t Ht. cbn [prodf]. ring.
  Qed.

  Lemma mean_const : mu 0%nat = 1 -> forall m c, mean_nd mean1 m (fun _ => c) c.
  Proof.
    intros M0 m c. assert (B := mean_terms m 1 (fun _ => c) (fun _ _ => 0%nat)). cbn [sumf] in B. rewrite prodf_one in B by (intros; exact M0).
    rewrite Rplus_0_l, Rmult_1_r in B. apply (mean_nd_ext mean1 m (terms_eval m 1 (fun _ => c) (fun _ _ => 0%nat))); [|exact B].
    intros y. unfold terms_eval. cbn [sumf]. rewrite prodf_one by (intros; reflexivity). ring.
  Qed.

  Lemma nsum_ge : forall m (e : nat -> nat) k, (k < m)%nat -> (e k <= nsum m e)%nat.
  Proof. induction m; intros e k H; [lia|]. rewrite nsum_S. destruct (Nat.eq_dec k m) as [->|]; [lia|]. specialize (IHm e k ltac:(lia)). lia. Qed.

  (** a rule exact for products of powers is exact for polynomials *)
  Lemma rule_exact : forall m q D (x : nat -> nat -> R) (w : nat -> R) g,
    (forall e, (forall k, (k < m)%nat -> (e k <= D)%nat) -> sumf q (fun r => w r * prodf m (fun k => x r k ^ e k)) = prodf m (fun k => mu (e k))) ->
    is_poly m D g -> mean_nd mean1 m g (sumf q (fun r => w r * g (x r))).
  Proof.
    intros m q D x w g EX (T & a & e & HD & E).
    apply (mean_nd_ext mean1 m (terms_eval m T a e)); [intros; now rewrite E|].
    replace (sumf q (fun r => w r * g (x r))) with (sumf T (fun t => a t * prodf m (fun j => mu (e t j)))); [apply mean_terms|].
    rewrite (sumf_ext q _ (fun r => sumf T (fun t => w r * (a t * prodf m (fun k => x r k ^ e t k))))).
    - rewrite sumf_swap. apply sumf_ext. intros t Ht. rewrite <- EX.
      + rewrite <- sumf_scal_l. apply sumf_ext. intros; ring.
      + intros k Hk. assert (A := nsum_ge m (e t) k Hk). specialize (HD t Ht). lia.
    - intros r Hr. rewrite E. unfold terms_eval. now rewrite <- sumf_scal_l.
  Qed.
End Moments.
