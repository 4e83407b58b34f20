(** Gaussian means of polynomials: rotation invariance and the Poincare inequality *)
From Coq Require Import Reals Lra Lia List Arith ZArith Bool FunctionalExtensionality.
From Verif Require Import Prelude Py NumArr LinAlg Tridiag GaussRules M_RespSurf P_IndexSet P_Poly P_PolyFacts PolySub Cubature Deriv Integral JacobiPoly Properties_Quadrature GaussPoincare.
Import ListNotations.
Open Scope R_scope.

(** ** rotation invariance *)
Definition lmap (m : nat) (V : nat -> nat -> R) (u : nat -> R) : nat -> R := fun i => sumf m (fun j => V i j * u j).

Lemma lmap_path : forall m (V : nat -> nat -> R) u j t i, (j < m)%nat -> D (fun s => lmap m V (upd u j s) i) t (V i j).
Proof.
  intros m V u j t i Hj. unfold lmap. eapply D_eq; [apply (D_sumf m (fun l s => V i l * upd u j s l)); intros l Hl; apply D_mult; [apply D_const|apply upd_path]|].
  cbv beta. rewrite (sumf_ext m _ (fun l => (if Nat.eqb l j then 1 else 0) * V i l)) by (intros; ring). now apply sumf_ite.
Qed.

(** the chain rule *)
Lemma pd_lmap : forall m N (V : nat -> nat -> R) p (p' : nat -> (nat -> R) -> R) j, (j < m)%nat -> is_poly m N p -> (forall k, (k < m)%nat -> pd k p (p' k)) ->
  pd j (fun u => p (lmap m V u)) (fun u => sumf m (fun k => V k j * p' k (lmap m V u))).
Proof.
  intros m N V p p' j Hj (T & a & e & H & E) Hp u.
  apply (D_ext (fun s => terms_eval m T a e (fun i => lmap m V (upd u j s) i))); [|intros s; apply E].
  eapply D_eq; [apply (terms_path m T a e (fun i s => lmap m V (upd u j s) i) (fun i => V i j)); intros i Hi; now apply lmap_path|].
  cbv beta. replace (upd u j (u j)) with u by (symmetry; apply (upd_same u j)). apply sumf_ext. intros k Hk. f_equal.
  assert (Q := pd_unique k p (p' k) (dterms m T a e k) (Hp k Hk)). rewrite Q; auto.
  replace p with (terms_eval m T a e); [now apply pd_terms|]. symmetry. now apply functional_extensionality.
Qed.

Lemma pd_mon : forall m e k, (k < m)%nat -> pd k (mon m e) (fun x => INR (e k) * mon m (lower e k) x).
Proof.
  intros m e k Hk x. eapply D_eq; [apply (mon_path m e (fun i t => upd x k t i) (fun i => if Nat.eqb i k then 1 else 0)); intros; apply upd_path|].
  rewrite upd_same, sumf_ite by auto. now apply dmon_lower.
Qed.

Lemma nsum_pos : forall m e, nsum m e <> 0%nat -> exists i, (i < m)%nat /\ e i <> 0%nat.
Proof.
  induction m; intros e H; [destruct H; reflexivity|]. rewrite nsum_S in H. destruct (Nat.eq_dec (e m) 0) as [Z|Z]; [|exists m; split; auto].
  destruct (IHm e) as (i & Hi & Ei); [lia|]. exists i. split; auto.
Qed.

Lemma rotate_mon : forall m (V : nat -> nat -> R), orthonormal m m V -> forall d e, (nsum m e <= d)%nat ->
  Ex m (fun u => mon m e (lmap m V u)) (prodf m (fun j => mom (e j))).
Proof.
  intros m V HV. induction d as [d IH] using lt_wf_ind. intros e He.
  destruct (Nat.eq_dec (nsum m e) 0) as [Z|NZ].
  { assert (E0 : forall i, (i < m)%nat -> e i = 0%nat) by (intros i Hi; assert (A := nsum_ge m e i Hi); lia).
    rewrite prodf_one by (intros i Hi; now rewrite E0). apply (ex_ext m (fun _ => 1)); [|apply ex_const].
    intros u. unfold mon. rewrite prodf_one; auto. intros i Hi. now rewrite E0. }
  destruct (nsum_pos m e NZ) as (i & Hi & Ei).
  set (e' := lower e i).
  assert (RE : forall k, (k < m)%nat -> raise e' i k = e k).
  { intros k Hk. unfold raise, e', lower. destruct (Nat.eqb_spec k i) as [->|]; auto. lia. }
  assert (ND : (nsum m e' < nsum m e)%nat) by (unfold e'; rewrite nsum_lower by auto; destruct (Nat.eqb_spec (e i) 0); lia).
  rewrite (prodf_ext m _ (fun k => mom (raise e' i k))) by (intros k Hk; now rewrite RE).
  rewrite mom_raise by auto.
  apply (ex_ext m (fun u => sumf m (fun j => V i j * (u j * mon m e' (lmap m V u))))).
  { intros u. transitivity (mon m (raise e' i) (lmap m V u)); [|apply prodf_ext; intros k Hk; now rewrite RE].
    rewrite mon_raise by auto. unfold lmap at 2. rewrite <- sumf_scal_r. apply sumf_ext. intros; ring. }
  set (Lk := fun k => INR (e' k) * prodf m (fun l => mom (lower e' k l))).
  assert (HLk : forall k, (k < m)%nat -> Ex m (fun u => INR (e' k) * mon m (lower e' k) (lmap m V u)) (Lk k)).
  { intros k Hk. apply ex_scal. apply (IH (nsum m e')); [lia|]. rewrite nsum_lower by auto. lia. }
  assert (S : forall j, (j < m)%nat -> Ex m (fun u => u j * mon m e' (lmap m V u)) (sumf m (fun k => V k j * Lk k))).
  { intros j Hj. apply (stein m (nsum m e') (fun u => mon m e' (lmap m V u)) (fun u => sumf m (fun k => V k j * (INR (e' k) * mon m (lower e' k) (lmap m V u)))) j); auto.
    - apply (is_poly_comp m m (nsum m e') (mon m e') V). apply is_poly_mon.
    - apply (pd_lmap m (nsum m e') V (mon m e') (fun k x => INR (e' k) * mon m (lower e' k) x) j Hj (is_poly_mon m e')). intros k Hk. now apply pd_mon.
    - apply (ex_sum m m (fun k u => V k j * (INR (e' k) * mon m (lower e' k) (lmap m V u)))). intros k Hk. now apply ex_scal, HLk. }
  replace (INR (e' i) * prodf m (fun i0 => mom (lower e' i i0))) with (sumf m (fun j => V i j * sumf m (fun k => V k j * Lk k))).
  - apply (ex_sum m m (fun j u => V i j * (u j * mon m e' (lmap m V u)))). intros j Hj. apply ex_scal. now apply S.
  - rewrite (sumf_ext m _ (fun j => sumf m (fun k => (V i j * V k j) * Lk k))) by (intros; rewrite <- sumf_scal_l; apply sumf_ext; intros; ring).
    rewrite sumf_swap. rewrite (sumf_ext m _ (fun k => kron_delta i k * Lk k)).
    + rewrite sumf_kd_l by auto. reflexivity.
    + intros k Hk. rewrite sumf_scal_r. f_equal. apply (ortho_rows m V HV); auto.
Qed.

Lemma rotate : forall m N (V : nat -> nat -> R) p L, orthonormal m m V -> is_poly m N p -> Ex m p L -> Ex m (fun u => p (lmap m V u)) L.
Proof.
  intros m N V p L HV (T & a & e & H & E) HL.
  assert (EL := ex_unique _ _ _ _ HL (ex_ext _ _ _ _ (fun x => eq_sym (E x)) (ex_terms m T a e))). rewrite EL.
  apply (ex_ext m (fun u => sumf T (fun t => a t * mon m (e t) (lmap m V u)))); [intros u; now rewrite E|].
  apply (ex_sum m T (fun t u => a t * mon m (e t) (lmap m V u))). intros t Ht. apply ex_scal. now apply (rotate_mon m V HV (nsum m (e t))).
Qed.

(** ** the Poincare inequality in one variable *)
Definition hspan (p : R -> R) : Prop := exists n (ga : nat -> R), (forall i, (n <= i)%nat -> ga i = 0) /\ forall x, p x = sumf n (fun i => ga i * he i x).
Lemma sumf_pad : forall n k f, (forall i, (n <= i)%nat -> f i = 0) -> (n <= k)%nat -> sumf k f = sumf n f.
Proof. intros n k f H L. rewrite (sumf_le_split k n) by auto. rewrite (sumf_zero (k - n)); [ring|]. intros; apply H; lia. Qed.
Lemma hspan_ext : forall p q, (forall x, p x = q x) -> hspan p -> hspan q.
Proof. intros p q E (n & ga & Z & H). exists n, ga. split; auto. intros x. rewrite <- E. auto. Qed.
Lemma hspan_lin : forall p q k, hspan p -> hspan q -> hspan (fun x => p x + k * q x).
Proof.
  intros p q k (n & ga & Z & H) (n' & ga' & Z' & H'). exists (Nat.max n n'), (fun i => ga i + k * ga' i). split.
  - intros i Hi. rewrite Z, Z' by lia. ring.
  - intros x. rewrite (sumf_ext _ _ (fun i => ga i * he i x + k * (ga' i * he i x))) by (intros; ring). rewrite sumf_plus, sumf_scal_l.
    rewrite (sumf_pad n (Nat.max n n') (fun i => ga i * he i x)) by (try lia; intros; rewrite Z by auto; ring).
    rewrite (sumf_pad n' (Nat.max n n') (fun i => ga' i * he i x)) by (try lia; intros; rewrite Z' by auto; ring). now rewrite H, H'.
Qed.
Lemma hspan_he : forall k, hspan (he k).
Proof.
  intros k. exists (S k), (fun i => if Nat.eqb i k then 1 else 0). split.
  - intros i Hi. now rewrite (proj2 (Nat.eqb_neq i k)) by lia.
  - intros x. rewrite (sumf_ite (S k) k (fun i => he i x)); auto.
Qed.
Lemma hspan_zero : hspan (fun _ => 0).
Proof. exists 0%nat, (fun _ => 0). split; auto. Qed.
Lemma hspan_sum : forall n p (c : nat -> R), (forall i, (i < n)%nat -> hspan (p i)) -> hspan (fun x => sumf n (fun i => c i * p i x)).
Proof. induction n; intros p c H; cbn [sumf]; [apply hspan_zero|]. apply (hspan_lin (fun x => sumf n (fun i => c i * p i x)) (p n)); [apply IHn; intros|]; apply H; lia. Qed.
Lemma hspan_x : forall p, hspan p -> hspan (fun x => x * p x).
Proof.
  intros p (n & ga & Z & H). apply (hspan_ext (fun x => sumf n (fun i => ga i * (x * he i x)))).
  - intros x. rewrite H, <- sumf_scal_l. apply sumf_ext. intros; ring.
  - apply (hspan_sum n (fun i x => x * he i x)). intros i Hi. apply (hspan_ext (fun x => he (S i) x + INR i * prev he i x)).
    + intros x. unfold he. rewrite mono_x. unfold hal. ring.
    + apply hspan_lin; [apply hspan_he|]. destruct i; [apply hspan_zero|apply hspan_he].
Qed.
Lemma hspan_peval : forall c, hspan (peval c).
Proof.
  induction c as [|a c IH]; [apply hspan_zero|]. apply (hspan_ext (fun x => x * peval c x + a * he 0 x)).
  - intros x. unfold he. rewrite mono_0. simpl. ring.
  - apply hspan_lin; [apply hspan_x; auto|apply hspan_he].
Qed.

Lemma he_orth : forall i j, gaussian_mean (fun x => he i x * he j x) (if Nat.eqb i j then INR (fact i) else 0).
Proof.
  intros i j. destruct (Nat.le_ge_cases j i) as [L|L].
  - assert (H := he_orthogonal j i L). destruct (Nat.eqb_spec i j) as [->|]; exact H.
  - assert (H := he_orthogonal i j L). rewrite Nat.eqb_sym in H. eapply gm_ext; [|exact H]. intros; cbv beta; ring.
Qed.
Lemma hsq_mean : forall n (ga : nat -> R), gaussian_mean (fun x => sumf n (fun i => ga i * he i x) * sumf n (fun i => ga i * he i x)) (sumf n (fun i => ga i * ga i * INR (fact i))).
Proof.
  intros n ga. assert (A : gaussian_mean (fun x => sumf n (fun i => sumf n (fun j => ga i * ga j * (he i x * he j x))))
     (sumf n (fun i => sumf n (fun j => ga i * ga j * (if Nat.eqb i j then INR (fact i) else 0))))).
  { apply (gm_sum n (fun i x => sumf n (fun j => ga i * ga j * (he i x * he j x)))). intros i Hi.
    apply (gm_sum n (fun j x => ga i * ga j * (he i x * he j x))). intros j Hj. apply gm_scal, he_orth. }
  replace (sumf n (fun i => ga i * ga i * INR (fact i))) with (sumf n (fun i => sumf n (fun j => ga i * ga j * (if Nat.eqb i j then INR (fact i) else 0)))).
  - eapply gm_ext; [|exact A]. intros x. cbv beta. rewrite sumf_mul. apply sumf_ext. intros i Hi. apply sumf_ext. intros; ring.
  - apply sumf_ext. intros i Hi. rewrite (sumf_ext n _ (fun j => kron_delta i j * (ga i * ga j * INR (fact i)))).
    + now rewrite (sumf_kd_l n i (fun j => ga i * ga j * INR (fact i)) Hi).
    + intros j Hj. unfold kron_delta. destruct (Nat.eqb i j); ring.
Qed.
Lemma hmean : forall n (ga : nat -> R), gaussian_mean (fun x => sumf (S n) (fun i => ga i * he i x)) (ga 0%nat).
Proof.
  intros n ga. replace (ga 0%nat) with (sumf (S n) (fun i => ga i * (if Nat.eqb i 0 then 1 else 0))).
  - apply (gm_sum (S n) (fun i x => ga i * he i x)). intros i Hi. apply gm_scal. assert (H := he_orth i 0). destruct (Nat.eqb_spec i 0) as [->|]; (eapply gm_ext; [|exact H]); intros x; cbv beta; unfold he; rewrite mono_0; ring.
  - rewrite (sumf_ext (S n) _ (fun i => (if Nat.eqb i 0 then 1 else 0) * ga i)) by (intros; ring). rewrite sumf_ite; [auto|lia].
Qed.

Lemma poincare1 : forall c p p' mu A B, (forall x, p x = peval c x) -> (forall x, D p x (p' x)) -> gaussian_mean p mu ->
  gaussian_mean (fun x => (p x - mu) * (p x - mu)) A -> gaussian_mean (fun x => p' x * p' x) B -> A <= B.
Proof.
  intros c p p' mu A B E Dp Hmu HA HB. destruct (hspan_peval c) as (n & ga & Z & H).
  assert (P : forall x, p x = sumf (S n) (fun i => ga i * he i x)).
  { intros x. rewrite E, H. symmetry. apply sumf_pad; [|lia]. intros i Hi. rewrite Z by auto. ring. }
  assert (M : mu = ga 0%nat).
  { eapply gaussian_mean_unique; [exact Hmu|]. eapply gm_ext; [intros x; symmetry; apply P|apply hmean]. }
  set (da := fun i => if Nat.eqb i 0 then 0 else ga i). set (la := fun i => INR (S i) * ga (S i)).
  assert (EA : A = sumf (S n) (fun i => da i * da i * INR (fact i))).
  { eapply gaussian_mean_unique; [exact HA|]. eapply gm_ext; [|apply (hsq_mean (S n) da)]. intros x. cbv beta.
    replace (sumf (S n) (fun i => da i * he i x)) with (p x - mu); auto. rewrite P, M, !sumf_shift. unfold da, he. rewrite mono_0. simpl. ring. }
  assert (EB : B = sumf (S n) (fun i => la i * la i * INR (fact i))).
  { eapply gaussian_mean_unique; [exact HB|]. eapply gm_ext; [|apply (hsq_mean (S n) la)]. intros x. cbv beta.
    replace (sumf (S n) (fun i => la i * he i x)) with (p' x); auto.
    eapply uniqueness_limite; [apply Dp|]. apply (D_ext (fun x => sumf (S n) (fun i => ga i * he i x))); [|exact P].
    eapply D_eq; [apply (D_sumf (S n) (fun i x => ga i * he i x)); intros i Hi; apply D_mult; [apply D_const|apply mono_deriv]|].
    cbv beta. rewrite (sumf_ext (S n) _ (fun i => ga i * (INR i * prev he i x))) by (intros; rewrite he_deriv; ring).
    rewrite sumf_shift. cbn [sumf]. unfold la at 2. rewrite (Z (S n)) by lia. rewrite (sumf_ext n (fun i => ga (S i) * (INR (S i) * prev he (S i) x)) (fun i => la i * he i x)) by (intros; unfold la, prev; ring).
    simpl INR. ring. }
  rewrite EA, EB. rewrite sumf_shift. unfold da at 1 2. simpl (Nat.eqb 0 0). cbn [sumf].
  assert (L : sumf n (fun i => da (S i) * da (S i) * INR (fact (S i))) <= sumf n (fun i => la i * la i * INR (fact i))).
  { apply sumf_le. intros i Hi. unfold da, la. simpl (Nat.eqb (S i) 0). cbv iota. rewrite fact_simpl, mult_INR. assert (F := pos_INR (fact i)).
    assert (S1 : 1 <= INR (S i)) by (rewrite S_INR; assert (Q := pos_INR i); lra).
    replace (INR (S i) * ga (S i) * (INR (S i) * ga (S i)) * INR (fact i)) with (INR (S i) * (ga (S i) * ga (S i) * (INR (S i) * INR (fact i)))) by ring.
    rewrite <- (Rmult_1_l (ga (S i) * ga (S i) * (INR (S i) * INR (fact i)))) at 1. apply Rmult_le_compat_r; auto.
    apply Rmult_le_pos; [apply Rle_0_sqr|apply Rmult_le_pos; [lra|auto]]. }
  assert (L2 : 0 <= la n * la n * INR (fact n)) by (apply Rmult_le_pos; [apply Rle_0_sqr|apply pos_INR]). lra.
Qed.
