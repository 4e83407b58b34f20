(** Directional derivatives of the response surfaces *)
From Coq Require Import String Reals Lra Lia List Arith ZArith Bool FunctionalExtensionality.
From Verif Require Import Prelude Py NumArr LinAlg Lsq M_Misc M_RespSurf M_Gradients M_Subspaces M_Domains M_ASRS P_IndexSet P_Poly P_PolyTrain P_PolyFacts P_Rbf.
Import ListNotations.
Open Scope R_scope.

Lemma prodf_line : forall m (q : nat -> R -> R) (q' : nat -> R) x,
  (forall j, (j < m)%nat -> derivable_pt_lim (q j) x (q' j)) ->
  derivable_pt_lim (fun t => prodf m (fun j => q j t)) x
    (sumf m (fun k => q' k * prodf m (fun j => if Nat.eqb j k then 1 else q j x))).
Proof.
  induction m; intros q q' x H; cbn [prodf sumf].
  - apply derivable_pt_lim_const.
  - replace (sumf m _ + _) with (sumf m (fun k => q' k * prodf m (fun j => if Nat.eqb j k then 1 else q j x)) * q m x + prodf m (fun j => q j x) * q' m).
    + apply (derivable_pt_lim_mult (fun t => prodf m (fun j => q j t)) (q m)).
      * apply IHm. auto.
      * apply H. lia.
    + f_equal.
      * rewrite <- sumf_scal_r. apply sumf_ext. intros k Hk. destruct (Nat.eqb_spec m k); [lia|]. ring.
      * rewrite Nat.eqb_refl. rewrite (prodf_ext m (fun j => if Nat.eqb j m then 1 else q j x) (fun j => q j x)); [ring|].
        intros i Hi. destruct (Nat.eqb_spec i m); [lia|reflexivity].
Qed.

Definition along (x h : nat -> R) (t : R) : nat -> R := fun j => x j + t * h j.
Lemma along_0 : forall x h j, along x h 0 j = x j.
Proof. intros. unfold along. ring. Qed.

Lemma affine_deriv : forall a b t, derivable_pt_lim (fun t => a + t * b) t b.
Proof.
  intros a b t. cut (derivable_pt_lim (fun t => a + t * b) t (0 + 1 * b)); [now rewrite Rmult_1_l, Rplus_0_l|].
  apply (derivable_pt_lim_plus (fct_cte a) (fun t => t * b)); [apply derivable_pt_lim_const|].
  apply (deriv_scal b id t 1). apply derivable_pt_lim_id.
Qed.

Lemma dmono_prod : forall m al k x, (k < m)%nat ->
  dmono m al k x = INR (nth k al 0%nat) * x k ^ pred (nth k al 0%nat) * prodf m (fun j => if Nat.eqb j k then 1 else x j ^ nth j al 0%nat).
Proof.
  intros m al k x Hk. unfold dmono. destruct (Nat.eqb_spec (nth k al 0%nat) 0) as [Z|Z].
  - rewrite Z. simpl. ring.
  - rewrite (mono_ext m (dec_at k al) x (set_at x k (x k))) by (intros; now rewrite set_at_id).
    rewrite mono_split by auto. rewrite nth_dec_at, Nat.eqb_refl, Nat.sub_1_r.
    rewrite Rmult_assoc. f_equal. f_equal. apply prodf_ext. intros j Hj. destruct (Nat.eqb_spec j k) as [|N]; auto.
    rewrite nth_dec_at. destruct (Nat.eqb_spec j k); [lia|reflexivity].
Qed.

Lemma mono_line : forall m al x h,
  derivable_pt_lim (fun t => mono m al (along x h t)) 0 (sumf m (fun k => dmono m al k x * h k)).
Proof.
  intros m al x h. unfold mono.
  rewrite (sumf_ext m _ (fun k => INR (nth k al 0%nat) * along x h 0 k ^ pred (nth k al 0%nat) * h k *
     prodf m (fun j => if Nat.eqb j k then 1 else along x h 0 j ^ nth j al 0%nat))).
  - apply (prodf_line m (fun j t => along x h t j ^ nth j al 0%nat)). intros j Hj.
    apply (derivable_pt_lim_comp (fun t => along x h t j) (fun y => y ^ nth j al 0%nat)); [apply affine_deriv|].
    apply derivable_pt_lim_pow.
  - intros k Hk. rewrite dmono_prod by auto. rewrite (along_0 x h k).
    rewrite (prodf_ext m (fun j => if Nat.eqb j k then 1 else along x h 0 j ^ nth j al 0%nat) (fun j => if Nat.eqb j k then 1 else x j ^ nth j al 0%nat)); [ring|].
    intros j Hj. now rewrite along_0.
Qed.

Lemma poly_line : forall m L w x h,
  derivable_pt_lim (fun t => poly_eval m L w (along x h t)) 0 (sumf m (fun k => poly_deval m L w k x * h k)).
Proof.
  intros m L w x h. unfold poly_deval.
  rewrite (sumf_ext m _ (fun k => sumf (length L) (fun c => dmono m (nth c L []) k x * h k * w c))).
  2: { intros k Hk. rewrite <- sumf_scal_r. apply sumf_ext. intros; ring. }
  rewrite sumf_swap.
  apply (deriv_sumf (length L) (fun c t => mono m (nth c L []) (along x h t) * w c)). intros c Hc.
  rewrite (sumf_scal_r m (w c)). apply deriv_scal, mono_line.
Qed.

Lemma gauss_line : forall m ell c x h,
  derivable_pt_lim (fun t => gauss m ell c (along x h t)) 0 (sumf m (fun k => dgauss m ell c x k * h k)).
Proof.
  intros m ell c x h.
  set (E := fun t => sumf m (fun l => (c l - along x h t l) * (c l - along x h t l) * (-1 / ell l))).
  assert (HE : E 0 = sumf m (fun l => (c l - x l) * (c l - x l) * (-1 / ell l))).
  { unfold E. apply sumf_ext. intros l Hl. now rewrite along_0. }
  assert (DE : derivable_pt_lim E 0 (sumf m (fun k => -2 * (-1 / ell k) * (c k - x k) * h k))).
  { apply (deriv_sumf m (fun l t => (c l - along x h t l) * (c l - along x h t l) * (-1 / ell l))). intros l Hl.
    replace (-2 * (-1 / ell l) * (c l - x l) * h l) with (((0 - h l) * (c l - along x h 0 l) + (c l - along x h 0 l) * (0 - h l)) * (-1 / ell l)) by (rewrite along_0; ring).
    assert (D : derivable_pt_lim (fun t => c l - along x h t l) 0 (0 - h l)).
    { apply (derivable_pt_lim_minus (fct_cte (c l)) (fun t => along x h t l)); [apply derivable_pt_lim_const|apply affine_deriv]. }
    apply deriv_scal. apply (derivable_pt_lim_mult (fun t => c l - along x h t l) (fun t => c l - along x h t l)); auto. }
  unfold dgauss. rewrite (sumf_ext m _ (fun k => exp (E 0) * (-2 * (-1 / ell k) * (c k - x k) * h k))).
  2: { intros k Hk. unfold gauss. rewrite HE. ring. }
  rewrite sumf_scal_l. apply (derivable_pt_lim_comp E exp); auto. apply derivable_pt_lim_exp.
Qed.

Lemma rbf_line : forall s T m L x h,
  derivable_pt_lim (fun t => rbf_eval s T m L (along x h t)) 0 (sumf m (fun k => rbf_deval s T m L k x * h k)).
Proof.
  intros s T m L x h. unfold rbf_eval, rbf_deval.
  rewrite (sumf_ext m _ (fun k => sumf T (fun a => dgauss m (fun k => (rb_ell s).[k, 0%nat]) (fun k => (rb_X s).[a, k]) x k * h k * (rb_rw s).[a, 0%nat])
     + poly_deval m L (fun c => (rb_pw s).[c, 0%nat]) k x * h k)).
  2: { intros k Hk. rewrite Rmult_plus_distr_r. f_equal. rewrite <- sumf_scal_r. apply sumf_ext. intros; ring. }
  rewrite sumf_plus.
  apply (derivable_pt_lim_plus (fun t => sumf T (fun a => gauss m (fun k => (rb_ell s).[k, 0%nat]) (along x h t) (fun k => (rb_X s).[a, k]) * (rb_rw s).[a, 0%nat]))
     (fun t => poly_eval m L (fun c => (rb_pw s).[c, 0%nat]) (along x h t))); [|apply poly_line].
  rewrite sumf_swap.
  apply (deriv_sumf T (fun a t => gauss m (fun k => (rb_ell s).[k, 0%nat]) (along x h t) (fun k => (rb_X s).[a, k]) * (rb_rw s).[a, 0%nat])).
  intros a Ha. rewrite (sumf_scal_r m ((rb_rw s).[a, 0%nat])). apply deriv_scal.
  eapply derivable_pt_lim_ext; [|apply gauss_line]. intros t. apply gauss_sym.
Qed.

Lemma poly_eval_ext : forall m L w x y, (forall j, (j < m)%nat -> x j = y j) -> poly_eval m L w x = poly_eval m L w y.
Proof. intros. unfold poly_eval. apply sumf_ext. intros c Hc. f_equal. now apply mono_ext. Qed.
Lemma dmono_ext : forall m al k x y, (forall j, (j < m)%nat -> x j = y j) -> dmono m al k x = dmono m al k y.
Proof. intros. unfold dmono. destruct (Nat.eqb _ 0); auto. f_equal. now apply mono_ext. Qed.
Lemma poly_deval_ext : forall m L w k x y, (forall j, (j < m)%nat -> x j = y j) -> poly_deval m L w k x = poly_deval m L w k y.
Proof. intros. unfold poly_deval. apply sumf_ext. intros c Hc. f_equal. now apply dmono_ext. Qed.
Lemma gauss_ext : forall m ell c x y, (forall j, (j < m)%nat -> x j = y j) -> gauss m ell c x = gauss m ell c y.
Proof. intros. unfold gauss. f_equal. apply sumf_ext. intros l Hl. now rewrite H. Qed.
Lemma rbf_eval_ext : forall s T m L x y, (forall j, (j < m)%nat -> x j = y j) -> rbf_eval s T m L x = rbf_eval s T m L y.
Proof.
  intros. unfold rbf_eval. f_equal; [|now apply poly_eval_ext]. apply sumf_ext. intros a Ha. f_equal. rewrite !(gauss_sym m _ _ (fun k => (rb_X s).[a, k])). now apply gauss_ext.
Qed.
Lemma rbf_deval_ext : forall s T m L k x y, (k < m)%nat -> (forall j, (j < m)%nat -> x j = y j) -> rbf_deval s T m L k x = rbf_deval s T m L k y.
Proof.
  intros. unfold rbf_deval. f_equal; [|now apply poly_deval_ext]. apply sumf_ext. intros a Ha. f_equal. unfold dgauss. rewrite H0 by auto. f_equal. now apply gauss_ext.
Qed.
