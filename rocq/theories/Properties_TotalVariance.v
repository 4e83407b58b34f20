(** More about conditional_expectations: C04 continued. *)
From Coq Require Import String Reals Lra Lia List Arith ZArith Bool.
From Verif Require Import Prelude Py NumArr M_Misc P_Misc.
Import ListNotations.
Open Scope R_scope.

Lemma grp_square : forall f ind i c, In i ind ->
  sumf (List.length ind) (fun k => if Nat.eqb (nth k ind 0%nat) i then (nth k f 0 - c) * (nth k f 0 - c) else 0) =
  grp_count ind i * (grp_var f ind i + (grp_mean f ind i - c) * (grp_mean f ind i - c)).
Proof.
  intros f ind i c H. pose proof (grp_count_pos ind i H) as HC. set (mu := grp_mean f ind i).
  assert (E : sumf (List.length ind) (fun k => if Nat.eqb (nth k ind 0%nat) i then nth k f 0 else 0) = grp_count ind i * mu).
  { unfold mu, grp_mean. fold (grp_sum f ind i). field. lra. }
  transitivity (sumf (List.length ind) (fun k => if Nat.eqb (nth k ind 0%nat) i then (nth k f 0 - mu) * (nth k f 0 - mu) else 0)
     + (2 * (mu - c)) * (sumf (List.length ind) (fun k => if Nat.eqb (nth k ind 0%nat) i then nth k f 0 else 0))
     - (2 * (mu - c) * mu - (mu - c) * (mu - c)) * grp_count ind i).
  - unfold grp_count. rewrite <- !sumf_scal_l, <- sumf_plus, <- sumf_minus. apply sumf_ext; intros k Hk.
    destruct (Nat.eqb (nth k ind 0%nat) i); ring.
  - rewrite E. unfold grp_var. fold mu. field. lra.
Qed.

(** sum of squares about any value = within the groups + between the groups *)
Theorem C04_total_variance : forall f ind c, List.length f = List.length ind ->
  sumf (List.length f) (fun k => (nth k f 0 - c) * (nth k f 0 - c)) =
  sumf (S (list_max ind)) (fun i => if in_dec Nat.eq_dec i ind
     then grp_count ind i * (grp_var f ind i + (grp_mean f ind i - c) * (grp_mean f ind i - c)) else 0).
Proof.
  intros f ind c H.
  rewrite (sumf_ext (S (list_max ind)) _ (fun i => sumf (List.length ind) (fun k => if Nat.eqb (nth k ind 0%nat) i then (nth k f 0 - c) * (nth k f 0 - c) else 0))).
  2: { intros i Hi. destruct (in_dec Nat.eq_dec i ind) as [I|I].
       - symmetry. now apply grp_square.
       - symmetry. apply sumf_zero. intros k Hk. destruct (Nat.eqb_spec (nth k ind 0%nat) i); [|reflexivity].
         exfalso. apply I. subst. now apply nth_In. }
  rewrite sumf_swap, H. apply sumf_ext. intros k Hk. symmetry. rewrite (sumf_single _ (nth k ind 0%nat)).
  - now rewrite Nat.eqb_refl.
  - assert (nth k ind 0%nat <= list_max ind)%nat by (apply list_max_ge, nth_In; auto). lia.
  - intros i Hi Hne. destruct (Nat.eqb_spec (nth k ind 0%nat) i); [congruence|reflexivity].
Qed.
Print Assumptions C04_total_variance.

(** the conditional means never vary more than the values themselves, and what is lost is the
    size-weighted conditional variance that the program returns *)
Theorem C04_averaging_reduces_variance : forall f ind, List.length f = List.length ind -> ind <> [] ->
  let M := INR (List.length f) in
  let mean := sumr f / M in
  let between := sumf (S (list_max ind)) (fun i => if in_dec Nat.eq_dec i ind
     then grp_count ind i / M * ((grp_mean f ind i - mean) * (grp_mean f ind i - mean)) else 0) in
  let within := sumf (S (list_max ind)) (fun i => if in_dec Nat.eq_dec i ind then grp_count ind i / M * grp_var f ind i else 0) in
  np_var f = Fin (within + between) /\ 0 <= within /\ 0 <= between.
Proof.
  intros f ind H Hne M mean between within.
  assert (HM : 0 < M) by (apply lt_0_INR; rewrite H; destruct ind; [congruence|cbn; lia]).
  assert (N0 : forall i, In i ind -> 0 <= grp_count ind i / M).
  { intros i Hi. pose proof (grp_count_pos ind i Hi). apply Rlt_le, Rdiv_lt_0_compat; auto. }
  split; [|split].
  - assert (NV : np_var f = Fin (sumr (map (fun x => (x - mean) * (x - mean)) f) / M)).
    { unfold mean, M. destruct f; [destruct ind; [congruence|discriminate]|reflexivity]. }
    rewrite NV. f_equal.
    assert (T := C04_total_variance f ind mean H).
    rewrite sumr_nth, map_length.
    rewrite (sumf_ext (List.length f) _ (fun k => (nth k f 0 - mean) * (nth k f 0 - mean))).
    2: { intros k Hk. transitivity (nth k (map (fun x => (x - mean) * (x - mean)) f) ((fun x => (x - mean) * (x - mean)) 0)).
         - apply nth_indep. rewrite map_length; auto.
         - apply (map_nth (fun x => (x - mean) * (x - mean))). }
    rewrite T. unfold within, between. rewrite <- sumf_plus, <- sumf_div. apply sumf_ext; intros i Hi.
    destruct (in_dec Nat.eq_dec i ind); [field; lra|unfold Rdiv; ring].
  - apply sumf_nonneg; intros i Hi. destruct (in_dec Nat.eq_dec i ind); [|lra]. apply Rmult_le_pos; auto. now apply grp_var_nonneg.
  - apply sumf_nonneg; intros i Hi. destruct (in_dec Nat.eq_dec i ind); [|lra]. apply Rmult_le_pos; auto. apply Rle_0_sqr.
Qed.
Print Assumptions C04_averaging_reduces_variance.

(** no values at all: amax raises ValueError; an index array of the wrong length: IndexError *)
Theorem C04_rejects : forall f ind,
  (ind = [] -> conditional_expectations f ind = Err ValueError) /\
  (ind <> [] -> List.length f <> List.length ind -> conditional_expectations f ind = Err IndexError).
Proof.
  intros f ind. split.
  - intros ->. reflexivity.
  - intros H1 H2. unfold conditional_expectations. destruct ind as [|a ind]; [congruence|]. cbn [np_amax_nat rbind].
    destruct (Nat.eqb_spec (List.length f) (List.length (a :: ind))); [congruence|]. reflexivity.
Qed.
Print Assumptions C04_rejects.

(** values 1, 5, 3 in groups 0, 2, 0: variance 8/3 = 2/3 within (group 0) + 2 between *)
Example C04_case_variance : np_var [1; 5; 3] = Fin (2 / 3 + 2) /\
  conditional_expectations [] [] = Err ValueError /\ conditional_expectations [1] [0%nat; 1%nat] = Err IndexError.
Proof.
  split; [|split; [apply C04_rejects; auto|apply C04_rejects; [discriminate|cbn; lia]]].
  unfold np_var. f_equal. cbn. lra.
Qed.
