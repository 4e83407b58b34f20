(** Final statements about rounding, C100.  [fmt F x] says that x is an integer
    of at most [f_prec F] binary digits times a power of two not below the
    smallest; [valid F] holds of binary64 and binary32; [ulp1 F] is 2^-prec and
    [eta F] half the smallest positive number. *)
From Coq Require Import String Reals Lra Lia ZArith List Bool Permutation.
From Verif Require Import Prelude Py NumArr M_Misc M_Subspaces M_Float P_Misc P_Float P_FloatCode Toy.
Import ListNotations.
Open Scope R_scope.

(** What rounding is: a number of the format, none nearer; order is kept. *)
Theorem C100_rounding : forall F, valid F ->
  (forall x, fmt F (rnd F x) /\ (forall f, fmt F f -> Rabs (rnd F x - x) <= Rabs (f - x)) /\
     Rabs (rnd F x - x) <= ulp1 F * Rabs x + eta F) /\
  (forall x y, x <= y -> rnd F x <= rnd F y) /\
  (forall x y, fmt F x -> fmt F y -> Rabs (rnd F (x + y) - (x + y)) <= ulp1 F * Rabs (x + y)).
Proof.
  intros F V. split; [|split].
  - intros x. split; [now apply rnd_fmt|]. split; [|apply rnd_err]. intros f Hf. now apply rnd_nearest.
  - intros. now apply rnd_mono.
  - intros. now apply rnd_err_add.
Qed.
Print Assumptions C100_rounding.

Section Boxes.
  Variable F : format.
  Hypothesis V : valid F.
  Variables (lb ub : nd R) (s : BoundedNormalizer).
  Hypothesis Hsz : size ub = size lb.
  Hypothesis Hbox : forall j, (j < size lb)%nat -> box F (flat lb j) (flat ub j).
  Hypothesis Hs : bounded_init (amap Fin lb) (amap Fin ub) = Ok s.

  Lemma init_rows : shape (bn_lb s) = [1%nat; size lb] /\ shape (bn_ub s) = [1%nat; size lb] /\
    (forall j, (j < size lb)%nat -> (bn_lb s).[0%nat, j] = Fin (flat lb j)) /\
    (forall j, (j < size lb)%nat -> (bn_ub s).[0%nat, j] = Fin (flat ub j)).
  Proof.
    destruct (bounded_init_ok lb ub Hsz) as (s' & E & S1 & S2 & S3). rewrite Hs in E. inversion E; subst s'.
    split; auto. split; auto. split; intros j Hj; now apply S3.
  Qed.

  Lemma norm_fl_run : forall (X : nd xr) (x : nat -> nat -> R) M, shape X = [M; size lb] ->
    (forall i j, (i < M)%nat -> (j < size lb)%nat -> X.[i, j] = Fin (x i j) /\ fmt F (x i j) /\
       flat lb j <= x i j <= flat ub j + 2 * ulp1 F * (flat ub j - flat lb j)) ->
    exists Y, bounded_normalize_fl F s X = Ok Y /\ shape Y = [M; size lb] /\
      forall i j, (i < M)%nat -> (j < size lb)%nat -> Y.[i, j] = Fin (nrm F (flat lb j) (flat ub j) (x i j)).
  Proof.
    intros X x M HX Hx. destruct init_rows as (S1 & S2 & S3 & S4).
    destruct (bounded_normalize_fl_ok F s _ _ _ S1 S2 S3 S4 X M HX) as (Y & Y1 & Y2 & Y3).
    exists Y. split; auto. split; auto. intros i j Hi Hj. rewrite Y3 by auto.
    destruct (Hx i j Hi Hj) as (E & E1 & E2). rewrite E. apply normalize_entry; auto.
  Qed.
  Lemma unnorm_fl_run : forall (X : nd xr) (x : nat -> nat -> R) M, shape X = [M; size lb] ->
    (forall i j, (i < M)%nat -> (j < size lb)%nat -> X.[i, j] = Fin (x i j) /\ fmt F (x i j) /\ -1 <= x i j <= 1) ->
    exists Y, bounded_unnormalize_fl F s X = Ok Y /\ shape Y = [M; size lb] /\
      forall i j, (i < M)%nat -> (j < size lb)%nat -> Y.[i, j] = Fin (unn F (flat lb j) (flat ub j) (x i j)).
  Proof.
    intros X x M HX Hx. destruct init_rows as (S1 & S2 & S3 & S4).
    destruct (bounded_unnormalize_fl_ok F s _ _ _ S1 S2 S3 S4 X M HX) as (Y & Y1 & Y2 & Y3).
    exists Y. split; auto. split; auto. intros i j Hi Hj. rewrite Y3 by auto.
    destruct (Hx i j Hi Hj) as (E & E1 & E2). rewrite E. apply unnormalize_entry; auto.
  Qed.
End Boxes.

(** Normalizing floats of the box gives floats of [-1,1], the bounds map to -1
    and 1 exactly, the order of points is kept, and the error is of the size of
    the rounding unit whatever the bounds are. *)
Theorem C100_normalize : forall F (lb ub X : nd R) M s, valid F ->
  size ub = size lb -> shape X = [M; size lb] ->
  (forall j, (j < size lb)%nat -> box F (flat lb j) (flat ub j)) ->
  (forall i j, (i < M)%nat -> (j < size lb)%nat -> fmt F (X.[i, j]) /\ flat lb j <= X.[i, j] <= flat ub j) ->
  bounded_init (amap Fin lb) (amap Fin ub) = Ok s ->
  exists Y (y : nat -> nat -> R), bounded_normalize_fl F s (amap Fin X) = Ok Y /\ shape Y = shape X /\
    forall i j, (i < M)%nat -> (j < size lb)%nat ->
      Y.[i, j] = Fin (y i j) /\ fmt F (y i j) /\ -1 <= y i j <= 1 /\
      (X.[i, j] = flat lb j -> y i j = -1) /\ (X.[i, j] = flat ub j -> y i j = 1) /\
      (forall k, (k < M)%nat -> X.[i, j] <= X.[k, j] -> y i j <= y k j) /\
      Rabs (y i j - (2 * (X.[i, j] - flat lb j) / (flat ub j - flat lb j) - 1)) <= 10 * ulp1 F + eta F.
Proof.
  intros F lb ub X M s V Hsz HX Hb Hx Hs.
  destruct (norm_fl_run F V lb ub s Hsz Hb Hs (amap Fin X) (fun i j => X.[i, j]) M HX) as (Y & Y1 & Y2 & Y3).
  { intros i j Hi Hj. destruct (Hx i j Hi Hj) as (A & B). split; [reflexivity|]. split; [exact A|].
    destruct (Hb j Hj) as (_ & _ & C & _). generalize (ulp1_pos F). intros U.
    assert (0 <= ulp1 F * (flat ub j - flat lb j)) by (apply Rmult_le_pos; lra). lra. }
  exists Y, (fun i j => nrm F (flat lb j) (flat ub j) (X.[i, j])).
  split; [exact Y1|]. split; [now rewrite Y2|]. intros i j Hi Hj.
  destruct (Hb j Hj) as (A & B & C & D & E). destruct (Hx i j Hi Hj) as (G & Hr).
  split; [now apply Y3|]. split; [now apply rnd_fmt|]. split; [now apply nrm_range|].
  split; [intros ->; now apply nrm_lb|]. split; [intros ->; now apply nrm_ub|].
  split; [intros k Hk L; now apply nrm_mono|]. now apply nrm_err.
Qed.
Print Assumptions C100_normalize.

(** Unnormalizing floats of [-1,1]: never below the lower bound, above the
    upper bound by at most 2u of the width, exact at -1, order kept. *)
Theorem C100_unnormalize : forall F (lb ub X : nd R) M s, valid F ->
  size ub = size lb -> shape X = [M; size lb] ->
  (forall j, (j < size lb)%nat -> box F (flat lb j) (flat ub j)) ->
  (forall i j, (i < M)%nat -> (j < size lb)%nat -> fmt F (X.[i, j]) /\ -1 <= X.[i, j] <= 1) ->
  bounded_init (amap Fin lb) (amap Fin ub) = Ok s ->
  exists Y (y : nat -> nat -> R), bounded_unnormalize_fl F s (amap Fin X) = Ok Y /\ shape Y = shape X /\
    forall i j, (i < M)%nat -> (j < size lb)%nat ->
      let l := flat lb j in let u := flat ub j in let x := X.[i, j] in
      Y.[i, j] = Fin (y i j) /\ fmt F (y i j) /\
      l <= y i j <= u + 2 * ulp1 F * (u - l) /\
      (x = -1 -> y i j = l) /\
      (l = 0 \/ l = - u -> y i j <= u /\ (x = 1 -> y i j = u)) /\
      (forall k, (k < M)%nat -> x <= X.[k, j] -> y i j <= y k j) /\
      Rabs (y i j - ((u - l) * (x + 1) / 2 + l)) <= ulp1 F * (5 * (u - l) + Rmax (Rabs l) (Rabs u)) + 2 * eta F.
Proof.
  intros F lb ub X M s V Hsz HX Hb Hx Hs.
  destruct (unnorm_fl_run F V lb ub s Hsz Hb Hs (amap Fin X) (fun i j => X.[i, j]) M HX) as (Y & Y1 & Y2 & Y3).
  { intros i j Hi Hj. destruct (Hx i j Hi Hj) as (A & B). split; [reflexivity|]. split; [exact A|exact B]. }
  exists Y, (fun i j => unn F (flat lb j) (flat ub j) (X.[i, j])).
  split; [exact Y1|]. split; [now rewrite Y2|]. intros i j Hi Hj. cbv zeta.
  destruct (Hb j Hj) as (A & B & C & D & E). destruct (Hx i j Hi Hj) as (G & Hr).
  split; [now apply Y3|]. split; [now apply rnd_fmt|]. split; [now apply unn_range|].
  split; [intros ->; now apply unn_m1|]. split; [|split].
  - intros Z. assert (T : unn F (flat lb j) (flat ub j) 1 = flat ub j).
    { destruct Z; [now apply unn_zero|now apply unn_sym]. }
    split; [|intros ->; exact T]. rewrite <- T at 2. apply unn_mono; auto. lra.
  - intros k Hk L. now apply unn_mono.
  - now apply unn_err.
Qed.
Print Assumptions C100_unnormalize.

(** Unnormalizing and normalizing again: the error grows with the ratio of the
    bounds' magnitude to the width. *)
Theorem C100_round_trip : forall F (lb ub X : nd R) M s, valid F ->
  size ub = size lb -> shape X = [M; size lb] ->
  (forall j, (j < size lb)%nat -> box F (flat lb j) (flat ub j)) ->
  (forall i j, (i < M)%nat -> (j < size lb)%nat -> fmt F (X.[i, j]) /\ -1 <= X.[i, j] <= 1) ->
  bounded_init (amap Fin lb) (amap Fin ub) = Ok s ->
  exists Y Z (z : nat -> nat -> R),
    bounded_unnormalize_fl F s (amap Fin X) = Ok Y /\ bounded_normalize_fl F s Y = Ok Z /\ shape Z = shape X /\
    forall i j, (i < M)%nat -> (j < size lb)%nat ->
      let b := flat ub j - flat lb j in
      Z.[i, j] = Fin (z i j) /\
      Rabs (z i j - X.[i, j]) <=
        ulp1 F * (20 + 2 * (Rmax (Rabs (flat lb j)) (Rabs (flat ub j)) / b)) + eta F + 4 * (eta F / b).
Proof.
  intros F lb ub X M s V Hsz HX Hb Hx Hs.
  destruct (unnorm_fl_run F V lb ub s Hsz Hb Hs (amap Fin X) (fun i j => X.[i, j]) M HX) as (Y & Y1 & Y2 & Y3).
  { intros i j Hi Hj. destruct (Hx i j Hi Hj) as (A & B). split; [reflexivity|]. split; [exact A|exact B]. }
  destruct (norm_fl_run F V lb ub s Hsz Hb Hs Y (fun i j => unn F (flat lb j) (flat ub j) (X.[i, j])) M Y2) as (Z & Z1 & Z2 & Z3).
  { intros i j Hi Hj. destruct (Hb j Hj) as (A & B & C & D & E). destruct (Hx i j Hi Hj) as (G & Hr).
    split; [now apply Y3|]. split; [now apply rnd_fmt|]. now apply unn_range. }
  exists Y, Z, (fun i j => nrm F (flat lb j) (flat ub j) (unn F (flat lb j) (flat ub j) (X.[i, j]))).
  split; [exact Y1|]. split; [exact Z1|]. split; [now rewrite Z2|]. intros i j Hi Hj. cbv zeta.
  destruct (Hb j Hj) as (A & B & C & D & E). destruct (Hx i j Hi Hj) as (G & Hr).
  split; [now apply Z3|]. now apply round_trip_err.
Qed.
Print Assumptions C100_round_trip.

Lemma rnd_eval : forall F x e k, bpow e <= Rabs x < bpow (e + 1) -> (f_emin F <= e - f_prec F + 1)%Z ->
  near (x / bpow (e - f_prec F + 1)) = k -> rnd F x = IZR k * bpow (e - f_prec F + 1).
Proof.
  intros F x e k H He Hk. unfold rnd. assert (C : cexp F x = (e - f_prec F + 1)%Z).
  { unfold cexp. rewrite (mag_unique x e H). lia. }
  rewrite C, Hk. reflexivity.
Qed.
Lemma fmt_by : forall F n e x, x = IZR n * bpow e -> (Z.abs n <=? 2 ^ f_prec F)%Z = true -> (f_emin F <=? e)%Z = true -> fmt F x.
Proof. intros F n e x E H1 H2. exists n, e. split; auto. split; now apply Z.leb_le. Qed.

Lemma b54 : bpow (-52) = 4 * bpow (-54).
Proof. replace (-52)%Z with (-54 + 1 + 1)%Z by lia. rewrite !bpow_S. ring. Qed.
Lemma b0_52 : 1 = IZR (2 ^ 52) * bpow (-52).
Proof. rewrite <- bpow_IZR by lia. rewrite <- bpow_add. reflexivity. Qed.

(** The upper bound is not respected: with lb = -1 and ub = 3*2^-54 in
    binary64, the point 1 is unnormalized to 2^-52 > ub. *)
Theorem C100_unnormalize_within_bounds_refuted : exists lb ub X : nd R,
  size lb = 1%nat /\ size ub = 1%nat /\ shape X = [1%nat; 1%nat] /\
  box binary64 (flat lb 0) (flat ub 0) /\ fmt binary64 (X.[0%nat, 0%nat]) /\ X.[0%nat, 0%nat] = 1 /\
  exists s Y y, bounded_init (amap Fin lb) (amap Fin ub) = Ok s /\
    bounded_unnormalize_fl binary64 s (amap Fin X) = Ok Y /\ Y.[0%nat, 0%nat] = Fin y /\ flat ub 0 < y.
Proof.
  set (l := -1). set (u := 3 * bpow (-54)).
  assert (V := valid64). assert (P := bpow_pos (-54)).
  assert (P1 : bpow (-54) < / 16).
  { apply Rlt_le_trans with (bpow (-4)); [apply bpow_lt; lia|]. unfold bpow. simpl. lra. }
  assert (Fl : fmt binary64 l) by (apply (fmt_by _ (-1) 0); [unfold l; rewrite bpow_0; lra|reflexivity|reflexivity]).
  assert (Fu : fmt binary64 u) by (apply (fmt_by _ 3 (-54)); [reflexivity|reflexivity|reflexivity]).
  assert (T : 1 <= bpow 1021) by (rewrite <- bpow_0; apply bpow_le; lia).
  assert (B : box binary64 l u).
  { split; [exact Fl|]. split; [exact Fu|]. split; [unfold l, u; lra|]. change (f_emax binary64 - 3)%Z with 1021%Z.
    split; unfold l, u; dabs; lra. }
  exists (vec_of [l]), (vec_of [u]), (mat_of [[1]]).
  split; [reflexivity|]. split; [reflexivity|]. split; [reflexivity|].
  split; [exact B|]. split; [apply fmt_1; auto|]. split; [reflexivity|].
  destruct (bounded_init_ok (vec_of [l]) (vec_of [u]) eq_refl) as (s & Es & _).
  destruct (unnorm_fl_run binary64 V (vec_of [l]) (vec_of [u]) s eq_refl) with (X := amap Fin (mat_of [[1]])) (x := fun _ _ : nat => 1) (M := 1%nat)
    as (Y & Y1 & _ & Y3).
  - intros j Hj. change (j < 1)%nat in Hj. destruct j; [exact B|lia].
  - exact Es.
  - reflexivity.
  - intros i j Hi Hj. change (j < 1)%nat in Hj. destruct i; [|lia]. destruct j; [|lia].
    split; [reflexivity|]. split; [apply fmt_1; auto|lra].
  - exists s, Y, (unn binary64 l u 1). split; [exact Es|]. split; [exact Y1|].
    split; [apply (Y3 0%nat 0%nat); apply Nat.lt_0_1|].
    change (flat (vec_of [u]) 0) with u.
    destruct B as (_ & _ & C & _). rewrite unn_1 by auto.
    assert (W : rnd binary64 (u - l) = IZR (2 ^ 52 + 1) * bpow (-52)).
    { change (-52)%Z with (0 - f_prec binary64 + 1)%Z. apply (rnd_eval binary64 (u - l) 0).
      - rewrite Rabs_pos_eq by (unfold l, u; lra). rewrite bpow_0, bpow_S, bpow_0. unfold l, u. lra.
      - simpl. lia.
      - change (0 - f_prec binary64 + 1)%Z with (-52)%Z. apply near_lt.
        assert (Q : (u - l) / bpow (-52) = IZR (2 ^ 52) + 3 / 4).
        { apply Rmult_eq_reg_r with (bpow (-52)); [|apply bpow_neq]. unfold Rdiv. rewrite Rmult_assoc, Rinv_l, Rmult_1_r by apply bpow_neq.
          rewrite Rmult_plus_distr_r, <- b0_52, b54. unfold l, u. lra. }
        rewrite Q, plus_IZR. generalize (IZR (2 ^ 52)). intros r. dabs; lra. }
    rewrite W, plus_IZR, Rmult_plus_distr_r, <- b0_52. unfold l.
    replace (1 + 1 * bpow (-52) + -1) with (bpow (-52)) by ring.
    rewrite (fmt_fix binary64 V) by (apply fmt_pow; auto; simpl; lia).
    rewrite b54. unfold u. lra.
Qed.
Print Assumptions C100_unnormalize_within_bounds_refuted.

(** Nor are wide bounds: with lb = -2^1022 and ub = 2^1022 the point ub is
    normalized to infinity. *)
Theorem C100_wide_bounds_refuted : exists lb ub : nd R,
  size lb = 1%nat /\ size ub = 1%nat /\ fmt binary64 (flat lb 0) /\ fmt binary64 (flat ub 0) /\
  flat lb 0 < flat ub 0 < bpow 1024 /\
  exists s Y, bounded_init (amap Fin lb) (amap Fin ub) = Ok s /\
    bounded_normalize_fl binary64 s (amap Fin (mk2 1 1 (fun _ _ => flat ub 0))) = Ok Y /\ Y.[0%nat, 0%nat] = PInf.
Proof.
  assert (V := valid64). set (u := bpow 1022). assert (P : 0 < u) by apply bpow_pos.
  assert (E3 : bpow 1023 = 2 * u) by (apply (bpow_S 1022)).
  assert (E4 : bpow 1024 = 4 * u).
  { change 1024%Z with (1023 + 1)%Z. rewrite bpow_S, E3. ring. }
  assert (Fu : fmt binary64 u) by (apply fmt_pow; auto; simpl; lia).
  assert (Fl : fmt binary64 (- u)) by (apply fmt_opp; auto).
  exists (vec_of [- u]), (vec_of [u]).
  split; [reflexivity|]. split; [reflexivity|]. split; [exact Fl|]. split; [exact Fu|].
  change (flat (vec_of [u]) 0) with u. change (flat (vec_of [- u]) 0) with (- u).
  split; [rewrite E4; lra|].
  destruct (bounded_init_ok (vec_of [- u]) (vec_of [u]) eq_refl) as (s & Es & S1 & S2 & S3).
  destruct (bounded_normalize_fl_ok binary64 s 1 (fun _ => - u) (fun _ => u) S1 S2) with (X := amap Fin (mk2 1 1 (fun _ _ => u))) (M := 1%nat)
    as (Y & Y1 & _ & Y3).
  - intros j Hj. destruct j; [|lia]. apply (S3 0%nat). apply Nat.lt_0_1.
  - intros j Hj. destruct j; [|lia]. apply (S3 0%nat). apply Nat.lt_0_1.
  - reflexivity.
  - exists s, Y. split; [exact Es|]. split; [exact Y1|]. rewrite (Y3 0%nat 0%nat) by lia.
    change ((amap Fin (mk2 1 1 (fun _ _ => u))).[0%nat, 0%nat]) with (Fin u).
    assert (D : fsub binary64 (Fin u) (Fin (- u)) = Fin (2 * u)).
    { unfold fsub. cbn [xsub xneg xadd]. replace (u + - - u) with (2 * u) by ring.
      rewrite fl_fin; rewrite rnd_double by auto; [reflexivity|].
      change (f_emax binary64) with 1024%Z. rewrite E4, Rabs_pos_eq by lra. lra. }
    rewrite D. unfold fmul at 1. cbn [xmul].
    assert (I4 : fl binary64 (Fin (2 * (2 * u))) = PInf).
    { unfold fl. rewrite rnd_double by (auto; apply fmt_double; auto). change (f_emax binary64) with 1024%Z.
      rewrite E4. destruct (Rlt_dec _ _) as [b|b]; [exfalso; rewrite Rabs_pos_eq in b; lra|].
      unfold xsgninf. destruct (Rlt_dec 0 (2 * (2 * u))); [reflexivity|lra]. }
    rewrite I4. unfold fdiv. cbn [xdiv]. destruct (Rlt_dec (2 * u) 0); [lra|]. reflexivity.
Qed.
Print Assumptions C100_wide_bounds_refuted.

(** The active variable of a point, whatever the order in which the library
    adds the products (with or without fused multiply-add). *)
Theorem C100_active_variable_error : forall F t (X W1 : nd R) m, valid F -> Permutation (dleaves t) (seq 0 m) ->
  shape (active_fl F t X W1) = [nrows X; 1%nat] /\ forall i,
  let g := (1 + ulp1 F) ^ ddepth t in
  Rabs ((active_fl F t X W1).[i, 0%nat] - sumf m (fun k => X.[i, k] * W1.[k, 0%nat])) <=
    (g - 1) * sumf m (fun k => Rabs (X.[i, k] * W1.[k, 0%nat])) + g * INR m * eta F.
Proof.
  intros F t X W1 m V Hp. split; [reflexivity|]. intros i. cbv zeta. unfold active_fl. rewrite at_mk2.
  generalize (dfl_err F V t (fun k => X.[i, k]) (fun k => W1.[k, 0%nat])). cbv zeta.
  rewrite !(sumr_perm_seq _ _ _ Hp), (Permutation_length Hp), seq_length. auto.
Qed.
Print Assumptions C100_active_variable_error.

(** Rounding does not carry a point of the cube past the computed endpoints, if
    both are added up in the same order; the corner reaches them. *)
Theorem C100_endpoints : forall F t (X W1 : nd R) m, valid F -> Permutation (dleaves t) (seq 0 m) ->
  let '(a, b) := endpoints_fl F t W1 in
  a = - b /\ 0 <= b /\
  (forall i, (forall k, (k < m)%nat -> -1 <= X.[i, k] <= 1) -> a <= (active_fl F t X W1).[i, 0%nat] <= b) /\
  (forall i, (forall k, X.[i, k] = np_sign (W1.[k, 0%nat])) -> (active_fl F t X W1).[i, 0%nat] = b) /\
  Rabs (b - sumf m (fun k => Rabs (W1.[k, 0%nat]))) <=
    ((1 + ulp1 F) ^ ddepth t - 1) * sumf m (fun k => Rabs (W1.[k, 0%nat])) + (1 + ulp1 F) ^ ddepth t * INR m * eta F.
Proof.
  intros F t X W1 m V Hp.
  set (wf := fun k => W1.[k, 0%nat]). set (y0 := dfl F t wf (fun k => np_sign (wf k))).
  assert (Y0 : 0 <= y0).
  { apply Rle_trans with (Rabs (dfl F t (fun _ => 0) wf)); [apply Rabs_pos|].
    apply dfl_corner; auto. intros. rewrite Rabs_R0. lra. }
  assert (E : endpoints_fl F t W1 = (- y0, y0)).
  { unfold endpoints_fl. fold wf. change (fun k => np_sign (W1.[k, 0%nat])) with (fun k => np_sign (wf k)).
    fold y0. destruct (Rlt_dec y0 (- y0)); [lra|reflexivity]. }
  rewrite E. split; [reflexivity|]. split; [exact Y0|]. split; [|split].
  - intros i Hi. unfold active_fl. rewrite at_mk2.
    assert (K : Rabs (dfl F t (fun k => X.[i, k]) wf) <= y0).
    { apply dfl_corner; auto. intros k Hk. apply (Permutation_in k Hp) in Hk. apply in_seq in Hk.
      specialize (Hi k ltac:(lia)). apply Rabs_le. lra. }
    fold wf. dabs; lra.
  - intros i Hi. unfold active_fl. rewrite at_mk2. fold wf. unfold y0. rewrite dfl_comm.
    assert (Ex : forall t x x', (forall k, x k = x' k) -> dfl F t wf x = dfl F t wf x').
    { intros t0 x x' H. induction t0; simpl; rewrite ?IHt0, ?IHt0_1, ?IHt0_2, ?H; reflexivity. }
    apply Ex. exact Hi.
  - generalize (dfl_err F V t wf (fun k => np_sign (wf k))). cbv zeta.
    rewrite !(sumr_perm_seq _ _ _ Hp), (Permutation_length Hp), seq_length. fold y0.
    rewrite (sumf_ext m (fun i => wf i * np_sign (wf i)) (fun i => Rabs (wf i))) by (intros; apply np_sign_abs).
    rewrite (sumf_ext m (fun i => Rabs (wf i * np_sign (wf i))) (fun i => Rabs (wf i))) by (intros; rewrite np_sign_abs; apply Rabs_Rabsolu).
    auto.
Qed.
Print Assumptions C100_endpoints.

(** In two different orders it can: a corner of the cube lies outside the
    computed interval, so np.histogram drops it. *)
Theorem C100_endpoints_any_order_refuted : exists t t' (X W1 : nd R),
  Permutation (dleaves t) (seq 0 3) /\ Permutation (dleaves t') (seq 0 3) /\
  shape W1 = [3%nat; 1%nat] /\ shape X = [1%nat; 3%nat] /\
  (forall k, (k < 3)%nat -> X.[0%nat, k] = 1 /\ fmt binary64 (W1.[k, 0%nat])) /\
  snd (endpoints_fl binary64 t W1) < (active_fl binary64 t' X W1).[0%nat, 0%nat].
Proof.
  assert (V := valid64). set (e := bpow (-53)). assert (P : 0 < e) by apply bpow_pos.
  assert (E2 : bpow (-52) = 2 * e) by (apply (bpow_S (-53))).
  assert (e1 : e < / 16).
  { apply Rlt_le_trans with (bpow (-4)); [apply bpow_lt; lia|]. unfold bpow. simpl. lra. }
  assert (Fe : fmt binary64 e) by (apply fmt_pow; auto; simpl; lia). clearbody e.
  exists (Add (Add (Prod 0) (Prod 1)) (Prod 2)), (Add (Prod 0) (Add (Prod 1) (Prod 2))), (mat_of [[1; 1; 1]]), (mat_of [[1]; [e]; [e]]).
  split; [reflexivity|]. split; [reflexivity|]. split; [reflexivity|]. split; [reflexivity|]. split.
  - intros [|[|[|k]]] Hk; try lia; split; try reflexivity; simpl; auto. apply fmt_1; auto.
  - assert (Sg : forall x, 0 < x -> np_sign x = 1) by (intros x Hx; unfold np_sign; destruct (Rlt_dec 0 x); lra).
    assert (R1 := rnd_1 binary64 V). assert (Re := fmt_fix binary64 V e Fe).
    assert (T : rnd binary64 (1 + e) = 1).
    { rewrite (rnd_eval binary64 (1 + e) 0 (2 ^ 52)).
      - change (0 - f_prec binary64 + 1)%Z with (-52)%Z. symmetry. exact b0_52.
      - rewrite Rabs_pos_eq by lra. rewrite bpow_0, bpow_S, bpow_0. lra.
      - simpl. lia.
      - change (0 - f_prec binary64 + 1)%Z with (-52)%Z.
        assert (Q : (1 + e) / bpow (-52) = IZR (2 ^ 52) + / 2).
        { apply Rmult_eq_reg_r with (bpow (-52)); [|apply bpow_neq]. unfold Rdiv. rewrite Rmult_assoc, Rinv_l, Rmult_1_r by apply bpow_neq.
          rewrite Rmult_plus_distr_r, <- b0_52, E2. lra. }
        rewrite Q, near_tie. reflexivity. }
    assert (T2 : rnd binary64 (e + e) = 2 * e) by (replace (e + e) with (2 * e) by ring; apply rnd_double; auto).
    assert (T3 : rnd binary64 (1 + 2 * e) = 1 + 2 * e).
    { apply fmt_fix; auto. apply (fmt_by _ (2 ^ 52 + 1) (-52)); [|reflexivity|reflexivity].
      rewrite plus_IZR, Rmult_plus_distr_r, <- b0_52, E2. ring. }
    unfold active_fl. rewrite at_mk2. unfold endpoints_fl. cbn -[rnd np_sign binary64 Rlt_dec].
    rewrite !Sg by lra. rewrite !Rmult_1_r, !Rmult_1_l, R1, Re, !T.
    destruct (Rlt_dec 1 (- (1))); [lra|]. cbn [snd].
    rewrite T2, T3. lra.
Qed.
Print Assumptions C100_endpoints_any_order_refuted.

Lemma select_length : forall f ind i, List.length f = List.length ind ->
  List.length (select f ind i) = count_occ Nat.eq_dec ind i.
Proof.
  intros f ind i. unfold select. rewrite map_length. revert ind.
  induction f as [|y f IH]; intros [|k ind] Hl; try discriminate; [reflexivity|].
  simpl. simpl in Hl. injection Hl as Hl. destruct (Nat.eqb_spec k i) as [->|ne].
  - destruct (Nat.eq_dec i i); [|contradiction]. simpl. f_equal. now apply IH.
  - destruct (Nat.eq_dec k i); [contradiction|]. now apply IH.
Qed.

(** Conditional means: an error of a few rounding units of the mean magnitude;
    conditional variances never negative; NaN exactly for empty groups. *)
Theorem C100_conditional_expectations : forall F ord f ind, valid F -> adds_all ord ->
  ind <> [] -> List.length f = List.length ind -> (forall x, In x f -> fmt F x) ->
  exists Ef Vf, conditional_expectations_fl F ord f ind = Ok (Ef, Vf) /\
  List.length Ef = S (list_max ind) /\ List.length Vf = S (list_max ind) /\
  forall i, (i <= list_max ind)%nat ->
    (~ In i ind -> nth i Ef (Fin 0) = NaN /\ nth i Vf (Fin 0) = NaN) /\
    (In i ind -> exists e v d, nth i Ef NaN = Fin e /\ nth i Vf NaN = Fin v /\ 0 <= v /\
       d = S (sdepth (ord (count_occ Nat.eq_dec ind i))) /\
       Rabs (e - grp_mean f ind i) <= ((1 + ulp1 F) ^ d - 1) * grp_mean (map Rabs f) ind i + eta F).
Proof.
  intros F ord f ind V Ho Hi Hl Hf. unfold conditional_expectations_fl.
  destruct ind as [|a ind']; [contradiction|]. set (ind := a :: ind') in *.
  change (np_amax_nat ind) with (Ok (list_max ind)). cbn [rbind].
  rewrite Hl, Nat.eqb_refl. cbn [negb].
  eexists _, _. split; [reflexivity|]. rewrite !map_length, !seq_length. split; [reflexivity|]. split; [reflexivity|].
  assert (N : forall (g : nat -> xr) k d, (k <= list_max ind)%nat -> nth k (map g (seq 0 (S (list_max ind)))) d = g k).
  { intros g k d Hk. rewrite (nth_indep _ d (g 0%nat)) by (rewrite map_length, seq_length; lia).
    rewrite map_nth, seq_nth by lia. reflexivity. }
  intros i Hk. rewrite !N by auto. split.
  - intros H. apply (select_nil f ind i Hl) in H. rewrite H. auto.
  - intros H. assert (Hn : select f ind i <> []) by (intros E; apply (select_nil f ind i Hl) in E; contradiction).
    exists (mean_fl F ord (select f ind i)), (var_fl F ord (select f ind i)), (S (sdepth (ord (count_occ Nat.eq_dec ind i)))).
    destruct (select f ind i) as [|x0 l0] eqn:E; [contradiction|]. rewrite <- E in *.
    split; [reflexivity|]. split; [reflexivity|]. split; [apply var_nonneg; auto|]. split; [reflexivity|].
    assert (Fs : forall x, In x (select f ind i) -> fmt F x).
    { intros x Hx. apply Hf. unfold select in Hx. apply in_map_iff in Hx. destruct Hx as ((y & k) & <- & Hp).
      apply filter_In in Hp. destruct Hp as [Hp _]. now apply in_combine_l in Hp. }
    assert (C : List.length (select f ind i) = count_occ Nat.eq_dec ind i).
    { now apply select_length. }
    generalize (mean_err F V ord (select f ind i) Ho Hn Fs). cbv zeta.
    rewrite (select_sum f ind i Hl). rewrite C.
    assert (A : sumr (map Rabs (select f ind i)) = grp_sum (map Rabs f) ind i).
    { unfold grp_sum. rewrite (sumr_select Rabs f ind i Hl), <- Hl. apply sumf_ext. intros k Hk'.
      destruct (Nat.eqb _ _); [|reflexivity].
      rewrite (nth_indep (map Rabs f) 0 (Rabs 0)) by (rewrite map_length; exact Hk'). now rewrite map_nth. }
    rewrite A. rewrite <- C, (select_count f ind i Hl). auto.
Qed.
Print Assumptions C100_conditional_expectations.

(** Three equal values (the double nearest to 1/10): the computed mean is not
    the value and the computed variance is not zero. *)
Theorem C100_constant_refuted : exists v ord, fmt binary64 v /\ adds_all ord /\
  exists e d, conditional_expectations_fl binary64 ord [v; v; v] [0%nat; 0%nat; 0%nat] = Ok ([Fin e], [Fin d]) /\
    v < e /\ 0 < d.
Proof.
  assert (V := valid64). set (c := bpow (-56)). assert (P : 0 < c) by apply bpow_pos.
  set (n := 7205759403792794%Z). set (v := IZR n * c).
  set (ord := fix ord (k : nat) : stree := match k with O | S O => Leaf 0 | S k' => Node (ord k') (Leaf k') end).
  assert (Fv : fmt binary64 v) by (apply (fmt_by _ n (-56)); reflexivity).
  exists v, ord. split; [exact Fv|]. split.
  { intros k Hk. assert (E : sleaves (ord k) = seq 0 k); [|rewrite E; reflexivity].
    induction k as [|[|k] IH]; [lia|reflexivity|].
    change (sleaves (ord (S (S k)))) with (sleaves (ord (S k)) ++ [S k]). rewrite IH by lia. now rewrite (seq_S (S k)). }
  assert (E54 : bpow (-54) = 4 * c) by (replace (-54)%Z with (-56 + 1 + 1)%Z by lia; rewrite !bpow_S; unfold c; ring).
  assert (W : forall a b : Z, (a < b)%Z -> IZR a * c < IZR b * c) by (intros; apply Rmult_lt_compat_r; auto; now apply IZR_lt).
  assert (Bp : forall k, (0 <= k)%Z -> bpow (-56 + k) = IZR (2 ^ k) * c).
  { intros k Hk. rewrite bpow_add, <- bpow_IZR by auto. unfold c. ring. }
  assert (R2 : rnd binary64 (v + v) = 2 * v) by (replace (v + v) with (2 * v) by ring; apply rnd_double; auto).
  assert (R3 : rnd binary64 (2 * v + v) = IZR 5404319552844596 * bpow (-54)).
  { change (-54)%Z with (-2 - f_prec binary64 + 1)%Z.
    assert (E3 : 2 * v + v = IZR (3 * n) * c) by (unfold v; rewrite mult_IZR; ring).
    apply rnd_eval.
    - rewrite E3. rewrite Rabs_pos_eq by (apply Rmult_le_pos; [apply IZR_le; unfold n; lia|lra]).
      change (-2)%Z with (-56 + 54)%Z. change (-56 + 54 + 1)%Z with (-56 + 55)%Z. rewrite !Bp by lia.
      split; [left|]; apply W; reflexivity.
    - simpl. lia.
    - change (-2 - f_prec binary64 + 1)%Z with (-54)%Z. rewrite E3, E54.
      replace (IZR (3 * n) * c / (4 * c)) with (IZR 5404319552844595 + / 2).
      + rewrite near_tie. reflexivity.
      + unfold n. simpl Z.mul. field. lra. }
  assert (M : mean_fl binary64 ord [v; v; v] = IZR (n + 1) * c).
  { unfold mean_fl. simpl List.length. simpl sfl. rewrite R2, R3. simpl INR.
    change c with (bpow (-4 - f_prec binary64 + 1)).
    apply (rnd_eval binary64 _ (-4)).
    - rewrite E54. replace (IZR 5404319552844596 * (4 * c) / (1 + 1 + 1)) with (IZR 7205759403792794 * c + 2 / 3 * c) by (simpl; field).
      assert (Q : 0 < IZR 7205759403792794 * c) by (replace 0 with (IZR 0 * c) by ring; apply W; reflexivity).
      rewrite Rabs_pos_eq by lra.
      change (-4)%Z with (-56 + 52)%Z. change (-56 + 52 + 1)%Z with (-56 + 53)%Z. rewrite !Bp by lia.
      split.
      + left. apply Rlt_trans with (IZR 7205759403792794 * c); [apply W; reflexivity|lra].
      + apply Rlt_trans with (IZR 7205759403792795 * c); [|apply W; reflexivity].
        replace 7205759403792795%Z with (7205759403792794 + 1)%Z by reflexivity. rewrite plus_IZR. lra.
    - simpl. lia.
    - change (-4 - f_prec binary64 + 1)%Z with (-56)%Z. fold c. rewrite E54.
      replace (IZR 5404319552844596 * (4 * c) / (1 + 1 + 1) / c) with (IZR 7205759403792794 + 2 / 3) by (field; lra).
      apply near_lt. unfold n. rewrite plus_IZR. generalize (IZR 7205759403792794). intros r. dabs; lra. }
  assert (Fp : forall k, (-1074 <= k)%Z -> fmt binary64 (bpow k)) by (intros; apply fmt_pow; auto).
  assert (Fd : rnd binary64 (v - IZR (n + 1) * c) = - c).
  { unfold v. rewrite plus_IZR. replace (IZR n * c - (IZR n + 1) * c) with (- c) by ring.
    apply fmt_fix; auto. apply fmt_opp; auto. apply Fp. lia. }
  assert (cc : c * c = bpow (-112)) by (unfold c; rewrite <- bpow_add; reflexivity).
  assert (Fq : fmt binary64 (c * c)) by (rewrite cc; apply Fp; lia).
  assert (D : var_fl binary64 ord [v; v; v] = c * c).
  { unfold var_fl. rewrite M. cbn [map]. rewrite Fd. replace (- c * - c) with (c * c) by ring.
    rewrite (fmt_fix binary64 V _ Fq). unfold mean_fl. simpl List.length. simpl sfl. simpl INR.
    replace (c * c + c * c) with (2 * (c * c)) by ring. rewrite (rnd_double binary64 V _ Fq).
    rewrite (fmt_fix binary64 V (2 * (c * c) + c * c)).
    - replace ((2 * (c * c) + c * c) / (1 + 1 + 1)) with (c * c) by field. now apply fmt_fix.
    - apply (fmt_by _ 3 (-112)); [rewrite cc; ring|reflexivity|reflexivity]. }
  exists (IZR (n + 1) * c), (c * c). split; [|split].
  - rewrite <- M, <- D. reflexivity.
  - unfold v. apply W. lia.
  - nra.
Qed.
Print Assumptions C100_constant_refuted.

(** a box, a sample and an order of addition meeting the hypotheses in binary64 *)
Example C100_case : let lb := vec_of [0; -2] in let ub := vec_of [1; 4] in let X := mat_of [[1; 0]; [/ 2; -1]] in
  valid binary64 /\ valid binary32 /\ size ub = size lb /\ shape X = [2%nat; size lb] /\
  (forall j, (j < size lb)%nat -> box binary64 (flat lb j) (flat ub j)) /\
  (forall i j, (i < 2)%nat -> (j < size lb)%nat -> fmt binary64 (X.[i, j]) /\ -1 <= X.[i, j] <= 1 /\ flat lb j <= X.[i, j] <= flat ub j) /\
  Permutation (dleaves (Fma (Prod 1) 0)) (seq 0 2) /\
  adds_all (fix ord (k : nat) : stree := match k with O | S O => Leaf 0 | S k' => Node (ord k') (Leaf k') end).
Proof.
  cbv zeta. split; [exact valid64|]. split; [exact valid32|]. split; [reflexivity|]. split; [reflexivity|].
  assert (T : 4 <= bpow 1021).
  { apply Rle_trans with (bpow 2); [unfold bpow; simpl; lra|apply bpow_le; lia]. }
  assert (K : forall z, (Z.abs z <= 100)%Z -> fmt binary64 (IZR z)).
  { intros z Hz. exists z, 0%Z. split; [rewrite bpow_0; ring|]. split; [|simpl; lia].
    apply Z.le_trans with 100%Z; auto. compute. discriminate. }
  split; [|split; [|split]].
  - intros j Hj. change (j < 2)%nat in Hj. unfold box. change (f_emax binary64 - 3)%Z with 1021%Z.
    destruct j as [|[|j]]; [..|lia]; cbn [flat vec_of].
    + change (flat (vec_of [0; -2]) 0) with 0. change (flat (vec_of [1; 4]) 0) with 1.
      split; [apply (K 0%Z); lia|]. split; [apply (K 1%Z); lia|]. dabs; lra.
    + change (flat (vec_of [0; -2]) 1) with (-2). change (flat (vec_of [1; 4]) 1) with 4.
      split; [apply (K (-2)%Z); lia|]. split; [apply (K 4%Z); lia|]. dabs; lra.
  - assert (Fh : fmt binary64 (/ 2)).
    { exists 1%Z, (-1)%Z. split; [unfold bpow; simpl; lra|]. split; simpl; lia. }
    intros i j Hi Hj. change (j < 2)%nat in Hj.
    destruct i as [|[|i]]; [..|lia]; (destruct j as [|[|j]]; [..|lia]);
      change (flat (vec_of [0; -2]) 0) with 0; change (flat (vec_of [1; 4]) 0) with 1;
      change (flat (vec_of [0; -2]) 1) with (-2); change (flat (vec_of [1; 4]) 1) with 4; cbn -[binary64]; (split; [|lra]).
    + apply (K 1%Z); lia.
    + apply (K 0%Z); lia.
    + exact Fh.
    + apply (K (-1)%Z); lia.
  - simpl. constructor.
    all: apply perm_swap || auto.
  - intros k Hk.
    set (ord := fix ord (k : nat) : stree := match k with O | S O => Leaf 0 | S k' => Node (ord k') (Leaf k') end).
    assert (E : sleaves (ord k) = seq 0 k); [|rewrite E; reflexivity].
    induction k as [|[|k] IH]; [lia|reflexivity|].
    change (sleaves (ord (S (S k)))) with (sleaves (ord (S k)) ++ [S k]). rewrite IH by lia. now rewrite (seq_S (S k)).
Qed.
