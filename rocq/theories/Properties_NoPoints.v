(** Property C102: requests for few, no or negative numbers of points, empty
    arrays, and length-scales that do not fit. *)
From Coq Require Import String Reals Lra Lia List Arith ZArith Bool.
From Verif Require Import Prelude Py NumArr Toy M_Misc M_SimRunners M_RespSurf M_Gradients M_Subspaces M_Quadrature M_QP M_Domains M_Designs M_ASRS M_Integrals M_Plotters
  EighRef Sorting P_Misc P_SimRunners P_Integrate P_Notebooks P_Plotters Properties_Misc Properties_QP Properties_Plotters Properties_PlotErrors.
Import ListNotations.
Open Scope R_scope.

(** ** Rules and designs for unbounded domains *)
Lemma g1d_one : forall eig argsort p q, (p <= 1)%Z -> g1d eig argsort p q = Ok (mk2 1 1 (fun _ _ => 0), mk2 1 1 (fun _ _ => 1)).
Proof. intros eig argsort p q H. unfold g1d. destruct (Z.ltb_spec 1 p); [lia | reflexivity]. Qed.

Lemma steps_one : forall eig argsort p k (x w : nd R) c, (p <= 1)%Z -> shape x = [1%nat; c] -> shape w = [1%nat; 1%nat] -> w.[0%nat, 0%nat] = 1 ->
  exists x' w', fold_left (tensor_step (gh1d eig argsort)) (repeat p k) (Ok (x, w)) = Ok (x', w') /\
    shape x' = [1%nat; (c + k)%nat] /\ shape w' = [1%nat; 1%nat] /\ w'.[0%nat, 0%nat] = 1 /\
    forall j, (j < c + k)%nat -> x'.[0%nat, j] = if Nat.ltb j c then x.[0%nat, j] else 0.
Proof.
  intros eig argsort p k. induction k as [|k IH]; intros x w c Hp Sx Sw Hw.
  - exists x, w. rewrite Nat.add_0_r. cbn [repeat fold_left]. repeat (split; [assumption || reflexivity|]). intros j Hj.
    destruct (Nat.ltb_spec j c); [reflexivity | lia].
  - cbn [repeat fold_left]. unfold tensor_step at 2. unfold gh1d. rewrite g1d_one by exact Hp. cbn [rbind]. cbv zeta. cbn [nrows ncols shape mk2 nth].
    set (xL := kron x (ones2 1 1)). set (xU := kron (ones2 (nrows x) 1) _).
    assert (NR : nrows x = 1%nat) by (exact (nrows_shape2 _ x 1 c Sx)). assert (NC : ncols x = c) by (exact (ncols_shape2 _ x 1 c Sx)).
    assert (SL : shape xL = [1%nat; c]) by (unfold xL, kron; cbn; rewrite NR, NC; f_equal; f_equal; lia).
    assert (SU : shape xU = [1%nat; 1%nat]) by (unfold xU, kron; cbn; rewrite NR; reflexivity).
    destruct (hstack2 xL xU 1 c 1 SL SU) as (x1 & -> & S1 & V1). cbn [rbind].
    set (w1 := kron w _).
    assert (SW : shape w1 = [1%nat; 1%nat]) by (unfold w1, kron; cbn; rewrite (nrows_shape2 _ w 1 1 Sw), (ncols_shape2 _ w 1 1 Sw); reflexivity).
    assert (VW : w1.[0%nat, 0%nat] = 1) by (unfold w1, kron; rewrite at_mk2; cbn; rewrite Hw; ring).
    destruct (IH x1 w1 (c + 1)%nat Hp S1 SW VW) as (x' & w' & E & Sx' & Sw' & Hw' & V'). unfold gh1d in E. rewrite E.
    exists x', w'. split; [reflexivity|]. replace (c + S k)%nat with (c + 1 + k)%nat by lia. split; [exact Sx'|]. split; [exact Sw'|]. split; [exact Hw'|].
    intros j Hj. rewrite V' by exact Hj. rewrite V1. destruct (Nat.ltb_spec j (c + 1)), (Nat.ltb_spec j c); try lia; try reflexivity.
    + unfold xL, kron. rewrite at_mk2. cbn [ones2 nrows ncols shape mk2 nth]. rewrite !Nat.div_1_r. unfold ones2. rewrite at_mk2. ring.
    + unfold xU, kron. rewrite at_mk2. cbn [nrows ncols shape mk2 nth]. rewrite at_mk2. ring.
Qed.

Lemma roots_small : forall N n, (1 <= n)%nat -> (0 <= N < 2 ^ Z.of_nat n \/ n = 1%nat /\ N < 2)%Z -> exists p, (p <= 1)%Z /\ roots N n = Ok (repeat p n).
Proof.
  intros N n Hn H. destruct (Z_lt_dec N 0) as [C|C].
  - destruct H as [H|[-> H]]; [lia|]. exists N. split; [lia|]. apply roots_repeat. unfold iroot. destruct (Z.ltb_spec N 0); [reflexivity | lia].
  - destruct (Z.eq_dec N 0) as [->|C'].
    + exists 0%Z. split; [lia|]. apply roots_repeat. reflexivity.
    + exists 1%Z. split; [lia|]. apply roots_repeat. apply iroot_floor; try lia. rewrite Z.pow_1_l by lia. split; [lia|].
      destruct H as [H|[-> H]]; [exact (proj2 H) | exact H].
Qed.

(** Fewer than 2^n points in n unbounded active variables: one point, the
    origin, with all the weight. *)
Theorem C102_one_point : forall (G : gen) (U : Type) B ch eig argsort del a m n A N (w : world G U (nd R)),
  d_kind (av_domain a) = DUnbounded -> s_W1 (d_subs (av_domain a)) = Some A -> shape A = [m; n] -> (1 <= n)%nat ->
  (0 <= N < 2 ^ Z.of_nat n \/ n = 1%nat /\ N < 2)%Z ->
  exists P Q, av_quadrature_rule B ch eig argsort del a N w = (Ok (P, Q), w) /\ shape P = [1%nat; n] /\ shape Q = [1%nat; 1%nat] /\
    (forall j, (j < n)%nat -> P.[0%nat, j] = 0) /\ Q.[0%nat, 0%nat] = 1.
Proof.
  intros G U B ch eig argsort del a m n A N w K E SA Hn HN.
  destruct (roots_small N n Hn HN) as (p & Hp & HR).
  unfold av_quadrature_rule, mbind, mlift. rewrite E. cbn [need]. unfold shape2. rewrite SA, K, HR. cbn [rbind].
  unfold gauss_hermite, tensor_rule. cbn [rbind].
  destruct n as [|[|n]]; [lia| |].
  - cbn [repeat]. unfold gh1d. rewrite g1d_one by exact Hp. eexists _, _. split; [reflexivity|]. split; [reflexivity|]. split; [reflexivity|]. split; [|reflexivity].
    intros j Hj. reflexivity.
  - destruct (steps_one eig argsort p (S (S n)) (ones2 1 1) (ones2 1 1) 1 Hp eq_refl eq_refl eq_refl) as (x' & w' & E' & Sx & Sw & Hw & V).
    assert (ER : forall (T : Type) (f1 : Z -> T) (f2 : T), match repeat p (S (S n)) with [z] => f1 z | _ => f2 end = f2) by reflexivity.
    rewrite ER, E'. cbn [rbind]. eexists _, _. split; [reflexivity|].
    assert (NC : ncols x' = (1 + S (S n))%nat) by (exact (ncols_shape2 _ x' 1 _ Sx)). assert (NR : nrows x' = 1%nat) by (exact (nrows_shape2 _ x' 1 _ Sx)).
    unfold cols_slice. rewrite NC, NR. split; [cbn [shape mk2]; do 2 f_equal; lia|]. split; [exact Sw|]. split; [|exact Hw].
    intros j Hj. rewrite at_mk2, V by lia. destruct (Nat.ltb_spec (1 + j) 1); [lia | reflexivity].
Qed.
Print Assumptions C102_one_point.

(** A negative number of points in two or more unbounded active variables is
    refused, with nothing drawn and nothing evaluated. *)
Theorem C102_negative : forall (G : gen) (U : Type) B ch eig argsort del a m n A N NMC fn f (w : world G U (nd R)),
  d_kind (av_domain a) = DUnbounded -> s_W1 (d_subs (av_domain a)) = Some A -> shape A = [m; n] -> (2 <= n)%nat -> (N < 0)%Z ->
  av_quadrature_rule B ch eig argsort del a N w = (Err ValueError, w) /\
  quadrature_rule B ch eig argsort del (IsA a) (IsA N) (IsA NMC) w = (Err ValueError, w) /\
  integrate B ch eig argsort del fn (IsA a) (IsA N) (IsA NMC) w = (Err ValueError, w) /\
  av_integrate B ch eig argsort del f (IsA a) (IsA N) w = (Err ValueError, w) /\
  av_design B ch eig argsort (IsA a) (IsA N) (IsA NMC) w = (Err ValueError, w).
Proof.
  intros G U B ch eig argsort del a m n A N NMC fn f w K E SA Hn HN.
  assert (HR : roots N n = Err ValueError).
  { unfold roots. destruct n as [|n]; [lia|]. cbn [seq mapr]. unfold iroot. destruct (Z.ltb_spec N 0); [|lia]. destruct (Nat.eqb_spec (S n) 1); [lia | reflexivity]. }
  assert (Q : av_quadrature_rule B ch eig argsort del a N w = (Err ValueError, w)).
  { unfold av_quadrature_rule, mbind, mlift. rewrite E. cbn [need]. unfold shape2. rewrite SA, K, HR. reflexivity. }
  split; [exact Q|]. split; [unfold quadrature_rule, mbind; rewrite Q; reflexivity|].
  split; [unfold integrate, quadrature_rule, mbind; rewrite Q; reflexivity|]. split; [unfold av_integrate, mbind; rewrite Q; reflexivity|].
  unfold av_design, mbind, mlift. rewrite E. cbn [need]. unfold shape2. rewrite SA, K, HR. reflexivity.
Qed.
Print Assumptions C102_negative.

(** ** Intervals and zonotopes *)
(** no interior points are asked for: an empty design; nzv counts nothing when
    there are no inputs or no active variables *)
Theorem C102_empty_design :
  (forall a b N, (-2 <= N <= 0)%Z -> exists D, interval_design a b N = Ok D /\ shape D = [0%nat; 1%nat]) /\
  (forall m n, (m <= 0 \/ n <= 0)%Z -> nzv (IsA m) (IsA n) = Ok 0%Z).
Proof.
  split.
  - intros a b N HN. unfold interval_design, linspace, dimZ. destruct (Z.ltb_spec (N + 2) 0); [lia|]. cbn [rbind].
    unfold inner1, atleast_2d, size. cbn [shape mk1 prodn]. replace (Z.to_nat (N + 2) * 1 - 2)%nat with 0%nat by lia.
    eexists. split; reflexivity.
  - intros m n H. unfold nzv. f_equal.
    assert (E : fold_left (fun N i => (N + comb (m - 1) i)%nat) (seq 0 (Z.to_nat n)) 0%nat = 0%nat); [|rewrite E; reflexivity].
    destruct H as [H|H].
    + assert (Z0 : forall l, fold_left (fun N i => (N + comb (m - 1) i)%nat) l 0%nat = 0%nat); [|apply Z0].
      induction l as [|i l IH]; [reflexivity|]. cbn [fold_left]. unfold comb at 2. destruct (Z.ltb_spec (m - 1) 0); [exact IH | lia].
    + replace (Z.to_nat n) with 0%nat by lia. reflexivity.
Qed.
Print Assumptions C102_empty_design.

(** ** Empty arrays in plots *)
Lemma no_values : forall e, shape e = [0%nat; 1%nat] -> holds e 0 (fun _ => 0).
Proof. intros e H. left. split; [exact H|]. intros i Hi. inversion Hi. Qed.
(** The range of an empty array does not exist: ValueError.  The eigenvalue and
    error plots and the bivariate summary have opened figures by then, which stay
    open; the zonotope plot has not. *)
Theorem C102_empty_plots :
  (forall e lab opts w, shape e = [0%nat; 1%nat] -> exists w', eigenvalues e None lab opts w = (Err ValueError, w') /\ unfinished w w') /\
  (forall e B c lab opts w, shape e = [0%nat; 1%nat] -> shape B = [0%nat; c] -> (2 <= c)%nat ->
     exists w', eigenvalues e (Some B) lab opts w = (Err ValueError, w') /\ unfinished w w') /\
  (forall b c lab opts w, shape b = [0%nat; c] -> (3 <= c)%nat -> exists w', subspace_errors b lab opts w = (Err ValueError, w') /\ unfinished w w') /\
  (forall y f lab opts w, shape y = [0%nat; 2%nat] -> shape f = [0%nat; 1%nat] -> can_save opts w ->
     exists w' g h, sufficient_summary y f lab opts w = (Err ValueError, w') /\ p_shown w' = p_shown w /\ p_open w' = p_open w ++ [g; h] /\
       p_files w' = p_files w ++ file_if opts "ssp1_" lab g) /\
  (forall ch dl V lab opts w, shape V = [0%nat; 2%nat] ->
     zonotope_2d_plot ch dl V None None None lab opts w = (Err ValueError, snd (in_force opts w))).
Proof.
  split; [|split; [|split; [|split]]].
  - intros e lab opts w He. unfold eigenvalues. start opts. lft (dim0_holds e 0 (fun _ => 0) (no_values e He)). cbv zeta. evd. evd.
    erewrite mb by (rewrite (plot_any_holds _ e 0 (fun _ => 0)) by (exact (no_values e He) || reflexivity); apply plot_ev; reflexivity).
    rewrite (mb (mret tt) _ _ tt _ eq_refl). evd.
    rewrite (entries_col e 0 He). cbn [seq map]. erewrite mb_err by reflexivity. fin.
  - intros e B c lab opts w He HB Hc. unfold eigenvalues. start opts. lft (dim0_holds e 0 (fun _ => 0) (no_values e He)). cbv zeta. evd. evd.
    erewrite mb by (rewrite (plot_any_holds _ e 0 (fun _ => 0)) by (exact (no_values e He) || reflexivity); apply plot_ev; reflexivity).
    erewrite mb by (lft (column_ok B 0 c 0 HB ltac:(lia)); lft (column_ok B 0 c 1 HB ltac:(lia)); apply fill_ev; reflexivity). evd.
    erewrite mb_err by (lft (column_ok B 0 c 0 HB ltac:(lia)); reflexivity). fin.
  - intros b c lab opts w Hb Hc. unfold subspace_errors. start opts. assert (D0 : dim0 b = Ok 0%nat) by (unfold dim0; rewrite Hb; reflexivity). lft D0. cbv zeta. evd. evd.
    lft (column_ok b 0 c 1 Hb ltac:(lia)). evd. lft (column_ok b 0 c 0 Hb ltac:(lia)). lft (column_ok b 0 c 2 Hb ltac:(lia)). evd. evd.
    erewrite mb_err by reflexivity. fin.
  - intros y f lab opts w Hy Hf Hsave. set (ow := in_force opts w).
    assert (S1 : o_savefigs (fst ow) = true -> p_dir (snd ow) = true) by (unfold ow; destruct opts; simpl in *; auto).
    assert (S3 : forall f, (if o_savefigs (fst ow) then [(("figs/" ++ "ssp1_" ++ label lab ++ o_figtype (fst ow))%string, f)] else []) = file_if opts "ssp1_" lab f).
    { intros g. unfold ow, file_if, label, name_of. destruct opts; reflexivity. }
    assert (S2 : p_open (snd ow) = p_open w /\ p_shown (snd ow) = p_shown w /\ p_files (snd ow) = p_files w) by (unfold ow; destruct opts; simpl; auto).
    unfold sufficient_summary. erewrite by_opts by reflexivity. fold ow. destruct ow as [o [l s fs d]]. simpl fst in *. simpl snd in *. simpl in S1, S2. destruct S2 as (-> & -> & ->).
    assert (D1 : dim1 y = Ok 2%nat) by (unfold dim1; rewrite Hy; reflexivity). lft D1. rewrite (mb _ _ _ tt _ eq_refl). cbv zeta. evd. evd.
    lft (column_ok y 0 2 0 Hy ltac:(lia)).
    assert (RF : responses f = Ok []) by (unfold responses; rewrite Hf; apply (column_ok f 0 1 0 Hf); lia). lft RF. evd. evd.
    rewrite (mb _ _ _ _ _ (save_ev _ _ _ _ _ _ _ _ S1)), S3. cbn [Nat.eqb].
    erewrite mb_err. 2: { evd. evd. lft (column_ok y 0 2 1 Hy ltac:(lia)). reflexivity. }
    eexists _, _, _. split; [reflexivity|]. split; [reflexivity|]. split; [cbn [p_open]; rewrite <- app_assoc; reflexivity | reflexivity].
  - intros ch dl V lab opts w HV. unfold zonotope_2d_plot. erewrite by_opts by reflexivity. cbv beta zeta.
    assert (D1 : dim1 V = Ok 2%nat) by (unfold dim1; rewrite HV; reflexivity). lft D1. rewrite (mb _ _ _ tt _ eq_refl), (mb _ _ _ tt _ eq_refl), (mb _ _ _ tt _ eq_refl), (mb _ _ _ tt _ eq_refl).
    assert (EN : entries V = []) by (unfold entries, size; rewrite HV; reflexivity). rewrite EN. reflexivity.
Qed.
Print Assumptions C102_empty_plots.

(** ** Kernels of the radial basis *)
(** the length scales must be as many as the columns, and both point sets need
    the same number of columns *)
Theorem C102_length_scales : forall (X1 X2 : nd R) (sigma : R) (ell : nd R) M d1 n d2,
  shape X1 = [M; d1] -> shape X2 = [n; d2] -> (1 <= n)%nat -> (1 <= d1)%nat ->
  (d1 = d2 -> size ell <> d1 ->
     exponential_squared X1 X2 sigma ell = Err ValueError /\
     grad_exponential_squared X1 X2 sigma ell = Err (if Nat.eqb (size ell) 0 then IndexError else ValueError)) /\
  (d1 <> d2 -> d1 <> 1%nat -> d2 <> 1%nat ->
     exponential_squared X1 X2 sigma ell = Err ValueError /\ grad_exponential_squared X1 X2 sigma ell = Err ValueError).
Proof.
  intros X1 X2 sigma ell M d1 n d2 H1 H2 Hn Hd. unfold exponential_squared, grad_exponential_squared, shape2. rewrite H1, H2. cbn [rbind].
  assert (En : Nat.eqb n 0 = false) by (apply Nat.eqb_neq; lia). assert (Ed : Nat.eqb d1 0 = false) by (apply Nat.eqb_neq; lia).
  unfold bdim. split.
  - intros -> Hl. rewrite Nat.eqb_refl, En, Ed. cbn [negb orb andb]. assert (El : Nat.eqb d2 (size ell) = false) by (apply Nat.eqb_neq; congruence).
    rewrite El. cbn [negb]. split; [reflexivity|]. destruct (Nat.eqb (size ell) 0); reflexivity.
  - intros N0 N1 N2. rewrite (proj2 (Nat.eqb_neq d1 d2) N0), (proj2 (Nat.eqb_neq d1 1) N1), (proj2 (Nat.eqb_neq d2 1) N2), En, Ed. cbn [negb orb]. auto.
Qed.
Print Assumptions C102_length_scales.

(** Concrete case: seven points asked for in three unbounded active variables
    give the rule with one point. *)
Definition W43 : nd R := mk2 4 3 (fun i j => if Nat.eqb i j then 1 else 0).
Definition sub43 : subspaces := Subs None None (Some W43) (Some (mk2 4 1 (fun i _ => if Nat.eqb i 3 then 1 else 0))) None None.
Example C102_case : forall d, unbounded_domain (IsA sub43) = Ok d -> forall a, av_domain a = d -> forall B ch del (w : world toy_gen unit (nd R)),
  exists P Q, av_quadrature_rule B ch (fun _ => Err LinAlgError) argsort_ref del a 7 w = (Ok (P, Q), w) /\ shape P = [1%nat; 3%nat] /\ P.[0%nat, 2%nat] = 0 /\ Q.[0%nat, 0%nat] = 1.
Proof.
  intros d Hd a Ha B ch del w. unfold unbounded_domain in Hd. cbn in Hd. injection Hd as <-.
  destruct (C102_one_point toy_gen unit B ch (fun _ => Err LinAlgError) argsort_ref del a 4 3 W43 7 w) as (P & Q & E & S1 & _ & V & W); try (rewrite Ha; reflexivity).
  - reflexivity.
  - lia.
  - left. cbn. lia.
  - exists P, Q. split; [exact E|]. split; [exact S1|]. split; [apply V; lia | exact W].
Qed.
