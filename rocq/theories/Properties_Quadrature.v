(** Final theorems for utils/quadrature.py: C29 - C32 *)
From Coq Require Import String Reals Lra Lia List Arith ZArith Bool.
From Verif Require Import Prelude Py NumArr Toy LinAlg Spectral Sorting M_Misc M_RespSurf M_Quadrature P_Subspaces SpectralThm EighRef
  Tridiag Integral GaussRules P_Quadrature P_Tensor.
Import ListNotations.
Open Scope R_scope.

(** The vocabulary of the statements (GaussRules.v, P_Quadrature.v):
    [peval c] is the polynomial with coefficients c, [gaussian_mean f L] and
    [uniform_mean f L] say that L is the mean of f under the standard Gaussian
    (limit of ratios of Riemann integrals) resp. under the uniform density on
    [-1,1]; [eig_contract] is the contract of np.linalg.eig. *)

Lemma small_square : forall x B, x <> 0 -> 1 <= x * x * B -> 0 <= B -> B <= 10 ^ 24 -> / 10 ^ 12 <= Rabs x.
Proof.
  intros x B Hx H HB HB2. destruct (Rlt_le_dec (Rabs x) (/ 10 ^ 12)) as [L|L]; auto. exfalso.
  assert (P : 0 < 10 ^ 12) by (apply pow_lt; lra).
  assert (E : x * x = Rabs x * Rabs x) by (rewrite <- Rabs_mult, Rabs_right; nra).
  assert (A := Rabs_pos x). assert (Q : Rabs x * 10 ^ 12 < 1).
  { apply (Rmult_lt_compat_r (10 ^ 12)) in L; auto. rewrite Rinv_l in L by lra. auto. }
  assert (Q0 : 0 <= Rabs x * 10 ^ 12) by (apply Rmult_le_pos; lra).
  assert (Q2 : x * x * 10 ^ 24 < 1).
  { replace (10 ^ 24) with (10 ^ 12 * 10 ^ 12) by (rewrite <- pow_add; reflexivity). rewrite E.
    replace (Rabs x * Rabs x * (10 ^ 12 * 10 ^ 12)) with ((Rabs x * 10 ^ 12) * (Rabs x * 10 ^ 12)) by ring. nra. }
  assert (x * x * B <= x * x * 10 ^ 24) by (apply Rmult_le_compat_l; nra). lra.
Qed.
Lemma INR_small : forall N k, (1 <= N)%Z -> (N <= 10 ^ k)%Z -> (0 <= k)%Z -> 0 <= INR (Z.to_nat N) <= IZR (10 ^ k).
Proof.
  intros N k H H2 Hk. split; [apply pos_INR|]. rewrite INR_IZR_INZ. apply IZR_le. rewrite Z2Nat.id; lia.
Qed.

(** C29 *)
Theorem C29_gauss_hermite_rule : forall eig argsort N x w,
  eig_contract eig -> argsort_contract argsort -> (1 <= N)%Z -> gh1d eig argsort N = Ok (x, w) ->
  let n := Z.to_nat N in
  shape x = [n; 1%nat] /\ shape w = [n; 1%nat] /\
  (forall j, (j < n)%nat -> 0 < w.[j, 0%nat]) /\ sumf n (fun j => w.[j, 0%nat]) = 1 /\
  (forall i j, (i < j)%nat -> (j < n)%nat -> x.[i, 0%nat] <= x.[j, 0%nat]) /\
  (forall j, (j < n)%nat -> x.[(n - 1 - j)%nat, 0%nat] = - x.[j, 0%nat] /\ w.[(n - 1 - j)%nat, 0%nat] = w.[j, 0%nat]) /\
  exists y : nat -> R,
    (forall i j, (i < j)%nat -> (j < n)%nat -> y i < y j) /\
    (forall j, (j < n)%nat -> x.[j, 0%nat] = y j \/ (x.[j, 0%nat] = 0 /\ Rabs (y j) < / 10 ^ 12)) /\
    (forall c, (List.length c <= 2 * n)%nat -> gaussian_mean (peval c) (sumf n (fun j => w.[j, 0%nat] * peval c (y j)))) /\
    ((N <= 10 ^ 24)%Z -> forall j, (j < n)%nat -> x.[j, 0%nat] = y j).
Proof.
  intros eig argsort N x w HE HA HN H n. destruct (gh1d_rule eig argsort N x w HE HA HN H) as (y & V & TR). fold n in TR.
  split; [apply TR|]. split; [apply TR|]. split; [now apply (rule_wpos sh sh_ne n x w y V)|].
  split; [apply (rule_sum1 sh sh_ne n x w y V TR); lia|].
  split. { intros i j Hij Hj. rewrite !(tr_xj _ _ _ _ _ _ TR) by lia. apply snap_mono. left. now apply (tr_inc _ _ _ _ _ _ TR). }
  split. { intros j Hj. split; [|now apply (rule_sym_weight sh sh_ne n x w y V TR)].
    rewrite !(tr_xj _ _ _ _ _ _ TR) by lia. rewrite (rule_sym_node sh n x w y V TR) by auto.
    unfold snap. rewrite Rabs_Ropp. destruct (Rlt_dec (Rabs (y j)) (/ 10 ^ 12)); lra. }
  exists y. split; [apply TR|].
  split. { intros j Hj. rewrite (tr_xj _ _ _ _ _ _ TR) by auto. apply snap_case. }
  split. { intros c Hc. rewrite (rule_poly sh sh_ne n x w y V TR c Hc). apply hermite_mean. }
  intros HB j Hj. rewrite (tr_xj _ _ _ _ _ _ TR) by auto. apply snap_id. intros Hy.
  apply (small_square (y j) (INR n)); auto; [|apply pos_INR|].
  - apply hermite_root_bound; auto. now apply (rule_root sh sh_ne n x w y V TR).
  - destruct (INR_small N 24 HN HB ltac:(lia)) as [_ Q]. rewrite pow_IZR. exact Q.
Qed.
Print Assumptions C29_gauss_hermite_rule.

(** the statement without auxiliary nodes, for every size below 10^24 *)
Theorem C29_gauss_hermite_exact : forall eig argsort N x w,
  eig_contract eig -> argsort_contract argsort -> (1 <= N)%Z -> (N <= 10 ^ 24)%Z -> gh1d eig argsort N = Ok (x, w) ->
  let n := Z.to_nat N in
  (forall i j, (i < j)%nat -> (j < n)%nat -> x.[i, 0%nat] < x.[j, 0%nat]) /\
  (forall c, (List.length c <= 2 * n)%nat ->
     gaussian_mean (peval c) (sumf n (fun j => w.[j, 0%nat] * peval c (x.[j, 0%nat])))).
Proof.
  intros eig argsort N x w HE HA HN HB H n.
  destruct (C29_gauss_hermite_rule eig argsort N x w HE HA HN H) as (_ & _ & _ & _ & _ & _ & y & HI & _ & HG & HX).
  specialize (HX HB). fold n in HI, HG, HX. split.
  - intros i j Hij Hj. rewrite !HX by lia. now apply HI.
  - intros c Hc. rewrite (sumf_ext n _ (fun j => w.[j, 0%nat] * peval c (y j))) by (intros; now rewrite HX). now apply HG.
Qed.
Print Assumptions C29_gauss_hermite_exact.

Theorem C29_returns : forall eig argsort N, eig_contract eig -> eig_total eig -> argsort_contract argsort ->
  exists x w, gh1d eig argsort N = Ok (x, w).
Proof. intros. apply g1d_returns; auto. Qed.
Print Assumptions C29_returns.

(** the result does not depend on the eigensolver or the sorting algorithm *)
Theorem C29_solver_independent : forall eig argsort eig' argsort' N x w x' w',
  eig_contract eig -> argsort_contract argsort -> eig_contract eig' -> argsort_contract argsort' -> (1 <= N)%Z ->
  gh1d eig argsort N = Ok (x, w) -> gh1d eig' argsort' N = Ok (x', w') -> x' === x /\ w' === w.
Proof.
  intros eig argsort eig' argsort' N x w x' w' HE HA HE' HA' HN H H'.
  destruct (gh1d_rule eig argsort N x w HE HA HN H) as (y & V & TR).
  destruct (gh1d_rule eig' argsort' N x' w' HE' HA' HN H') as (y' & V' & TR').
  split; (apply (eqnd2 R (Z.to_nat N) 1); [apply TR'|apply TR|]); intros i j Hi Hj; replace j with 0%nat by lia;
    destruct (rule_unique sh sh_ne _ x w y V TR x' w' y' V' TR' i Hi) as (_ & A & B); auto.
Qed.
Print Assumptions C29_solver_independent.

(** the mean used above is unique, so the statements determine it *)
Lemma gaussian_mean_unique : forall f a b, gaussian_mean f a -> gaussian_mean f b -> a = b.
Proof.
  intros f a b Ha Hb. destruct (Req_dec a b) as [|N]; auto. exfalso.
  assert (P : 0 < Rabs (a - b) / 2) by (assert (A := Rabs_pos_lt (a - b) ltac:(lra)); lra).
  destruct (Ha _ P) as (T1 & H1). destruct (Hb _ P) as (T2 & H2).
  destruct (H1 (Rmax T1 T2) (Rmax_l _ _)) as (p1 & p2 & _ & A). destruct (H2 (Rmax T1 T2) (Rmax_r _ _)) as (q1 & q2 & _ & B).
  rewrite (RiemannInt_P5 q1 p1), (RiemannInt_P5 q2 p2) in B. set (q := RiemannInt p1 / RiemannInt p2) in *.
  assert (C := Rabs_triang (q - b) (- (q - a))). rewrite Rabs_Ropp in C. replace (q - b + - (q - a)) with (a - b) in C by ring. lra.
Qed.

(** Two nodes: -1 and 1 with weight 1/2 each, whatever the solver; so x^2 has
    Gaussian mean 1 (degree 2 <= 3). *)
Example C29_case : forall eig argsort x w, eig_contract eig -> argsort_contract argsort -> gh1d eig argsort 2 = Ok (x, w) ->
  x.[0%nat, 0%nat] = -1 /\ x.[1%nat, 0%nat] = 1 /\ w.[0%nat, 0%nat] = 1 / 2 /\ w.[1%nat, 0%nat] = 1 / 2 /\
  gaussian_mean (peval [0; 0; 1]) 1.
Proof.
  intros eig argsort x w HE HA H. destruct (gh1d_rule eig argsort 2 x w HE HA ltac:(lia) H) as (y & V & TR).
  change (Z.to_nat 2) with 2%nat in TR.
  destruct (C29_gauss_hermite_rule eig argsort 2 x w HE HA ltac:(lia) H) as (_ & _ & _ & W1 & _ & SY & _).
  destruct (C29_gauss_hermite_exact eig argsort 2 x w HE HA ltac:(lia) ltac:(lia) H) as [ST EX].
  cbv zeta in *. change (Z.to_nat 2) with 2%nat in *.
  assert (R1 := rule_root sh sh_ne 2 x w y V TR 1 ltac:(lia)).
  assert (Q : y 1%nat * y 1%nat = 1).
  { rewrite (op_SS_div sh sh_ne) in R1. rewrite (op_1_div sh sh_ne), op_0 in R1. unfold sh in R1. simpl INR in R1. rewrite sqrt_1 in R1.
    assert (S2 : 0 < sqrt (1 + 1)) by (apply sqrt_lt_R0; lra).
    apply (Rmult_eq_compat_r (sqrt (1 + 1))) in R1. unfold Rdiv in R1. rewrite Rmult_assoc, Rinv_l, Rmult_0_l in R1 by lra. lra. }
  assert (X1 : x.[1%nat, 0%nat] = y 1%nat).
  { rewrite (tr_xj _ _ _ _ _ _ TR) by lia. apply snap_id. intros _.
    apply (small_square (y 1%nat) 1); [intros E; rewrite E in Q; lra|lra|lra|apply pow_R1_Rle; lra]. }
  destruct (SY 0%nat ltac:(lia)) as [S0 S1]. simpl (2 - 1 - 0)%nat in S0, S1. specialize (ST 0%nat 1%nat ltac:(lia) ltac:(lia)).
  simpl in W1.
  assert (Y1 : x.[1%nat, 0%nat] = 1) by nra.
  repeat split; try lra.
  specialize (EX [0; 0; 1] ltac:(simpl; lia)). simpl sumf in EX.
  match type of EX with gaussian_mean _ ?v => assert (EV : v = 1) end.
  { rewrite Y1. replace (x.[0%nat, 0%nat]) with (-1) by lra. lra. }
  rewrite EV in EX. exact EX.
Qed.
Example C29_case_solvers : eig_contract eigh_ref /\ eig_total eigh_ref /\ argsort_contract argsort_ref.
Proof. split; [apply eig_ref_contract|]. split; [apply eig_ref_total|apply argsort_ref_contract]. Qed.

(** C30 *)
Theorem C30_gauss_legendre_rule : forall eig argsort N x w,
  eig_contract eig -> argsort_contract argsort -> (1 <= N)%Z -> gl1d eig argsort N = Ok (x, w) ->
  let n := Z.to_nat N in
  shape x = [n; 1%nat] /\ shape w = [n; 1%nat] /\
  (forall j, (j < n)%nat -> 0 < w.[j, 0%nat]) /\ sumf n (fun j => w.[j, 0%nat]) = 1 /\
  (forall i j, (i < j)%nat -> (j < n)%nat -> x.[i, 0%nat] <= x.[j, 0%nat]) /\
  (forall j, (j < n)%nat -> -1 < x.[j, 0%nat] < 1) /\
  (forall j, (j < n)%nat -> x.[(n - 1 - j)%nat, 0%nat] = - x.[j, 0%nat] /\ w.[(n - 1 - j)%nat, 0%nat] = w.[j, 0%nat]) /\
  exists y : nat -> R,
    (forall i j, (i < j)%nat -> (j < n)%nat -> y i < y j) /\
    (forall j, (j < n)%nat -> x.[j, 0%nat] = y j \/ (x.[j, 0%nat] = 0 /\ Rabs (y j) < / 10 ^ 12)) /\
    (forall c, (List.length c <= 2 * n)%nat -> uniform_mean (peval c) (sumf n (fun j => w.[j, 0%nat] * peval c (y j)))) /\
    ((N <= 10 ^ 12)%Z -> forall j, (j < n)%nat -> x.[j, 0%nat] = y j).
Proof.
  intros eig argsort N x w HE HA HN H n. destruct (gl1d_rule eig argsort N x w HE HA HN H) as (y & V & TR). fold n in TR.
  split; [apply TR|]. split; [apply TR|]. split; [now apply (rule_wpos sl sl_ne n x w y V)|].
  split; [apply (rule_sum1 sl sl_ne n x w y V TR); lia|].
  split. { intros i j Hij Hj. rewrite !(tr_xj _ _ _ _ _ _ TR) by lia. apply snap_mono. left. now apply (tr_inc _ _ _ _ _ _ TR). }
  split. { intros j Hj. rewrite (tr_xj _ _ _ _ _ _ TR) by auto.
    assert (A := legendre_root_range n (y j) (rule_root sl sl_ne n x w y V TR j Hj)). destruct (snap_case (y j)) as [->|[-> _]]; lra. }
  split. { intros j Hj. split; [|now apply (rule_sym_weight sl sl_ne n x w y V TR)].
    rewrite !(tr_xj _ _ _ _ _ _ TR) by lia. rewrite (rule_sym_node sl n x w y V TR) by auto.
    unfold snap. rewrite Rabs_Ropp. destruct (Rlt_dec (Rabs (y j)) (/ 10 ^ 12)); lra. }
  exists y. split; [apply TR|].
  split. { intros j Hj. rewrite (tr_xj _ _ _ _ _ _ TR) by auto. apply snap_case. }
  split. { intros c Hc. rewrite (rule_poly sl sl_ne n x w y V TR c Hc). apply legendre_mean. }
  intros HB j Hj. rewrite (tr_xj _ _ _ _ _ _ TR) by auto. apply snap_id. intros Hy.
  destruct (INR_small N 12 HN HB ltac:(lia)) as [Q0 Q]. fold n in Q0, Q. assert (QE : IZR (10 ^ 12) = 10 ^ 12) by (symmetry; apply (pow_IZR 10 12)). rewrite QE in Q.
  apply (small_square (y j) (INR n * INR n)); auto.
  - apply legendre_root_bound; auto. now apply (rule_root sl sl_ne n x w y V TR).
  - nra.
  - replace (10 ^ 24) with (10 ^ 12 * 10 ^ 12) by (rewrite <- pow_add; reflexivity). apply Rmult_le_compat; auto.
Qed.
Print Assumptions C30_gauss_legendre_rule.

Theorem C30_gauss_legendre_exact : forall eig argsort N x w,
  eig_contract eig -> argsort_contract argsort -> (1 <= N)%Z -> (N <= 10 ^ 12)%Z -> gl1d eig argsort N = Ok (x, w) ->
  let n := Z.to_nat N in
  (forall i j, (i < j)%nat -> (j < n)%nat -> x.[i, 0%nat] < x.[j, 0%nat]) /\
  (forall c, (List.length c <= 2 * n)%nat ->
     uniform_mean (peval c) (sumf n (fun j => w.[j, 0%nat] * peval c (x.[j, 0%nat])))).
Proof.
  intros eig argsort N x w HE HA HN HB H n.
  destruct (C30_gauss_legendre_rule eig argsort N x w HE HA HN H) as (_ & _ & _ & _ & _ & _ & _ & y & HI & _ & HG & HX).
  specialize (HX HB). fold n in HI, HG, HX. split.
  - intros i j Hij Hj. rewrite !HX by lia. now apply HI.
  - intros c Hc. rewrite (sumf_ext n _ (fun j => w.[j, 0%nat] * peval c (y j))) by (intros; now rewrite HX). now apply HG.
Qed.
Print Assumptions C30_gauss_legendre_exact.

Theorem C30_returns : forall eig argsort N, eig_contract eig -> eig_total eig -> argsort_contract argsort ->
  exists x w, gl1d eig argsort N = Ok (x, w).
Proof. intros. apply g1d_returns; auto. Qed.
Print Assumptions C30_returns.

Theorem C30_solver_independent : forall eig argsort eig' argsort' N x w x' w',
  eig_contract eig -> argsort_contract argsort -> eig_contract eig' -> argsort_contract argsort' -> (1 <= N)%Z ->
  gl1d eig argsort N = Ok (x, w) -> gl1d eig' argsort' N = Ok (x', w') -> x' === x /\ w' === w.
Proof.
  intros eig argsort eig' argsort' N x w x' w' HE HA HE' HA' HN H H'.
  destruct (gl1d_rule eig argsort N x w HE HA HN H) as (y & V & TR).
  destruct (gl1d_rule eig' argsort' N x' w' HE' HA' HN H') as (y' & V' & TR').
  split; (apply (eqnd2 R (Z.to_nat N) 1); [apply TR'|apply TR|]); intros i j Hi Hj; replace j with 0%nat by lia;
    destruct (rule_unique sl sl_ne _ x w y V TR x' w' y' V' TR' i Hi) as (_ & A & B); auto.
Qed.
Print Assumptions C30_solver_independent.

(** Two nodes: +-1/sqrt 3 with weight 1/2 each; so x^2 has mean 1/3. *)
Example C30_case : forall eig argsort x w, eig_contract eig -> argsort_contract argsort -> gl1d eig argsort 2 = Ok (x, w) ->
  3 * (x.[1%nat, 0%nat] * x.[1%nat, 0%nat]) = 1 /\ 0 < x.[1%nat, 0%nat] /\ x.[0%nat, 0%nat] = - x.[1%nat, 0%nat] /\
  w.[0%nat, 0%nat] = 1 / 2 /\ w.[1%nat, 0%nat] = 1 / 2 /\ uniform_mean (peval [0; 0; 1]) (1 / 3).
Proof.
  intros eig argsort x w HE HA H. destruct (gl1d_rule eig argsort 2 x w HE HA ltac:(lia) H) as (y & V & TR).
  change (Z.to_nat 2) with 2%nat in TR.
  destruct (C30_gauss_legendre_rule eig argsort 2 x w HE HA ltac:(lia) H) as (_ & _ & _ & W1 & _ & _ & SY & _).
  destruct (C30_gauss_legendre_exact eig argsort 2 x w HE HA ltac:(lia) ltac:(lia) H) as [ST EX].
  cbv zeta in *. change (Z.to_nat 2) with 2%nat in *.
  assert (R1 := rule_root sl sl_ne 2 x w y V TR 1 ltac:(lia)).
  assert (Q : 3 * (y 1%nat * y 1%nat) = 1).
  { rewrite op_leg in R1. assert (S2 : 0 < sqrt (2 * INR 2 + 1)) by (apply sqrt_lt_R0; simpl; lra).
    apply Rmult_integral in R1. destruct R1 as [R1|R1]; [lra|]. assert (L := leg_SS (y 1%nat) 0). rewrite R1, leg_1, leg_0 in L. simpl INR in L. lra. }
  assert (X1 : x.[1%nat, 0%nat] = y 1%nat).
  { rewrite (tr_xj _ _ _ _ _ _ TR) by lia. apply snap_id. intros _.
    apply (small_square (y 1%nat) 3); [intros E; rewrite E in Q; lra|lra|lra|]. assert (10 ^ 1 <= 10 ^ 24) by (apply Rle_pow; [lra|lia]). lra. }
  destruct (SY 0%nat ltac:(lia)) as [S0 S1]. simpl (2 - 1 - 0)%nat in S0, S1. specialize (ST 0%nat 1%nat ltac:(lia) ltac:(lia)).
  simpl in W1. rewrite X1 in *.
  repeat split; try lra.
  specialize (EX [0; 0; 1] ltac:(simpl; lia)). simpl sumf in EX. rewrite X1 in EX.
  match type of EX with uniform_mean _ ?v => assert (EV : v = 1 / 3) end.
  { replace (x.[0%nat, 0%nat]) with (- y 1%nat) by lra. rewrite S1. replace (w.[0%nat, 0%nat]) with (1 / 2) by lra. nra. }
  rewrite EV in EX. exact EX.
Qed.

(** C31 *)
Definition one_d_ok (rule : Z -> res (nd R * nd R)) : Prop :=
  forall n, (1 <= n)%Z -> exists x w, rule n = Ok (x, w) /\ shape x = [Z.to_nat n; 1%nat] /\ shape w = [Z.to_nat n; 1%nat] /\
    (forall j, (j < Z.to_nat n)%nat -> 0 < w.[j, 0%nat]) /\ sumf (Z.to_nat n) (fun j => w.[j, 0%nat]) = 1.

(** nodes and weights of the k-th one-dimensional rule *)
Definition node1 (rule : Z -> res (nd R * nd R)) (l : list Z) (k i : nat) : R :=
  match rule (nth k l 0%Z) with Ok (x, _) => x.[i, 0%nat] | Err _ => 0 end.
Definition weight1 (rule : Z -> res (nd R * nd R)) (l : list Z) (k i : nat) : R :=
  match rule (nth k l 0%Z) with Ok (_, w) => w.[i, 0%nat] | Err _ => 0 end.

Lemma tensor_common : forall rule l, one_d_ok rule -> Forall (fun n => 1 <= n)%Z l ->
  let ns := map Z.to_nat l in let d := List.length l in
  exists x w, tensor_rule rule (NList l) = Ok (x, w) /\ shape x = [prodn ns; d] /\ shape w = [prodn ns; 1%nat] /\
    (forall ix, Forall2 lt ix ns -> (horner ns ix < prodn ns)%nat /\
       (forall k, (k < d)%nat -> x.[horner ns ix, k] = node1 rule l k (nth k ix 0%nat)) /\
       w.[horner ns ix, 0%nat] = prodf d (fun k => weight1 rule l k (nth k ix 0%nat))) /\
    (forall r, (r < prodn ns)%nat -> exists! ix, Forall2 lt ix ns /\ horner ns ix = r) /\
    (forall r, (r < prodn ns)%nat -> 0 < w.[r, 0%nat]) /\ sumf (prodn ns) (fun r => w.[r, 0%nat]) = 1 /\
    (forall f : nat -> R -> R, sumf (prodn ns) (fun r => w.[r, 0%nat] * prodf d (fun k => f k (x.[r, k])))
       = prodf d (fun k => sumf (nth k ns 0%nat) (fun i => weight1 rule l k i * f k (node1 rule l k i)))).
Proof.
  intros rule l HR HF ns d.
  assert (K : exists Rl, Forall2 (rule_ok rule) l Rl /\ map count_of Rl = ns /\
     Forall (fun p => (forall j, (j < count_of p)%nat -> 0 < (snd p).[j, 0%nat]) /\ sumf (count_of p) (fun j => (snd p).[j, 0%nat]) = 1) Rl).
  { unfold ns. clear ns d. induction HF as [|n l Hn HF IH].
    - exists []. simpl. auto.
    - destruct IH as (Rl & F & E & G). destruct (HR n Hn) as (x & w & Er & Sx & Sw & Hp & H1).
      assert (C : count_of (x, w) = Z.to_nat n) by (unfold count_of; simpl; now rewrite (nrows_shape2 _ x _ _ Sx)).
      exists ((x, w) :: Rl). split; [|split].
      + constructor; auto. unfold rule_ok. rewrite C. auto.
      + cbn [map]. now rewrite C, E.
      + constructor; auto. rewrite C. auto. }
  destruct K as (Rl & F & E & G).
  assert (Ld : List.length Rl = d) by (unfold d; symmetry; apply (Forall2_len _ _ _ _ _ F)).
  assert (NW : forall k, (k < d)%nat -> rule (nth k l 0%Z) = Ok (nth k Rl nd0)).
  { clear -F. unfold d. intros k Hk. revert k Hk. induction F as [|n p l Rl H F IH]; intros k Hk; simpl in Hk; [lia|].
    destruct k; [apply H|]. simpl. apply IH. lia. }
  assert (N1 : forall k i, (k < d)%nat -> nodes_of Rl k i = node1 rule l k i).
  { intros k i Hk. unfold nodes_of, node1. rewrite (NW k Hk). destruct (nth k Rl nd0). reflexivity. }
  assert (W1 : forall k i, (k < d)%nat -> weights_of Rl k i = weight1 rule l k i).
  { intros k i Hk. unfold weights_of, weight1. rewrite (NW k Hk). destruct (nth k Rl nd0). reflexivity. }
  destruct (tensor_rule_spec rule l Rl F) as (x & w & ER & SX & SW & HI & HS). cbv zeta in *. rewrite E, Ld in *.
  assert (HI' : forall ix, Forall2 lt ix ns -> (horner ns ix < prodn ns)%nat /\
       (forall k, (k < d)%nat -> x.[horner ns ix, k] = node1 rule l k (nth k ix 0%nat)) /\
       w.[horner ns ix, 0%nat] = prodf d (fun k => weight1 rule l k (nth k ix 0%nat))).
  { intros ix Hix. destruct (HI ix Hix) as [A B]. split; [now apply horner_lt|]. split.
    - intros k Hk. rewrite A by auto. now apply N1.
    - rewrite B. apply prodf_ext. intros; now apply W1. }
  assert (Gk : forall k, (k < d)%nat -> (forall j, (j < nth k ns 0%nat)%nat -> 0 < weight1 rule l k j) /\
                 sumf (nth k ns 0%nat) (fun j => weight1 rule l k j) = 1).
  { intros k Hk. assert (Gn : In (nth k Rl nd0) Rl) by (apply nth_In; lia). rewrite Forall_forall in G. specialize (G _ Gn).
    assert (Ck : count_of (nth k Rl nd0) = nth k ns 0%nat).
    { rewrite <- E. change 0%nat with (count_of nd0) at 1. now rewrite map_nth. }
    rewrite Ck in G. destruct G as [G1 G2]. split.
    - intros j Hj. rewrite <- W1 by auto. now apply G1.
    - rewrite <- G2. apply sumf_ext. intros j Hj. rewrite <- W1 by auto. reflexivity. }
  exists x, w. split; [auto|]. split; [auto|]. split; [auto|]. split; [exact HI'|].
  assert (ON : forall r, (r < prodn ns)%nat -> exists! ix, Forall2 lt ix ns /\ horner ns ix = r).
  { intros r Hr. destruct (horner_onto ns r Hr) as (ix & A & B). exists ix. split; auto. intros iy [C D].
    apply (horner_inj ns); auto. congruence. }
  split; [exact ON|].
  assert (HS' : forall f : nat -> R -> R, sumf (prodn ns) (fun r => w.[r, 0%nat] * prodf d (fun k => f k (x.[r, k])))
       = prodf d (fun k => sumf (nth k ns 0%nat) (fun i => weight1 rule l k i * f k (node1 rule l k i)))).
  { intros f. rewrite HS. apply prodf_ext. intros k Hk. apply sumf_ext. intros i Hi. now rewrite W1, N1. }
  split; [|split; [|exact HS']].
  - intros r Hr. destruct (ON r Hr) as (ix & (A & <-) & _). destruct (HI' ix A) as (_ & _ & ->).
    assert (PP : forall m (g : nat -> R), (forall i, (i < m)%nat -> 0 < g i) -> 0 < prodf m g).
    { induction m; intros g Hg; simpl; [lra|]. apply Rmult_lt_0_compat; auto. }
    apply PP. intros k Hk. apply Gk; auto.
    assert (NL : forall a b, Forall2 lt a b -> forall k, (k < List.length b)%nat -> (nth k a 0 < nth k b 0)%nat).
    { clear. intros a b H. induction H; intros k Hk; simpl in Hk; [lia|]. destruct k; simpl; auto. apply IHForall2. lia. }
    apply NL; auto. unfold ns. now rewrite map_length.
  - assert (A := HS' (fun _ _ => 1)). rewrite (prodf_ext d _ (fun _ => 1)) in A.
    + assert (P1 : forall m, prodf m (fun _ => 1) = 1) by (induction m; simpl; [reflexivity|rewrite IHm; ring]).
      rewrite P1 in A. eapply eq_trans; [|exact A]. apply sumf_ext. intros r Hr. cbv beta. try rewrite P1. ring.
    + intros k Hk. eapply eq_trans; [|exact (proj2 (Gk k Hk))]. apply sumf_ext. intros; ring.
Qed.

Lemma gh_one_d : forall eig argsort, eig_contract eig -> eig_total eig -> argsort_contract argsort -> one_d_ok (gh1d eig argsort).
Proof.
  intros eig argsort HE HT HA n Hn. destruct (C29_returns eig argsort n HE HT HA) as (x & w & H). exists x, w.
  destruct (C29_gauss_hermite_rule eig argsort n x w HE HA Hn H) as (A & B & C & D & _). auto.
Qed.
Lemma gl_one_d : forall eig argsort, eig_contract eig -> eig_total eig -> argsort_contract argsort -> one_d_ok (gl1d eig argsort).
Proof.
  intros eig argsort HE HT HA n Hn. destruct (C30_returns eig argsort n HE HT HA) as (x & w & H). exists x, w.
  destruct (C30_gauss_legendre_rule eig argsort n x w HE HA Hn H) as (A & B & C & D & _). auto.
Qed.

(** rows are numbered by index combinations with the first index slowest
    ([horner]); every combination occurs exactly once *)
Theorem C31_gauss_hermite_tensor : forall eig argsort l,
  eig_contract eig -> eig_total eig -> argsort_contract argsort -> Forall (fun n => 1 <= n)%Z l ->
  let ns := map Z.to_nat l in let d := List.length l in let rule := gh1d eig argsort in
  exists x w, gauss_hermite eig argsort (NList l) = Ok (x, w) /\ shape x = [prodn ns; d] /\ shape w = [prodn ns; 1%nat] /\
    (forall ix, Forall2 lt ix ns -> (horner ns ix < prodn ns)%nat /\
       (forall k, (k < d)%nat -> x.[horner ns ix, k] = node1 rule l k (nth k ix 0%nat)) /\
       w.[horner ns ix, 0%nat] = prodf d (fun k => weight1 rule l k (nth k ix 0%nat))) /\
    (forall r, (r < prodn ns)%nat -> exists! ix, Forall2 lt ix ns /\ horner ns ix = r) /\
    (forall r, (r < prodn ns)%nat -> 0 < w.[r, 0%nat]) /\ sumf (prodn ns) (fun r => w.[r, 0%nat]) = 1 /\
    (Forall (fun n => n <= 10 ^ 24)%Z l -> forall c : nat -> list R,
       (forall k, (k < d)%nat -> (List.length (c k) <= 2 * nth k ns 0)%nat) ->
       exists mu : nat -> R, (forall k, (k < d)%nat -> gaussian_mean (peval (c k)) (mu k)) /\
         sumf (prodn ns) (fun r => w.[r, 0%nat] * prodf d (fun k => peval (c k) (x.[r, k]))) = prodf d mu).
Proof.
  intros eig argsort l HE HT HA HF ns d rule.
  destruct (tensor_common rule l (gh_one_d eig argsort HE HT HA) HF) as (x & w & A & B & C & D & E & F & G & S).
  exists x, w. repeat (split; [assumption|]). intros HB c Hc.
  exists (fun k => sumf (nth k ns 0%nat) (fun i => weight1 rule l k i * peval (c k) (node1 rule l k i))). split; [|apply (S (fun k => peval (c k)))].
  intros k Hk. unfold weight1, node1.
  assert (IN : In (nth k l 0%Z) l) by (apply nth_In; exact Hk).
  assert (N1 : (1 <= nth k l 0%Z)%Z) by (rewrite Forall_forall in HF; now apply HF).
  assert (N2 : (nth k l 0%Z <= 10 ^ 24)%Z) by (rewrite Forall_forall in HB; now apply HB).
  destruct (C29_returns eig argsort (nth k l 0%Z) HE HT HA) as (xk & wk & Er). unfold rule. rewrite Er.
  assert (En : nth k ns 0%nat = Z.to_nat (nth k l 0%Z)) by (unfold ns; change 0%nat with (Z.to_nat 0) at 1; apply map_nth).
  specialize (Hc k Hk). rewrite En in *.
  destruct (C29_gauss_hermite_exact eig argsort (nth k l 0%Z) xk wk HE HA N1 N2 Er) as [_ EX]. cbv zeta in EX. now apply EX.
Qed.
Print Assumptions C31_gauss_hermite_tensor.

Theorem C31_gauss_legendre_tensor : forall eig argsort l,
  eig_contract eig -> eig_total eig -> argsort_contract argsort -> Forall (fun n => 1 <= n)%Z l ->
  let ns := map Z.to_nat l in let d := List.length l in let rule := gl1d eig argsort in
  exists x w, gauss_legendre eig argsort (NList l) = Ok (x, w) /\ shape x = [prodn ns; d] /\ shape w = [prodn ns; 1%nat] /\
    (forall ix, Forall2 lt ix ns -> (horner ns ix < prodn ns)%nat /\
       (forall k, (k < d)%nat -> x.[horner ns ix, k] = node1 rule l k (nth k ix 0%nat)) /\
       w.[horner ns ix, 0%nat] = prodf d (fun k => weight1 rule l k (nth k ix 0%nat))) /\
    (forall r, (r < prodn ns)%nat -> exists! ix, Forall2 lt ix ns /\ horner ns ix = r) /\
    (forall r, (r < prodn ns)%nat -> 0 < w.[r, 0%nat]) /\ sumf (prodn ns) (fun r => w.[r, 0%nat]) = 1 /\
    (Forall (fun n => n <= 10 ^ 12)%Z l -> forall c : nat -> list R,
       (forall k, (k < d)%nat -> (List.length (c k) <= 2 * nth k ns 0)%nat) ->
       exists mu : nat -> R, (forall k, (k < d)%nat -> uniform_mean (peval (c k)) (mu k)) /\
         sumf (prodn ns) (fun r => w.[r, 0%nat] * prodf d (fun k => peval (c k) (x.[r, k]))) = prodf d mu).
Proof.
  intros eig argsort l HE HT HA HF ns d rule.
  destruct (tensor_common rule l (gl_one_d eig argsort HE HT HA) HF) as (x & w & A & B & C & D & E & F & G & S).
  exists x, w. repeat (split; [assumption|]). intros HB c Hc.
  exists (fun k => sumf (nth k ns 0%nat) (fun i => weight1 rule l k i * peval (c k) (node1 rule l k i))). split; [|apply (S (fun k => peval (c k)))].
  intros k Hk. unfold weight1, node1.
  assert (IN : In (nth k l 0%Z) l) by (apply nth_In; exact Hk).
  assert (N1 : (1 <= nth k l 0%Z)%Z) by (rewrite Forall_forall in HF; now apply HF).
  assert (N2 : (nth k l 0%Z <= 10 ^ 12)%Z) by (rewrite Forall_forall in HB; now apply HB).
  destruct (C30_returns eig argsort (nth k l 0%Z) HE HT HA) as (xk & wk & Er). unfold rule. rewrite Er.
  assert (En : nth k ns 0%nat = Z.to_nat (nth k l 0%Z)) by (unfold ns; change 0%nat with (Z.to_nat 0) at 1; apply map_nth).
  specialize (Hc k Hk). rewrite En in *.
  destruct (C30_gauss_legendre_exact eig argsort (nth k l 0%Z) xk wk HE HA N1 N2 Er) as [_ EX]. cbv zeta in EX. now apply EX.
Qed.
Print Assumptions C31_gauss_legendre_tensor.

(** an int means one dimension; anything but an int or a list raises TypeError *)
Theorem C31_argument_forms : forall eig argsort n,
  gauss_hermite eig argsort (NInt n) = gauss_hermite eig argsort (NList [n]) /\
  gauss_legendre eig argsort (NInt n) = gauss_legendre eig argsort (NList [n]) /\
  gauss_hermite eig argsort NOther = Err TypeError /\ gauss_legendre eig argsort NOther = Err TypeError.
Proof. intros. repeat split. Qed.
Print Assumptions C31_argument_forms.

(** Two nodes in the first and three in the second dimension: 6 points, and
    x1^2 x2^4 (coefficients within degree 3 and 5) has mean 1 * 3. *)
Example C31_case : let l := [2; 3]%Z in
  Forall (fun n => 1 <= n)%Z l /\ Forall (fun n => n <= 10 ^ 24)%Z l /\ prodn (map Z.to_nat l) = 6%nat /\
  horner (map Z.to_nat l) [1; 2]%nat = 5%nat /\
  (forall k, (k < 2)%nat -> (List.length (nth k [[0; 0; 1]; [0; 0; 0; 0; 1]] []) <= 2 * nth k (map Z.to_nat l) 0)%nat) /\
  gaussian_mean (peval [0; 0; 0; 0; 1]) 3.
Proof.
  cbv zeta. split; [repeat constructor; lia|]. split; [repeat constructor; lia|]. split; [reflexivity|]. split; [reflexivity|]. split.
  - intros [|[|k]] Hk; simpl; lia.
  - assert (A := hermite_mean [0; 0; 0; 0; 1]). simpl List.length in A. unfold sumf, nth in A.
    assert (T4 : Tpow sh 4 0 = 3).
    { assert (Q1 := sh_sq 1). assert (Q2 := sh_sq 2). simpl INR in Q1, Q2. simpl. unfold Tap, kron_delta. simpl. nra. }
    rewrite T4 in A. match type of A with gaussian_mean _ ?v => assert (EV : v = 3) by ring end. rewrite EV in A. exact A.
Qed.

(** C32 *)
Theorem C32_jacobi_matrix_partial : forall ab n, shape ab = [(n + 1)%nat; 2%nat] -> (2 <= n)%nat ->
  exists J, jacobi_matrix ab = Ok J /\ shape J = [n; n] /\
    (forall i, (i < n)%nat -> J.[i, i] = ab.[i, 0%nat]) /\
    (forall i, (i + 1 < n)%nat -> J.[i, (i + 1)%nat] = sqrt (ab.[(i + 1)%nat, 1%nat]) /\ J.[(i + 1)%nat, i] = sqrt (ab.[(i + 1)%nat, 1%nat])) /\
    (forall i j, (i < n)%nat -> (j < n)%nat -> (i + 1 < j)%nat \/ (j + 1 < i)%nat -> J.[i, j] = 0).
Proof.
  intros ab n HS Hn. destruct (jacobi_entries ab n HS Hn) as (J & EJ & SJ & HJ). exists J. split; auto. split; auto.
  split; [|split].
  - intros i Hi. rewrite HJ by auto. now rewrite Nat.eqb_refl.
  - intros i Hi. rewrite !HJ by lia. destruct (Nat.eqb_spec i (i + 1)); [lia|]. destruct (Nat.eqb_spec (i + 1) i); [lia|].
    rewrite Nat.eqb_refl. destruct (Nat.eqb_spec i (i + 1 + 1)); [lia|]. auto.
  - intros i j Hi Hj H. rewrite HJ by auto. destruct (Nat.eqb_spec i j); [lia|]. destruct (Nat.eqb_spec j (i + 1)); [lia|].
    destruct (Nat.eqb_spec i (j + 1)); [lia|]. reflexivity.
Qed.
Print Assumptions C32_jacobi_matrix_partial.

Theorem C32_other_shapes_raise : forall ab,
  (rank ab <> 2%nat -> jacobi_matrix ab = Err ValueError) /\
  (forall r c, shape ab = [r; c] -> c <> 2%nat -> jacobi_matrix ab = Err ValueError) /\
  (shape ab = [0%nat; 2%nat] -> jacobi_matrix ab = Err ValueError) /\
  (forall J, shape ab = [1%nat; 2%nat] -> jacobi_matrix ab = Ok J -> shape J = [] /\ at_ J [] = ab.[0%nat, 0%nat]).
Proof.
  intros ab. split; [|split; [|split]].
  - intros H. unfold jacobi_matrix, rank in *. destruct (shape ab) as [|r [|c [|]]]; auto. now elim H.
  - intros r c HS Hc. unfold jacobi_matrix. rewrite HS. destruct (Nat.eqb_spec c 2); [lia|]. reflexivity.
  - intros HS. unfold jacobi_matrix. rewrite HS. reflexivity.
  - intros J HS H. unfold jacobi_matrix in H. rewrite HS in H. cbn [Nat.eqb negb] in H. injection H as <-. auto.
Qed.
Print Assumptions C32_other_shapes_raise.

(** n = 1: instead of the 1-by-1 matrix, IndexError *)
Theorem C32_one_by_one_refuted : forall ab, shape ab = [2%nat; 2%nat] -> jacobi_matrix ab = Err IndexError.
Proof. intros ab HS. unfold jacobi_matrix. rewrite HS. reflexivity. Qed.
Print Assumptions C32_one_by_one_refuted.

Example C32_case : let ab := mat_of [[0; 1]; [5; 4]; [7; 9]; [0; 1]] in
  shape ab = [(3 + 1)%nat; 2%nat] /\
  exists J, jacobi_matrix ab = Ok J /\ J === mat_of [[0; 2; 0]; [2; 5; 3]; [0; 3; 7]].
Proof.
  cbv zeta. split; [reflexivity|]. eexists. split; [reflexivity|].
  assert (S4 : sqrt 4 = 2) by (replace 4 with (2 * 2) by ring; apply sqrt_square; lra).
  assert (S9 : sqrt 9 = 3) by (replace 9 with (3 * 3) by ring; apply sqrt_square; lra).
  apply (eqnd2 R 3 3); [reflexivity|reflexivity|].
  intros [|[|[|i]]] [|[|[|j]]] Hi Hj; try lia; unfold upd2, jac_step; simpl; unfold upd2; simpl; auto.
Qed.
