(** Final statements for utils/misc.py and utils/simrunners.py: C01-C06. *)
From Coq Require Import Reals Lra Lia List Arith ZArith String Bool Permutation.
From Verif Require Import Prelude Py NumArr M_Misc M_SimRunners P_Misc P_SimRunners P_Rbf SolveRef Toy.
Import ListNotations.
Open Scope R_scope.

(** C01.  [flat a j] is entry j of array a in row-major order. *)
Theorem C01_bounded_normalizer_round_trip : forall (lb ub X : nd R) M s,
  size ub = size lb -> shape X = [M; size lb] ->
  (forall j, (j < size lb)%nat -> flat lb j <> flat ub j) ->
  bounded_init (amap Fin lb) (amap Fin ub) = Ok s ->
  exists Y Z Y' Z',
    bounded_normalize s (amap Fin X) = Ok Y /\ bounded_unnormalize s Y = Ok Z /\ Z === amap Fin X /\
    bounded_unnormalize s (amap Fin X) = Ok Y' /\ bounded_normalize s Y' = Ok Z' /\ Z' === amap Fin X.
Proof. exact bounded_round_trip. Qed.
Print Assumptions C01_bounded_normalizer_round_trip.

Theorem C01_bounded_normalizer_range : forall (lb ub X : nd R) M s,
  size ub = size lb -> shape X = [M; size lb] ->
  bounded_init (amap Fin lb) (amap Fin ub) = Ok s ->
  exists Y Y',
    bounded_normalize s (amap Fin X) = Ok Y /\ shape Y = shape X /\
    bounded_unnormalize s (amap Fin X) = Ok Y' /\ shape Y' = shape X /\
    forall i j, (i < M)%nat -> (j < size lb)%nat ->
      (flat lb j < flat ub j -> exists y, Y.[i, j] = Fin y /\
          (flat lb j <= X.[i, j] <= flat ub j <-> -1 <= y <= 1) /\
          (X.[i, j] = flat lb j <-> y = -1) /\ (X.[i, j] = flat ub j <-> y = 1)) /\
      (flat lb j < flat ub j -> exists y, Y'.[i, j] = Fin y /\
          (-1 <= X.[i, j] <= 1 <-> flat lb j <= y <= flat ub j) /\
          (X.[i, j] = -1 <-> y = flat lb j) /\ (X.[i, j] = 1 <-> y = flat ub j)) /\
      (flat lb j = flat ub j -> forall y, Y.[i, j] <> Fin y).
Proof. exact bounded_range. Qed.
Print Assumptions C01_bounded_normalizer_range.

Theorem C01_normalizers_reject_other_ranks : forall s (X : nd xr), rank X <> 2%nat ->
  bounded_normalize s X = Err ValueError /\ bounded_unnormalize s X = Err ValueError.
Proof.
  intros s X H. unfold bounded_normalize, bounded_unnormalize.
  rewrite process_inputs_err by auto. auto.
Qed.
Print Assumptions C01_normalizers_reject_other_ranks.

(** a 2-by-2 sample in the box [0,2] x [-1,3]; third bound pair degenerate is
    covered by the last clause with lb = ub *)
Example C01_case : exists s,
  let lb := vec_of [0; -1] in let ub := vec_of [2; 3] in let X := mat_of [[1; 0]; [2; 3]] in
  size ub = size lb /\ shape X = [2%nat; size lb] /\
  (forall j, (j < size lb)%nat -> flat lb j <> flat ub j) /\
  bounded_init (amap Fin lb) (amap Fin ub) = Ok s.
Proof.
  destruct (bounded_init_ok (vec_of [0; -1]) (vec_of [2; 3]) eq_refl) as (s & H & _).
  exists s. repeat split; auto. intros j Hj. change (j < 2)%nat in Hj.
  destruct j as [|[|j]]; [..|lia]; cbn; lra.
Qed.

(** C02 *)
Theorem C02_unbounded_normalizer_round_trip : forall cholesky solve m mu C s X M,
  size mu = m ->
  (forall L, cholesky C = Ok L -> chol_factor m C L) ->
  solve_contract solve ->
  unbounded_init cholesky mu C = Ok s ->
  shape X = [M; m] ->
  exists Y Z Y' Z',
    unbounded_normalize solve s X = Ok Y /\ unbounded_unnormalize s Y = Ok Z /\ Z === X /\
    unbounded_unnormalize s X = Ok Y' /\ unbounded_normalize solve s Y' = Ok Z' /\ Z' === X.
Proof. intros; eapply un_round_trip; eauto. Qed.
Print Assumptions C02_unbounded_normalizer_round_trip.

Theorem C02_unnormalize_has_mean_mu_and_covariance_C : forall cholesky m mu C s X M (w : nat -> R) Y,
  size mu = m ->
  (forall L, cholesky C = Ok L -> chol_factor m C L) ->
  unbounded_init cholesky mu C = Ok s ->
  shape X = [M; m] ->
  sumf M w = 1 ->
  (forall j, (j < m)%nat -> sumf M (fun i => w i * X.[i, j]) = 0) ->
  (forall j k, (j < m)%nat -> (k < m)%nat ->
     sumf M (fun i => w i * (X.[i, j] * X.[i, k])) = kron_delta j k) ->
  unbounded_unnormalize s X = Ok Y ->
  (forall j, (j < m)%nat -> sumf M (fun i => w i * Y.[i, j]) = flat mu j) /\
  (forall j k, (j < m)%nat -> (k < m)%nat ->
     sumf M (fun i => w i * ((Y.[i, j] - flat mu j) * (Y.[i, k] - flat mu k))) = C.[j, k]).
Proof. intros; eapply un_moments; eauto. Qed.
Print Assumptions C02_unnormalize_has_mean_mu_and_covariance_C.

(** C = [[4, 2], [2, 5]] = L L^T with L = [[2, 0], [1, 2]], and the four-point
    sample (+-1, +-1) with weights 1/4 has mean 0 and second moment I. *)
Example C02_case :
  chol_factor 2 (mat_of [[4; 2]; [2; 5]]) (mat_of [[2; 0]; [1; 2]]) /\
  (let X := mat_of [[1; 1]; [1; -1]; [-1; 1]; [-1; -1]] in let w := fun _ : nat => / 4 in
   shape X = [4%nat; 2%nat] /\ sumf 4 w = 1 /\
   (forall j, (j < 2)%nat -> sumf 4 (fun i => w i * X.[i, j]) = 0) /\
   (forall j k, (j < 2)%nat -> (k < 2)%nat -> sumf 4 (fun i => w i * (X.[i, j] * X.[i, k])) = kron_delta j k)).
Proof.
  split.
  - split; [reflexivity|]. split; [|split].
    + intros [|[|i]] [|[|j]]; intros; try lia; simpl; lra.
    + intros [|[|i]]; intros; try lia; simpl; lra.
    + intros [|[|i]] [|[|j]]; intros; try lia; simpl; lra.
  - simpl. split; [reflexivity|]. split; [lra|]. split.
    + intros [|[|j]]; intros; try lia; simpl; lra.
    + intros [|[|i]] [|[|j]]; intros; try lia; simpl; unfold kron_delta; simpl; lra.
Qed.
Example C02_case_round_trip : exists s Y Z, let X := mat_of [[1; 1]; [1; -1]; [-1; 1]] in
  unbounded_init (fun _ => Ok (mat_of [[2; 0]; [1; 2]])) (vec_of [3; 4]) (mat_of [[4; 2]; [2; 5]]) = Ok s /\
  unbounded_normalize solve_ref s X = Ok Y /\ unbounded_unnormalize s Y = Ok Z /\ Z === X.
Proof.
  destruct (C02_unbounded_normalizer_round_trip (fun _ => Ok (mat_of [[2; 0]; [1; 2]])) solve_ref 2 (vec_of [3; 4]) (mat_of [[4; 2]; [2; 5]])
    {| un_mu := ND [1%nat; 2%nat] (fun ix => flat (vec_of [3; 4]) (ravel [1%nat; 2%nat] ix)); un_L := mat_of [[2; 0]; [1; 2]] |} (mat_of [[1; 1]; [1; -1]; [-1; 1]]) 3) as (Y & Z & _ & _ & E1 & E2 & E3 & _).
  - reflexivity.
  - intros L E. injection E as <-. apply C02_case.
  - apply solve_ref_contract.
  - reflexivity.
  - reflexivity.
  - eexists _, Y, Z. split; [|split; [exact E1 | split; [exact E2 | exact E3]]]. reflexivity.
Qed.

(** C03 *)
Theorem C03_process_inputs_accepts_exactly_rank_2 : forall A (X : nd A),
  ((exists M m X', process_inputs X = Ok (X', M, m) /\ shape X = [M; m] /\ X' === X) <-> rank X = 2%nat) /\
  (rank X <> 2%nat -> process_inputs X = Err ValueError).
Proof. intros A X. split; [apply process_inputs_iff|apply process_inputs_err]. Qed.
Print Assumptions C03_process_inputs_accepts_exactly_rank_2.

Theorem C03_process_inputs_outputs_accepts_exactly_matching : forall A (X f : nd A),
  ((exists M m, shape X = [M; m] /\ shape f = [M; 1%nat]) <->
   (exists X' f' M m, process_inputs_outputs X f = Ok (X', f', M, m) /\ X' === X /\ f' === f /\ shape X = [M; m])) /\
  (~ (exists M m, shape X = [M; m] /\ shape f = [M; 1%nat]) -> is_err (process_inputs_outputs X f)).
Proof.
  intros A X f. split; [|apply process_inputs_outputs_err]. split.
  - intros (M & m & H1 & H2). destruct (process_inputs_outputs_ok A X f M m H1 H2) as (X' & f' & H & HX & Hf).
    exists X', f', M, m. auto.
  - intros (X' & f' & M & m & H & _). apply process_inputs_outputs_inv in H. exists M, m. tauto.
Qed.
Print Assumptions C03_process_inputs_outputs_accepts_exactly_matching.

Example C03_case : shape (mat_of [[1; 2]; [3; 4]; [5; 6]]) = [3%nat; 2%nat] /\
  rank (vec_of [1; 2]) <> 2%nat.
Proof. split; [reflexivity|discriminate]. Qed.

(** C04.  Group count, mean and variance are written as plain sums over all
    positions k with an indicator [ind_k = i] ([grp_count], [grp_mean],
    [grp_var] in P_Misc.v). *)
Theorem C04_conditional_expectations : forall f ind, ind <> [] -> List.length f = List.length ind ->
  exists Ef Vf, conditional_expectations f ind = Ok (Ef, Vf) /\
  List.length Ef = S (list_max ind) /\ List.length Vf = S (list_max ind) /\
  forall i, (i <= list_max ind)%nat ->
    nth i Ef NaN = (if in_dec Nat.eq_dec i ind then Fin (grp_mean f ind i) else NaN) /\
    nth i Vf NaN = (if in_dec Nat.eq_dec i ind then Fin (grp_var f ind i) else NaN).
Proof. exact cond_exp_ok. Qed.
Print Assumptions C04_conditional_expectations.

Theorem C04_order_independent : forall f ind f' ind',
  List.length f = List.length ind -> List.length f' = List.length ind' ->
  Permutation (combine f ind) (combine f' ind') ->
  conditional_expectations f ind = conditional_expectations f' ind'.
Proof. exact cond_exp_perm. Qed.
Print Assumptions C04_order_independent.

Theorem C04_variance_nonneg_and_zero_iff_constant : forall f ind i, In i ind ->
  0 <= grp_var f ind i /\
  (grp_var f ind i = 0 <-> forall k l, (k < List.length ind)%nat -> (l < List.length ind)%nat ->
       nth k ind 0%nat = i -> nth l ind 0%nat = i -> nth k f 0 = nth l f 0).
Proof. intros f ind i H. split; [now apply grp_var_nonneg|now apply grp_var_zero]. Qed.
Print Assumptions C04_variance_nonneg_and_zero_iff_constant.

Theorem C04_total_expectation : forall f ind, List.length f = List.length ind ->
  sumf (S (list_max ind))
    (fun i => if in_dec Nat.eq_dec i ind then grp_count ind i * grp_mean f ind i else 0) = sumr f.
Proof. exact grp_total. Qed.
Print Assumptions C04_total_expectation.

(** groups {1, 3}, {} and {5}: the middle group is empty *)
Example C04_case : exists Ef Vf,
  conditional_expectations [1; 5; 3] [0%nat; 2%nat; 0%nat] = Ok (Ef, Vf) /\
  nth 0 Ef NaN = Fin 2 /\ nth 1 Ef (Fin 0) = NaN /\ nth 2 Ef NaN = Fin 5 /\ nth 0 Vf NaN = Fin 1.
Proof.
  eexists; eexists. split; [reflexivity|]. simpl. unfold np_mean, np_var, select. simpl.
  repeat split; f_equal; field.
Qed.

(** C05 *)
Theorem C05_run_calls_rows_in_order : forall (G : gen) (U : Type)
    (f : ufun (U:=U) (nd R) (nd R)) (X : nd R) M m (w : world G U (nd R)),
  shape X = [M; m] ->
  exists us, us O = usr w /\
  ((exists F w', sim_run f X w = (Ok F, w') /\ shape F = [M; 1%nat] /\
      w' = World (rng w) (us M) (calls w ++ map (rowarr X) (seq 0 M)) (files w) /\
      forall i, (i < M)%nat -> exists v,
        f (rowarr X i) (us i) = (Ok v, us (S i)) /\ size v = 1%nat /\ F.[i, 0%nat] = flat v 0) \/
   (exists k e w', (k < M)%nat /\ sim_run f X w = (Err e, w') /\
      w' = World (rng w) (us (S k)) (calls w ++ map (rowarr X) (seq 0 (S k))) (files w) /\
      (forall i, (i < k)%nat -> exists v, f (rowarr X i) (us i) = (Ok v, us (S i)) /\ size v = 1%nat) /\
      (f (rowarr X k) (us k) = (Err e, us (S k)) \/
       exists v, f (rowarr X k) (us k) = (Ok v, us (S k)) /\ size v <> 1%nat /\ e = ValueError))).
Proof. intros; eapply sim_run_trace; eauto. Qed.
Print Assumptions C05_run_calls_rows_in_order.

Theorem C05_bad_input_no_calls : forall (G : gen) (U : Type) (f : ufun (U:=U) (nd R) (nd R)) (X : nd R)
    (w : world G U (nd R)),
  (rank X <> 2%nat -> sim_run f X w = (Err ValueError, w)) /\
  SimulationRunner_init (U:=U) NotA = Err TypeError /\ SimulationRunner_init (IsA f) = Ok f.
Proof. intros. split; [apply sim_run_bad|auto]. Qed.
Print Assumptions C05_bad_input_no_calls.

(** a counting function that raises on its second call: the run stops there *)
Definition crash2 : ufun (U:=nat) (nd R) (nd R) := fun x u =>
  if Nat.eqb u 1 then (Err (UserExn 7), S u) else (Ok (ND [] (fun _ => x.[0%nat, 0%nat])), S u).
Example C05_case :
  let X := mat_of [[1; 2]; [3; 4]; [5; 6]] in
  sim_run crash2 X (toy_world (L:=nd R) 0%nat) =
  (Err (UserExn 7), World (0%nat : gst toy_gen) 2%nat [rowarr X 0; rowarr X 1] 0%nat).
Proof. reflexivity. Qed.

(** C06 *)
Theorem C06_gradient_run_calls_rows_in_order : forall (G : gen) (U : Type)
    (f : ufun (U:=U) (nd R) (nd R)) (X : nd R) M m (w : world G U (nd R)),
  shape X = [M; m] ->
  exists us, us O = usr w /\
  ((exists D w', simgrad_run f X w = (Ok D, w') /\ shape D = [M; m] /\
      w' = World (rng w) (us M) (calls w ++ map (rowarr X) (seq 0 M)) (files w) /\
      forall i, (i < M)%nat -> exists v,
        f (rowarr X i) (us i) = (Ok v, us (S i)) /\ size v = m /\
        forall j, (j < m)%nat -> D.[i, j] = flat v j) \/
   (exists k e w', (k < M)%nat /\ simgrad_run f X w = (Err e, w') /\
      w' = World (rng w) (us (S k)) (calls w ++ map (rowarr X) (seq 0 (S k))) (files w) /\
      (forall i, (i < k)%nat -> exists v, f (rowarr X i) (us i) = (Ok v, us (S i)) /\ size v = m) /\
      (f (rowarr X k) (us k) = (Err e, us (S k)) \/
       exists v, f (rowarr X k) (us k) = (Ok v, us (S k)) /\ size v <> m /\ e = ValueError))).
Proof. intros; eapply simgrad_run_trace; eauto. Qed.
Print Assumptions C06_gradient_run_calls_rows_in_order.

Theorem C06_bad_input_no_calls : forall (G : gen) (U : Type) (f : ufun (U:=U) (nd R) (nd R)) (X : nd R)
    (w : world G U (nd R)),
  (rank X <> 2%nat -> simgrad_run f X w = (Err ValueError, w)) /\
  SimulationGradientRunner_init (U:=U) NotA = Err TypeError /\ SimulationGradientRunner_init (IsA f) = Ok f.
Proof. intros. split; [apply simgrad_run_bad|auto]. Qed.
Print Assumptions C06_bad_input_no_calls.

(** a gradient function returning too few numbers on its first call *)
Definition short_grad : ufun (U:=nat) (nd R) (nd R) := fun x u => (Ok (vec_of [1]), S u).
Example C06_case :
  let X := mat_of [[1; 2]; [3; 4]] in
  simgrad_run short_grad X (toy_world (L:=nd R) 0%nat) =
  (Err ValueError, World (0%nat : gst toy_gen) 1%nat [rowarr X 0] 0%nat).
Proof. reflexivity. Qed.
