(** C90, continued: the gradients of the radial basis surface move with the
    coordinates (utils/response_surfaces.py 300-349, RadialBasisApproximation.predict) *)
From Coq Require Import String Reals Lra Lia List Arith ZArith Bool.
From Verif Require Import Prelude Py NumArr LinAlg Lsq Det M_Misc M_RespSurf M_ASRS P_Misc P_Poly P_Rbf P_RbfObj P_RbfInvariance SolveRef Cholesky P_IndexSet P_PolyTrain P_PolyFacts PolySub GaussPD GaussSPD Toy Properties_RespSurf Properties_Ridge Properties_PolyInvariance Properties_RbfObj Properties_RbfInvariance Properties_ASRS.
Import ListNotations.
Open Scope R_scope.

(** If the inputs are moved by x -> A x + b, the gradient of the surface trained
    on the moved data, at the moved points, gives back the gradient at the
    original ones: D = D' A (row by row). *)
Theorem C90_gradient : forall solve cholesky fminbound N X f v X' f' v' e M m sg A b s,
  solve_contract solve -> solve_sound solve -> cholesky_contract cholesky ->
  shape X = [M; m] -> shape f = [M; 1%nat] -> shape X' = [M; m] -> shape f' = [M; 1%nat] -> (1 <= m)%nat -> eigs_ok m e ->
  (forall B I, polynomial_bases X N = Ok (B, I) -> full_rank M (ncols B) (fun r i => B.[r, i])) ->
  renumbering M sg -> isometry m e A b -> noise_moved M sg v v' ->
  (forall r i, (r < M)%nat -> (i < m)%nat -> X'.[r, i] = affine_map m A b (fun k => X.[sg r, k]) i) ->
  (forall r, (r < M)%nat -> f'.[r, 0%nat] = f.[sg r, 0%nat]) ->
  rbf_train solve cholesky fminbound N X f v e = Ok s ->
  exists s', rbf_train solve cholesky fminbound N X' f' v' e = Ok s' /\
    forall Y Y' P, shape Y = [P; m] -> shape Y' = [P; m] -> (forall r i, (r < P)%nat -> (i < m)%nat -> Y'.[r, i] = affine_map m A b (fun k => Y.[r, k]) i) ->
    exists F D F' D', rbf_predict s Y true = Ok (F, Some D) /\ rbf_predict s' Y' true = Ok (F', Some D') /\
      shape D = [P; m] /\ shape D' = [P; m] /\
      forall r, (r < P)%nat -> F'.[r, 0%nat] = F.[r, 0%nat] /\ forall k, (k < m)%nat -> D.[r, k] = sumf m (fun i => D'.[r, i] * A i k).
Proof.
  intros solve cholesky fminbound N X f v X' f' v' e M m sg A b s HS HSS HC HX Hf HX' Hf' Hm He HR HSG HI HV EX Ef RUN.
  destruct (C90_training solve cholesky fminbound N X f v X' f' v' e M m sg A b s HS HSS HC HX Hf HX' Hf' Hm He HR HSG HI HV EX Ef RUN) as (s' & RUN' & _ & EQ).
  exists s'. split; [exact RUN'|]. intros Y Y' P HY HY' EY.
  destruct (rbf_train_inv solve cholesky fminbound N X f v e M m s HSS HX Hf Hm RUN) as (I1 & l1 & nu1 & _ & _ & _ & _ & _ & T).
  destruct (rbf_train_inv solve cholesky fminbound N X' f' v' e M m s' HSS HX' Hf' Hm RUN') as (I2 & l2 & nu2 & _ & _ & _ & _ & _ & T').
  destruct (proj1 (rbf_surface N s m M Hm (r_shape _ _ _ _ _ _ _ _ T)) Y P HY) as (F & D & F0 & E1 & E2 & SF & SD & EF & HD).
  destruct (proj1 (rbf_surface N s' m M Hm (r_shape _ _ _ _ _ _ _ _ T')) Y' P HY') as (F' & D' & F0' & E1' & E2' & SF' & SD' & EF' & HD').
  cbn [rs_predict] in *. exists F, D, F', D'. split; [exact E1|]. split; [exact E1'|]. split; [exact SD|]. split; [exact SD'|].
  intros r Hr. split.
  - destruct (EQ Y Y' P HY HY' EY) as (G & G' & Q1 & Q2 & _ & _ & V). rewrite E2 in Q1. injection Q1 as <-. rewrite E2' in Q2. injection Q2 as <-.
    assert (S0 : shape F0 = [P; 1%nat]) by (destruct EF as [Q _]; congruence). assert (S0' : shape F0' = [P; 1%nat]) by (destruct EF' as [Q _]; congruence).
    rewrite <- (eqnd_at2 _ F0 F P 1 r 0 EF S0 Hr ltac:(lia)), <- (eqnd_at2 _ F0' F' P 1 r 0 EF' S0' Hr ltac:(lia)). now apply V.
  - intros k Hk. set (h := fun j => if Nat.eqb j k then 1 else 0). set (h' := fun i => sumf m (fun j => A i j * h j)).
    assert (Eh : forall (c : nat -> R), sumf m (fun j => c j * h j) = c k).
    { intros c. rewrite (sumf_single m k _ Hk); [unfold h; rewrite Nat.eqb_refl; ring|]. intros j _ Ne. unfold h. destruct (Nat.eqb_spec j k); [contradiction|ring]. }
    assert (X1 := HD r h Hr). assert (X2 := HD' r h' Hr).
    rewrite (Eh (fun j => D.[r, j])) in X1.
    rewrite (sumf_ext m (fun i => D'.[r, i] * h' i) (fun i => D'.[r, i] * A i k)) in X2 by (intros i Hi; unfold h'; now rewrite (Eh (fun j => A i j))).
    eapply uniqueness_limite; [exact X1|]. eapply derivable_pt_lim_ext; [|exact X2]. intros t. cbv beta.
    destruct (EQ (nudge Y P m r h t) (nudge Y' P m r h' t) P eq_refl eq_refl) as (G & G' & Q1 & Q2 & _ & _ & V).
    { intros a i Ha Hi. unfold nudge, affine_map. rewrite !at_mk2.
      destruct (Nat.eqb_spec a r) as [->|Na].
      - rewrite EY by auto. unfold affine_map. match goal with |- _ = ?q + b i => replace q with (sumf m (fun j => A i j * Y.[r, j] + t * (A i j * h j))) end; [|apply sumf_ext; intros j Hj; rewrite at_mk2, Nat.eqb_refl; ring].
        rewrite sumf_plus, sumf_scal_l. unfold h'. ring.
      - rewrite EY by auto. unfold affine_map. f_equal. apply sumf_ext. intros j Hj. rewrite at_mk2. destruct (Nat.eqb_spec a r); [contradiction|reflexivity]. }
    rewrite Q1, Q2. unfold value_at. now apply V.
Qed.
Print Assumptions C90_gradient.

(** the data of [C90_case], the axis turned around: the slope changes its sign *)
Example C90_gradient_case : exists s s', rbf_train solve_ref cholesky_ref fmin_ref 1 X40 f76 None None = Ok s /\ rbf_train solve_ref cholesky_ref fmin_ref 1 X90 f90 None None = Ok s' /\
  forall x, exists F D F' D', rbf_predict s (mat_of [[x]]) true = Ok (F, Some D) /\ rbf_predict s' (mat_of [[10 - x]]) true = Ok (F', Some D') /\
    F'.[0%nat, 0%nat] = F.[0%nat, 0%nat] /\ D'.[0%nat, 0%nat] = - D.[0%nat, 0%nat].
Proof.
  destruct (C78_training_returns_partial solve_ref cholesky_ref fmin_ref 1 X40 f76 None None 3 1 solve_ref_contract cholesky_ref_contract fmin_ref_ok) as (s & Hs).
  1-2: reflexivity. lia. cbn; lia. exact rank40. exact I. exact I. left. exact I.
  destruct (C90_gradient solve_ref cholesky_ref fmin_ref 1 X40 f76 None X90 f90 None None 3 1 sg90 (fun _ _ => -1) (fun _ => 10) s solve_ref_contract solve_ref_sound cholesky_ref_contract) as (s' & Hs' & Q).
  1-4: reflexivity. lia. exact I. exact rank40.
  - split.
    + intros r Hr. destruct r as [|[|[|r]]]; cbn; lia.
    + intros r r' Hr Hr'. destruct r as [|[|[|r]]]; try lia; destruct r' as [|[|[|r']]]; try lia; cbn; lia.
  - intros x y. unfold affine_map, metric. cbn [sumf]. ring.
  - exact I.
  - intros r i Hr Hi. replace i with 0%nat by lia. unfold affine_map. destruct r as [|[|[|r]]]; try lia; cbn; lra.
  - intros r Hr. destruct r as [|[|[|r]]]; try lia; reflexivity.
  - exact Hs.
  - exists s, s'. split; [exact Hs|]. split; [exact Hs'|]. intros x.
    destruct (Q (mat_of [[x]]) (mat_of [[10 - x]]) 1%nat eq_refl eq_refl) as (F & D & F' & D' & QF & QF' & _ & _ & E).
    + intros r i Hr Hi. replace i with 0%nat by lia. replace r with 0%nat by lia. unfold affine_map. cbn. lra.
    + exists F, D, F', D'. split; [exact QF|]. split; [exact QF'|]. destruct (E 0%nat ltac:(lia)) as [E1 E2]. split; [exact E1|].
      rewrite (E2 0%nat ltac:(lia)). cbn [sumf]. ring.
Qed.
