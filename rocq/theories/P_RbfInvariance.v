(** Supporting lemmas for C90: determinants of Cholesky factors, and the R^2 of
    RadialBasisApproximation as two quadratic forms *)
From Coq Require Import String Reals Lra Lia List Arith ZArith Bool FinFun.
From Verif Require Import Prelude Py NumArr LinAlg Lsq Det M_Misc M_RespSurf P_Misc P_IndexSet P_Poly P_PolyTrain P_PolyFacts GaussPD Cholesky P_Rbf P_RbfObj.
Import ListNotations.
Open Scope R_scope.

(** ** determinants of triangular matrices *)
Lemma determinant_zero_col : forall n A, (1 <= n)%nat -> (forall i, (i < n)%nat -> A i 0%nat = 0) -> determinant n A = 0.
Proof.
  induction n as [|n IH]; intros A Hn H; [lia|]. cbn [determinant]. apply sumf_zero. intros j Hj. destruct j as [|j].
  - rewrite H by lia. ring.
  - rewrite (IH (minor (S j) A)); [ring|lia|]. intros i Hi. unfold minor, skip. cbn. apply H. lia.
Qed.
Lemma determinant_upper : forall n A, (forall i j, (j < i)%nat -> (i < n)%nat -> A i j = 0) -> determinant n A = prodf n (fun i => A i i).
Proof.
  assert (SH : forall n (f : nat -> R), prodf (S n) f = f 0%nat * prodf n (fun i => f (S i))).
  { induction n; intros f; [cbn; ring|]. cbn [prodf]. change (prodf n f * f n) with (prodf (S n) f). rewrite IHn. cbn [prodf]. ring. }
  induction n as [|n IH]; intros A H; [reflexivity|]. rewrite SH. cbn [determinant]. rewrite (sumf_single (S n) 0%nat); [|lia|].
  - rewrite (IH (minor 0 A)).
    + cbn [pow]. rewrite Rmult_1_l. f_equal.
    + intros i j Hij Hi. unfold minor, skip. cbn. apply H; lia.
  - intros j Hj Nj. rewrite (determinant_zero_col n); [ring|lia|]. intros i Hi. unfold minor, skip. destruct (Nat.ltb_spec 0 j); [|lia]. apply H; lia.
Qed.
Lemma determinant_lower : forall n A, (forall i j, (i < j)%nat -> (j < n)%nat -> A i j = 0) -> determinant n A = prodf n (fun i => A i i).
Proof.
  assert (SH : forall n (f : nat -> R), prodf (S n) f = f 0%nat * prodf n (fun i => f (S i))).
  { induction n; intros f; [cbn; ring|]. cbn [prodf]. change (prodf n f * f n) with (prodf (S n) f). rewrite IHn. cbn [prodf]. ring. }
  induction n as [|n IH]; intros A H; [reflexivity|]. rewrite SH. cbn [determinant]. rewrite (sumf_single (S n) 0%nat); [|lia|].
  - rewrite (IH (minor 0 A)).
    + cbn [pow]. rewrite Rmult_1_l. f_equal.
    + intros i j Hij Hj. unfold minor, skip. cbn. apply H; lia.
  - intros j Hj Nj. rewrite H by lia. ring.
Qed.

(** the determinant of K is the squared product of the diagonal of its Cholesky factor *)
Lemma chol_det : forall n K L, chol_factor n K L -> determinant n (fun i j => K.[i, j]) = prodf n (fun i => L.[i, i]) * prodf n (fun i => L.[i, i]).
Proof.
  intros n K L (_ & T & _ & E). rewrite <- (determinant_lower n (fun i j => L.[i, j])) at 1 by exact T.
  rewrite <- (determinant_upper n (fun i j => L.[j, i])) by (intros; apply T; auto). rewrite <- determinant_mul. apply determinant_ext. intros i j Hi Hj. unfold mmul. now rewrite E.
Qed.
Lemma prodf_pos : forall n (f : nat -> R), (forall i, (i < n)%nat -> 0 < f i) -> 0 < prodf n f.
Proof. induction n; intros f H; cbn [prodf]; [lra|]. apply Rmult_lt_0_compat; auto. Qed.
Lemma ln_prodf : forall n (f : nat -> R), (forall i, (i < n)%nat -> 0 < f i) -> ln (prodf n f) = sumf n (fun i => ln (f i)).
Proof. induction n; intros f H; cbn [prodf sumf]; [apply ln_1|]. rewrite ln_mult, IHn; auto. apply prodf_pos. auto. Qed.

(** renumbering rows and columns alike keeps the determinant *)
Lemma determinant_renumber : forall n A sg, (forall r, (r < n)%nat -> (sg r < n)%nat) -> (forall r r', (r < n)%nat -> (r' < n)%nat -> sg r = sg r' -> r = r') ->
  determinant n (fun i j => A (sg i) (sg j)) = determinant n A.
Proof.
  intros n A sg H1 H2. set (P := fun i j => kron_delta (sg i) j). set (Q := fun i j => kron_delta (sg j) i).
  assert (E : determinant n (mmul n P Q) = 1).
  { rewrite <- (determinant_id n). apply determinant_ext. intros i j Hi Hj. unfold mmul, P, Q. rewrite (sumf_kd_l n (sg i) (fun k => kron_delta (sg j) k)) by auto.
    unfold kron_delta. destruct (Nat.eqb_spec (sg j) (sg i)), (Nat.eqb_spec i j); auto; subst; [exfalso; auto|contradiction]. }
  rewrite determinant_mul in E.
  rewrite (determinant_ext n (fun i j => A (sg i) (sg j)) (mmul n P (mmul n A Q))).
  - rewrite !determinant_mul. rewrite (Rmult_comm (determinant n A)), <- Rmult_assoc, E. ring.
  - intros i j Hi Hj. unfold mmul, P, Q. rewrite (sumf_kd_l n (sg i) (fun k => sumf n (fun l => A k l * kron_delta (sg j) l))) by auto.
    rewrite (sumf_ext n _ (fun l => kron_delta (sg j) l * A (sg i) l)) by (intros; ring). symmetry. apply (sumf_kd_l n (sg j) (fun l => A (sg i) l)). auto.
Qed.

Lemma chol_logdet : forall n K L K' L' sg, chol_factor n K L -> chol_factor n K' L' ->
  (forall r, (r < n)%nat -> (sg r < n)%nat) -> (forall r r', (r < n)%nat -> (r' < n)%nat -> sg r = sg r' -> r = r') ->
  (forall i j, (i < n)%nat -> (j < n)%nat -> K'.[i, j] = K.[sg i, sg j]) ->
  sumf n (fun i => ln (L'.[i, i])) = sumf n (fun i => ln (L.[i, i])).
Proof.
  intros n K L K' L' sg C C' H1 H2 E. destruct C as (S0 & T & D & F), C' as (S0' & T' & D' & F').
  rewrite <- !ln_prodf by auto. f_equal.
  assert (Q : prodf n (fun i => L'.[i, i]) * prodf n (fun i => L'.[i, i]) = prodf n (fun i => L.[i, i]) * prodf n (fun i => L.[i, i])).
  { rewrite <- (chol_det n K L), <- (chol_det n K' L') by (repeat split; auto). rewrite <- (determinant_renumber n (fun i j => K.[i, j]) sg H1 H2). apply determinant_ext. auto. }
  assert (P := prodf_pos n _ D). assert (P' := prodf_pos n _ D'). cbv beta in P, P'. apply Rsqr_inj; [lra|lra|exact Q].
Qed.

(** ** R^2 *)
Lemma rbf_R2_value : forall solve cholesky fminbound N X f v e M m s, solve_sound solve -> shape X = [M; m] -> shape f = [M; 1%nat] -> (1 <= m)%nat ->
  rbf_train solve cholesky fminbound N X f v e = Ok s ->
  (forall k, (k < m)%nat -> 0 < (rb_ell s).[k, 0%nat]) ->
  exists L l nu y, index_set N m = Ok L /\ (length L <= M)%nat /\ fminbound (rbf_objective solve cholesky X f v N e) = Ok l /\
    chosen (Rpower 10 l) e v M m (fun k => (rb_ell s).[k, 0%nat]) nu /\ (forall i, (i < M)%nat -> / 10 ^ 6 <= nu i) /\ rtrained N X f M m L nu s /\
    (forall i, (i < M)%nat -> sumf M (fun j => kern m (fun k => (rb_ell s).[k, 0%nat]) nu X i j * y j) = f.[i, 0%nat]) /\
    rb_Rsqr s = xsub (Fin 1) (xdiv (Fin (sumf M (fun i => (f.[i, 0%nat] - poly_eval m L (fun c => (rb_pw s).[c, 0%nat]) (fun k => X.[i, k])) * (rb_rw s).[i, 0%nat]))) (Fin (sumf M (fun i => f.[i, 0%nat] * y i)))).
Proof.
  intros solve cholesky fminbound N X f v e M m s HS HX Hf Hm H Pell.
  destruct (rbf_train_eq solve cholesky fminbound N X f v e M m HX Hf Hm) as (L & EL & ET). rewrite ET in H. clear ET.
  destruct (Nat.ltb_spec M (length L)) as [|HLM]; [discriminate|]. apply rbind_ok in H. destruct H as (l & El & H). cbv zeta in H.
  destruct (rbf_scales (Rpower 10 l) f m v e) as [ell v0] eqn:ES. apply rbind_ok in H. destruct H as (v1 & Ev & H).
  apply rbind_ok in H. destruct H as (K0 & EK0 & H). apply rbind_ok in H. destruct H as (K & EK & H).
  assert (NE := index_set_nonempty _ _ _ EL). pose proof (exponential_squared_inv _ _ _ _ _ _ _ _ HX HX ltac:(lia) EK0) as Sell.
  pose proof (exponential_squared_ok X X 1 ell M M m HX HX Sell) as EK0'. rewrite EK0 in EK0'. injection EK0' as ->.
  assert (Sv : shape (amap (fun a => Rmax a (/ 10 ^ 6)) v1) = [M; 1%nat]).
  { unfold amap. cbn [shape]. apply reshape_inv in Ev. rewrite Hf in Ev. tauto. }
  destruct (add_diag_ok (mk2 M M (fun a i => 1 * gauss m (fun k => ell.[k, 0%nat]) (fun k => X.[a, k]) (fun k => X.[i, k]))) _ M Sv) as (K' & K1 & K2 & K3).
  rewrite EK in K1. injection K1 as <-.
  set (n1 := fun i => Rmax (v1.[i, 0%nat]) (/ 10 ^ 6)).
  assert (VK : forall i j, (i < M)%nat -> (j < M)%nat -> K.[i, j] = gauss m (fun k => ell.[k, 0%nat]) (fun k => X.[i, k]) (fun k => X.[j, k]) + kron_delta i j * n1 i).
  { intros i j Hi Hj. rewrite K3 by auto. rewrite at_mk2. unfold amap. cbn [at_]. unfold n1. ring. }
  destruct (train_tail_inv solve N M m X f K L ell n1 s HS Hm HX Hf EL Sell K2 VK H) as (T & Eell).
  rewrite Eell in Pell.
  assert (PD : forall c, (exists i, (i < M)%nat /\ c i <> 0) -> 0 < sumf M (fun i => sumf M (fun j => c i * c j * K.[i, j]))).
  { intros c Hc. rewrite (sumf_ext M _ (fun i => sumf M (fun j => c i * c j * (gauss m (fun k => ell.[k, 0%nat]) (fun k => X.[i, k]) (fun k => X.[j, k]) + kron_delta i j * n1 i)))).
    - apply (reg_pd M m (fun i k => X.[i, k]) (fun k => ell.[k, 0%nat]) n1); auto. intros; apply Rmax_r.
    - intros i Hi. apply sumf_ext. intros j Hj. now rewrite VK. }
  assert (NK := pd_nonsingular M K PD).
  unfold train_tail in H. set (B := mk2 M (length L) (fun r i => mono m (nth i L []) (fun j => X.[r, j]))) in *. cbv zeta in H. change (ncols B) with (length L) in H.
  destruct (saddle_system K B f M (length L) K2 eq_refl Hf) as (C1 & C2 & C & rhs & Q1 & Q2 & Q3 & Q4 & Q5 & Q6 & Q7 & Q8 & Q9).
  rewrite Q1 in H. cbn [rbind] in H. rewrite Q2 in H. cbn [rbind] in H. rewrite Q3 in H. cbn [rbind] in H.
  rewrite Q4 in H. cbn [rbind] in H. apply rbind_ok in H. destruct H as (w & Ew & H).
  destruct (HS _ _ _ _ _ Q5 Q6 Ew) as [Sw _].
  assert (Sp : shape (rows_slice w M (nrows w)) = [length L; 1%nat]).
  { unfold rows_slice. rewrite shape_mk2, (nrows_shape2 _ _ _ _ Sw), (ncols_shape2 _ _ _ _ Sw). f_equal. lia. }
  rewrite (mdot_ok B (rows_slice w M (nrows w)) M (length L) 1 eq_refl Sp) in H. cbn [rbind] in H. set (Bp := mk2 M 1 _) in H.
  destruct (bcast2_same _ _ _ Rminus f Bp M 1 Hf eq_refl) as (r & R1 & R2 & R3). rewrite R1 in H. cbn [rbind] in H.
  apply rbind_ok in H. destruct H as (Kr & E1 & H). destruct (HS _ _ _ _ _ K2 R2 E1) as [SKr VKr].
  assert (Str : shape (tr r) = [1%nat; M]) by (unfold tr; rewrite shape_mk2, (nrows_shape2 _ _ _ _ R2), (ncols_shape2 _ _ _ _ R2); auto).
  rewrite (mdot_ok (tr r) Kr 1 M 1 Str SKr) in H. cbn [rbind] in H.
  apply rbind_ok in H. destruct H as (Kf & E2 & H). destruct (HS _ _ _ _ _ K2 Hf E2) as [SKf VKf].
  assert (Stf : shape (tr f) = [1%nat; M]) by (unfold tr; rewrite shape_mk2, (nrows_shape2 _ _ _ _ Hf), (ncols_shape2 _ _ _ _ Hf); auto).
  rewrite (mdot_ok (tr f) Kf 1 M 1 Stf SKf) in H. cbn [rbind] in H.
  injection H as Es.
  set (rw := fun i => (rb_rw s).[i, 0%nat]). set (y := fun i => Kf.[i, 0%nat]).
  set (p := fun i => poly_eval m L (fun c => (rb_pw s).[c, 0%nat]) (fun k => X.[i, k])).
  assert (Hr : forall i, (i < M)%nat -> r.[i, 0%nat] = f.[i, 0%nat] - p i).
  { intros i Hi. rewrite R3 by (auto; lia). f_equal. unfold p, Bp, poly_eval. rewrite at_mk2, <- Es. reflexivity. }
  assert (Krw : forall i, (i < M)%nat -> sumf M (fun j => K.[i, j] * rw j) = r.[i, 0%nat]).
  { intros i Hi. pose proof (r_top _ _ _ _ _ _ _ _ T i Hi) as Q. rewrite Hr by auto. fold (p i) in Q.
    rewrite (sumf_ext M _ (fun j => (gauss m (fun k => (rb_ell s).[k, 0%nat]) (fun k => X.[i, k]) (fun k => X.[j, k]) + kron_delta i j * n1 i) * (rb_rw s).[j, 0%nat])); [lra|].
    intros j Hj. rewrite VK by auto. rewrite Eell. reflexivity. }
  assert (EKr : forall i, (i < M)%nat -> Kr.[i, 0%nat] = rw i).
  { assert (Q : forall i, (i < M)%nat -> (fun i => Kr.[i, 0%nat] - rw i) i = 0).
    { apply NK. intros i Hi. rewrite (sumf_ext M _ (fun k => K.[i, k] * Kr.[k, 0%nat] - K.[i, k] * rw k)) by (intros; ring).
      rewrite sumf_minus, VKr, Krw by (auto; lia). ring. }
    intros i Hi. specialize (Q i Hi). cbv beta in Q. lra. }
  exists L, l, n1, y. split; [exact EL|]. split; [exact HLM|]. split; [exact El|]. split.
  { rewrite Eell. exact (scales_chosen _ f v e M m ell v0 v1 Hf ES Ev Sell). }
  split; [intros i Hi; apply Rmax_r|]. split; [exact T|]. split.
  - intros i Hi. rewrite (sumf_ext M _ (fun j => K.[i, j] * y j)) by (intros j Hj; rewrite VK by auto; unfold kern; now rewrite Eell). apply VKf; auto; lia.
  - rewrite (sumf_ext M _ (fun i => r.[i, 0%nat] * Kr.[i, 0%nat])) by (intros i Hi; rewrite EKr, Hr by auto; reflexivity).
    rewrite <- Es. reflexivity.
Qed.
