(** Final statements for utils/response_surfaces.py: C36-C40. *)
From Coq Require Import String Reals Lra Lia List Arith ZArith Bool Sorted.
From Verif Require Import Prelude Py NumArr LinAlg Lsq Sorting M_Misc M_RespSurf P_Misc P_IndexSet P_Poly P_PolyTrain
  P_PolyFacts GaussPD P_Rbf SolveRef Toy.
Import ListNotations.
Open Scope R_scope.

(** C36 *)
Theorem C36_index_set : forall n d, (1 <= d)%nat -> exists L, index_set n d = Ok L /\
  (forall al, In al L <-> length al = d /\ (list_sum al <= n)%nat) /\
  NoDup L /\
  (forall i j, (i <= j)%nat -> (j < length L)%nat -> (list_sum (nth i L []) <= list_sum (nth j L []))%nat) /\
  INR (length L) = Binomial.C (n + d) d /\
  (forall k, (k < d)%nat -> nth k (nth 0 L []) 0%nat = 0%nat) /\
  ((1 <= n)%nat -> forall k j, (k < d)%nat -> (j < d)%nat -> nth j (nth (1 + k) L []) 0%nat = if Nat.eqb j k then 1%nat else 0%nat).
Proof.
  intros n d Hd. destruct (index_set_ok n d Hd) as (L & HL). exists L. split; auto.
  split; [intros; now apply index_set_In|]. split; [now apply (index_set_NoDup n d Hd)|]. split; [|split; [|split]].
  - intros i j Hij Hj. pose proof (index_set_sorted n d Hd L HL) as Hs.
    destruct (Nat.eq_dec i j) as [->|Hne]; [lia|].
    apply (StronglySorted_nth _ _ L [] Hs i j); lia.
  - rewrite (index_set_length n d Hd L HL). apply binom_C. lia.
  - intros k Hk. rewrite (index_set_row0 n d Hd L HL). apply nth_repeat.
  - intros Hn k j Hk Hj. rewrite (index_set_unit n d Hd L k HL Hn Hk). now apply nth_unit.
Qed.
Print Assumptions C36_index_set.

Example C36_case : index_set 2 2 = Ok [[0; 0]; [1; 0]; [0; 1]; [2; 0]; [1; 1]; [0; 2]]%nat.
Proof. reflexivity. Qed.

(** C37.  [move X r k t] is X with entry (r,k) replaced by t. *)
Definition move (X : nd R) (M m r k : nat) (t : R) : nd R :=
  mk2 M m (fun a b => if (Nat.eqb a r && Nat.eqb b k)%bool then t else X.[a, b]).

Lemma move_row : forall X M m r k t j, (move X M m r k t).[r, j] = set_at (fun j => X.[r, j]) k t j.
Proof. intros. unfold move. rewrite at_mk2, Nat.eqb_refl. reflexivity. Qed.

Theorem C37_basis_gradients_are_derivatives : forall X N M m, shape X = [M; m] -> (1 <= m)%nat ->
  exists B L G, polynomial_bases X N = Ok (B, L) /\ grad_polynomial_bases X N = Ok G /\
  shape B = [M; length L] /\ shape G = [M; length L; m] /\
  forall r i k, (r < M)%nat -> (i < length L)%nat -> (k < m)%nat ->
    derivable_pt_lim (fun t => match polynomial_bases (move X M m r k t) N with Ok (B', _) => B'.[r, i] | Err _ => 0 end)
      (X.[r, k]) (G.[r, i, k]).
Proof.
  intros X N M m HX Hm. destruct (polynomial_bases_ok X N M m HX Hm) as (L & HL & EB).
  destruct (grad_polynomial_bases_ok X N M m HX Hm) as (L' & HL' & EG). rewrite HL in HL'. injection HL' as <-.
  eexists _, L, _. split; [exact EB|]. split; [exact EG|]. split; [reflexivity|]. split; [reflexivity|].
  intros r i k Hr Hi Hk. rewrite at_mk3.
  eapply derivable_pt_lim_ext; [|exact (mono_deriv m (nth i L []) k (fun j => X.[r, j]) Hk)].
  intros t. cbv beta. destruct (polynomial_bases_ok (move X M m r k t) N M m eq_refl Hm) as (L' & HL' & EB'). rewrite HL in HL'. injection HL' as <-.
  rewrite EB', at_mk2. apply mono_ext. intros j Hj. now rewrite move_row.
Qed.
Print Assumptions C37_basis_gradients_are_derivatives.

Theorem C37_predict_gradient : forall s X M m, shape X = [M; m] -> (1 <= m)%nat ->
  shape (pa_weights s) = [binom (pa_N s + m) m; 1%nat] ->
  exists F D, poly_predict s X true = Ok (F, Some D) /\ poly_predict s X false = Ok (F, None) /\
  shape F = [M; 1%nat] /\ shape D = [M; m] /\
  forall r k, (r < M)%nat -> (k < m)%nat ->
    derivable_pt_lim (fun t => match poly_predict s (move X M m r k t) false with Ok (F', _) => F'.[r, 0%nat] | Err _ => 0 end)
      (X.[r, k]) (D.[r, k]).
Proof.
  intros s X M m HX Hm Hw.
  destruct (poly_predict_ok s X M m true HX Hm Hw) as (L & F & HL & E1 & E2 & E3).
  destruct (poly_predict_ok s X M m false HX Hm Hw) as (L' & F' & HL' & E1' & E2' & E3'). rewrite HL in HL'. injection HL' as <-.
  assert (EF : poly_predict s X false = Ok (F, None)).
  { unfold poly_predict in E3 |- *. destruct (process_inputs X) as [[[X0 M0] m0]|]; [|discriminate]. cbn [rbind] in *.
    destruct (polynomial_bases X0 (pa_N s)) as [[B II]|]; [|discriminate]. cbn [rbind] in *.
    destruct (mdot B (pa_weights s)) as [f0|]; [|discriminate]. cbn [rbind] in *.
    destruct (reshape [M0; 1%nat] f0) as [f1|]; [|discriminate]. cbn [rbind] in *.
    destruct (grad_polynomial_bases X0 (pa_N s)) as [dB|]; [|discriminate]. cbn [rbind] in *.
    destruct (negb _); [discriminate|]. injection E3 as -> _. reflexivity. }
  exists F. eexists. split; [exact E3|]. split; auto. split; auto. split; [reflexivity|].
  intros r k Hr Hk. rewrite at_mk2.
  eapply derivable_pt_lim_ext; [|exact (poly_eval_deriv m L (fun c => (pa_weights s).[c, 0%nat]) k (fun j => X.[r, j]) Hk)].
  intros t. cbv beta. destruct (poly_predict_ok s (move X M m r k t) M m false eq_refl Hm Hw) as (L' & F2 & HL2 & _ & E4 & E5).
  rewrite HL in HL2. injection HL2 as <-. rewrite E5, E4 by auto. unfold poly_eval. apply sumf_ext. intros c Hc. f_equal.
  apply mono_ext. intros j Hj. now rewrite move_row.
Qed.
Print Assumptions C37_predict_gradient.

(** derivatives of 1, x, x^2 at x = 3 *)
Example C37_case : exists G, grad_polynomial_bases (mat_of [[3]]) 2 = Ok G /\
  G.[0%nat, 0%nat, 0%nat] = 0 /\ G.[0%nat, 1%nat, 0%nat] = 1 /\ G.[0%nat, 2%nat, 0%nat] = 6.
Proof. eexists. split; [reflexivity|]. cbn. repeat split; ring. Qed.

(** C38 *)
Theorem C38_reproduces_polynomials : forall lstsq N X f weights M m s T a e,
  lstsq_contract lstsq -> shape X = [M; m] -> shape f = [M; 1%nat] -> (1 <= m)%nat -> (1 <= N)%nat ->
  match weights with None => True | Some w => shape w = [M; 1%nat] /\ forall i, (i < M)%nat -> w.[i, 0%nat] <> 0 end ->
  poly_train lstsq N X f weights = Ok s ->
  (* the basis matrix has full column rank *)
  (forall B L, polynomial_bases X N = Ok (B, L) -> full_rank M (ncols B) (fun r i => B.[r, i])) ->
  (* the data come from sum_t a_t prod_j x_j^(e t j), every term of degree <= N *)
  (forall t, (t < T)%nat -> (nsum m (e t) <= N)%nat) ->
  (forall r, (r < M)%nat -> f.[r, 0%nat] = terms_eval m T a e (fun j => X.[r, j])) ->
  forall Y P, shape Y = [P; m] -> exists F, poly_predict s Y false = Ok (F, None) /\ shape F = [P; 1%nat] /\
    forall r, (r < P)%nat -> F.[r, 0%nat] = terms_eval m T a e (fun j => Y.[r, j]).
Proof.
  intros lstsq N X f weights M m s T a e HL HX Hf Hm HN Hw Hs HR He Hd Y P HY.
  destruct (poly_train_inv lstsq HL N X f weights M m HX Hf Hm HN) as (L & EL & _ & Htr & _).
  { destruct weights; simpl; tauto. }
  specialize (Htr s Hs). destruct (terms_collect N m L EL Hm T a e He) as (w & Ew).
  assert (HR' : full_rank M (length L) (fun r i => mono m (nth i L []) (fun j => X.[r, j]))).
  { destruct (polynomial_bases_ok X N M m HX Hm) as (L' & EL' & EB). rewrite EL in EL'. injection EL' as <-. exact (HR _ _ EB). }
  pose proof (trained_exact N X f weights M m L s Htr w) as Hex.
  destruct (poly_predict_ok s Y P m false HY Hm (trained_shape N X f weights M m L s Hm EL Htr)) as (L' & F & EL' & E1 & E2 & E3).
  rewrite (trained_idx N X f weights M m L s EL Htr) in EL'. injection EL' as <-.
  exists F. split; auto. split; auto. intros r Hr. rewrite E2, Ew by auto. apply poly_eval_w. apply Hex; auto.
  - intros i Hi. destruct weights as [w0|]; simpl; [now apply Hw|lra].
  - intros r' Hr'. now rewrite Hd, Ew.
Qed.
Print Assumptions C38_reproduces_polynomials.

(** [poly_value s m x] and [poly_slope s m k x] read poly_predict at the single point x *)
Theorem C38_gradient_and_hessian : forall lstsq N X f weights M m s,
  lstsq_contract lstsq -> shape X = [M; m] -> shape f = [M; 1%nat] -> (1 <= m)%nat -> (1 <= N)%nat ->
  match weights with None => True | Some w => shape w = [M; 1%nat] end ->
  poly_train lstsq N X f weights = Ok s ->
  shape (pa_g s) = [m; 1%nat] /\
  (forall k, (k < m)%nat -> derivable_pt_lim (fun t => poly_value s m (fun j => if Nat.eqb j k then t else 0)) 0 ((pa_g s).[k, 0%nat])) /\
  (N = 1%nat -> pa_H s = None /\
     forall x, poly_value s m x = poly_value s m (fun _ => 0) + sumf m (fun k => (pa_g s).[k, 0%nat] * x k)) /\
  ((2 <= N)%nat -> exists H, pa_H s = Some H /\ shape H = [m; m] /\
    (forall a b, (a < m)%nat -> (b < m)%nat -> H.[a, b] = H.[b, a]) /\
    (forall a b, (a < m)%nat -> (b < m)%nat ->
       derivable_pt_lim (fun t => poly_slope s m a (fun j => if Nat.eqb j b then t else 0)) 0 (H.[a, b])) /\
    (N = 2%nat -> forall x, poly_value s m x = poly_value s m (fun _ => 0) + sumf m (fun k => (pa_g s).[k, 0%nat] * x k)
       + / 2 * sumf m (fun a => sumf m (fun b => H.[a, b] * x a * x b)))).
Proof.
  intros lstsq N X f weights M m s HL HX Hf Hm HN Hw Hs.
  destruct (poly_train_inv lstsq HL N X f weights M m HX Hf Hm HN Hw) as (L & EL & _ & Htr & _). specialize (Htr s Hs).
  split; [apply (t_gs _ _ _ _ _ _ _ _ Htr)|]. split; [|split].
  - intros k Hk. rewrite <- (trained_gradient N X f weights M m L s Hm HN EL Htr k Hk).
    rewrite (trained_slope N X f weights M m L s Hm EL Htr).
    eapply derivable_pt_lim_ext; [|apply (poly_eval_deriv m L (fun c => (pa_weights s).[c, 0%nat]) k (fun _ => 0) Hk)].
    intros t. cbv beta. rewrite (trained_value N X f weights M m L s Hm EL Htr). reflexivity.
  - intros E. split; [apply (t_H1 _ _ _ _ _ _ _ _ Htr); lia|]. intros x.
    rewrite !(trained_value N X f weights M m L s Hm EL Htr), !(poly_eval_linear N m L EL Hm) by auto.
    rewrite (sumf_zero m (fun k => (pa_weights s).[(1 + k)%nat, 0%nat] * 0)) by (intros; ring). rewrite Rplus_0_r. f_equal.
    apply sumf_ext. intros k Hk. now rewrite (t_g _ _ _ _ _ _ _ _ Htr).
  - intros HN2. destruct (trained_hessian N X f weights M m L s Hm EL Htr HN2) as (H & H1 & H2 & H3 & H4 & H5).
    exists H. repeat split; auto. intros E x. rewrite (H5 E x), (H5 E (fun _ => 0)).
    rewrite (sumf_zero m (fun k => (pa_g s).[k, 0%nat] * 0)) by (intros; ring).
    rewrite (sumf_zero m (fun a => sumf m (fun b => H.[a, b] * 0 * 0))) by (intros; apply sumf_zero; intros; ring). ring.
Qed.
Print Assumptions C38_gradient_and_hessian.

Theorem C38_R_squared : forall lstsq N X f M m s,
  lstsq_contract lstsq -> shape X = [M; m] -> shape f = [M; 1%nat] -> (1 <= m)%nat -> (1 <= N)%nat ->
  poly_train lstsq N X f None = Ok s ->
  ((exists i j, (i < M)%nat /\ (j < M)%nat /\ f.[i, 0%nat] <> f.[j, 0%nat]) ->
    exists r2, pa_Rsqr s = Fin r2 /\ 0 <= r2 <= 1 /\
    (r2 = 1 <-> forall i, (i < M)%nat -> poly_value s m (fun j => X.[i, j]) = f.[i, 0%nat])) /\
  ((forall i j, (i < M)%nat -> (j < M)%nat -> f.[i, 0%nat] = f.[j, 0%nat]) -> pa_Rsqr s = NaN).
Proof.
  intros lstsq N X f M m s HL HX Hf Hm HN Hs.
  destruct (poly_train_inv lstsq HL N X f None M m HX Hf Hm HN I) as (L & EL & _ & Htr & _). specialize (Htr s Hs).
  destruct (R2_unweighted N X f None M m L s Hm HN EL Htr eq_refl) as (H1 & H2 & H3).
  set (mean := sumf M (fun i => f.[i, 0%nat]) / INR M) in *. set (tss := sumf M (fun i => (f.[i, 0%nat] - mean) * (f.[i, 0%nat] - mean))) in *.
  set (rs := sumf M (fun i => (f.[i, 0%nat] - poly_value s m (fun j => X.[i, j])) * (f.[i, 0%nat] - poly_value s m (fun j => X.[i, j])))) in *.
  split.
  - intros (i & j & Hi & Hj & Hne).
    assert (Ht : 0 < tss).
    { destruct (Req_dec tss 0) as [E|E]; [|assert (0 <= tss) by apply sumf_sq_nonneg; lra]. exfalso. apply Hne.
      pose proof (sumf_sq_eq0 M (fun i => f.[i, 0%nat] - mean) E) as Q. pose proof (Q i Hi) as Qi. pose proof (Q j Hj) as Qj. cbv beta in *. lra. }
    exists (1 - rs / tss). split; auto.
    assert (B1 : 0 <= rs / tss) by (apply Rmult_le_pos; [lra|left; now apply Rinv_0_lt_compat]).
    assert (B2 : rs / tss <= 1) by (apply (Rmult_le_reg_r tss); auto; unfold Rdiv; rewrite Rmult_assoc, Rinv_l by lra; lra).
    split; [lra|]. split.
    + intros E. assert (Z : rs = 0). { assert (rs / tss = 0) by lra. apply Rmult_eq_reg_r with (/ tss); [unfold Rdiv in *; lra|apply Rinv_neq_0_compat; lra]. }
      intros k Hk. pose proof (sumf_sq_eq0 M (fun i => f.[i, 0%nat] - poly_value s m (fun j => X.[i, j])) Z k Hk) as Q. cbv beta in Q. lra.
    + intros E. assert (Z : rs = 0). { unfold rs. apply sumf_zero. intros k Hk. rewrite E by auto. ring. } rewrite Z. unfold Rdiv. ring.
  - intros E. apply H3. unfold tss. apply sumf_zero. intros k Hk.
    assert (Em : mean = f.[k, 0%nat]).
    { unfold mean. rewrite (sumf_ext M _ (fun _ => f.[k, 0%nat])) by (intros; auto). rewrite sumf_const. field.
      apply not_0_INR. lia. }
    rewrite Em. ring.
Qed.
Print Assumptions C38_R_squared.

Theorem C38_too_few_points_raise : forall lstsq N X f weights M m,
  shape X = [M; m] -> shape f = [M; 1%nat] -> (M < binom (N + m) m)%nat ->
  exists e, poly_train lstsq N X f weights = Err e.
Proof.
  intros lstsq N X f weights M m HX Hf H. unfold poly_train. rewrite (process_io_eq _ X f M m HX Hf). cbn [rbind].
  destruct (Nat.ltb_spec M (binom (N + m) m)); [eauto|lia].
Qed.
Print Assumptions C38_too_few_points_raise.

Theorem C38_training_returns : forall lstsq N X f weights M m,
  lstsq_contract lstsq -> lstsq_total lstsq ->
  shape X = [M; m] -> shape f = [M; 1%nat] -> (1 <= m)%nat -> (1 <= N)%nat ->
  match weights with None => True | Some w => shape w = [M; 1%nat] end -> (binom (N + m) m <= M)%nat ->
  exists s, poly_train lstsq N X f weights = Ok s.
Proof.
  intros lstsq N X f weights M m HL HT HX Hf Hm HN Hw HM.
  destruct (poly_train_inv lstsq HL N X f weights M m HX Hf Hm HN Hw) as (L & EL & _ & _ & H). apply H; auto.
  rewrite (index_set_length N m Hm L EL). auto.
Qed.
Print Assumptions C38_training_returns.

(** f(x,y) = 3 + x y at six points *)
Definition X38 : nd R := mat_of [[0; 0]; [1; 0]; [0; 1]; [2; 0]; [1; 1]; [0; 2]].
Definition f38 : nd R := mat_of [[3]; [3]; [3]; [3]; [4]; [3]].
Definition a38 (t : nat) : R := match t with O => 3 | _ => 1 end.
Definition e38 (t j : nat) : nat := t.
Example C38_case : exists s, poly_train lstsq_ref 2 X38 f38 None = Ok s /\
  forall Y P, shape Y = [P; 2%nat] -> exists F, poly_predict s Y false = Ok (F, None) /\ shape F = [P; 1%nat] /\
    forall r, (r < P)%nat -> F.[r, 0%nat] = 3 + Y.[r, 0%nat] * Y.[r, 1%nat].
Proof.
  destruct (C38_training_returns lstsq_ref 2 X38 f38 None 6 2 lstsq_ref_contract lstsq_ref_total) as (s & Hs).
  1-2: reflexivity. 1-2: lia. exact I. cbn; lia.
  exists s. split; [exact Hs|]. intros Y P HY.
  destruct (C38_reproduces_polynomials lstsq_ref 2 X38 f38 None 6 2 s 2 a38 e38 lstsq_ref_contract) with (Y := Y) (P := P) as (F & F1 & F2 & F3).
  1-2: reflexivity. 1-2: lia. exact I. exact Hs.
  - intros B L E. destruct (polynomial_bases_ok X38 2 6 2 eq_refl ltac:(lia)) as (L' & EL & EB). rewrite EB in E.
    assert (EL2 : index_set 2 2 = Ok [[0; 0]; [1; 0]; [0; 1]; [2; 0]; [1; 1]; [0; 2]]%nat) by reflexivity.
    rewrite EL2 in EL. assert (E3 : L' = [[0; 0]; [1; 0]; [0; 1]; [2; 0]; [1; 1]; [0; 2]]%nat) by congruence. clear EL EB EL2.
    assert (EB : B = mk2 6 (length L') (fun r i => mono 2 (nth i L' []) (fun j => X38.[r, j]))) by congruence. clear E.
    rewrite EB, E3. clear EB E3. unfold ncols. cbn [shape mk2 nth length]. intros x Hx.
    pose proof (Hx 0%nat ltac:(lia)) as H0. pose proof (Hx 1%nat ltac:(lia)) as H1. pose proof (Hx 2%nat ltac:(lia)) as H2.
    pose proof (Hx 3%nat ltac:(lia)) as H3. pose proof (Hx 4%nat ltac:(lia)) as H4. pose proof (Hx 5%nat ltac:(lia)) as H5. clear Hx.
    unfold mono, X38, mat_of in H0, H1, H2, H3, H4, H5. cbn [sumf prodf nth at_ mk2 pow] in H0, H1, H2, H3, H4, H5.
    intros j Hj. destruct j as [|[|[|[|[|[|j]]]]]]; try lia; lra.
  - intros t Ht. destruct t as [|[|t]]; cbn; lia.
  - intros r Hr. destruct r as [|[|[|[|[|[|r]]]]]]; try lia; unfold terms_eval; cbn; lra.
  - exact HY.
  - exists F. split; [exact F1|]. split; [exact F2|]. intros r Hr. rewrite F3 by exact Hr. unfold terms_eval; cbn. ring.
Qed.

(** C39 *)
Theorem C39_exponential_squared : forall X1 X2 sigma ell M n m K, shape X1 = [M; m] -> shape X2 = [n; m] -> (1 <= n)%nat ->
  exponential_squared X1 X2 sigma ell = Ok K ->
  shape K = [M; n] /\
  (exists K', exponential_squared X2 X1 sigma ell = Ok K' /\ forall a i, (a < M)%nat -> (i < n)%nat -> K'.[i, a] = K.[a, i]) /\
  (forall a i, (a < M)%nat -> (i < n)%nat -> (forall k, (k < m)%nat -> X1.[a, k] = X2.[i, k]) -> K.[a, i] = sigma) /\
  (* positive length scales: 0 < K <= sigma, decaying with the scaled distance *)
  ((forall k, (k < m)%nat -> 0 < ell.[k, 0%nat]) -> 0 < sigma -> forall a i, (a < M)%nat -> (i < n)%nat -> 0 < K.[a, i] <= sigma) /\
  (exists G, grad_exponential_squared X1 X2 sigma ell = Ok G /\ shape G = [M; n; m] /\
   forall a i k, (a < M)%nat -> (i < n)%nat -> (k < m)%nat ->
     derivable_pt_lim (fun t => match exponential_squared X1 (move X2 n m i k t) sigma ell with Ok K' => K'.[a, i] | Err _ => 0 end)
       (X2.[i, k]) (G.[a, i, k])).
Proof.
  intros X1 X2 sigma ell M n m K H1 H2 Hn H.
  pose proof (exponential_squared_inv _ _ _ _ _ _ _ _ H1 H2 Hn H) as Hl.
  pose proof (exponential_squared_ok X1 X2 sigma ell M n m H1 H2 Hl) as E. rewrite H in E. injection E as ->.
  split; [reflexivity|]. split; [|split; [|split]].
  - eexists. split; [apply (exponential_squared_ok X2 X1 sigma ell n M m H2 H1 Hl)|]. intros a i Ha Hi. rewrite !at_mk2. now rewrite gauss_sym.
  - intros a i Ha Hi Heq. rewrite at_mk2. unfold gauss. rewrite sumf_zero; [rewrite exp_0; ring|]. intros k Hk. rewrite Heq by auto. ring.
  - intros Hp Hs a i Ha Hi. rewrite at_mk2. unfold gauss.
    assert (Hle : sumf m (fun k => (X1.[a, k] - X2.[i, k]) * (X1.[a, k] - X2.[i, k]) * (-1 / ell.[k, 0%nat])) <= 0).
    { rewrite <- (sumf_0 m). apply sumf_le. intros k Hk. pose proof (Rinv_0_lt_compat _ (Hp k Hk)). pose proof (Rle_0_sqr (X1.[a, k] - X2.[i, k])) as Q. unfold Rsqr in Q. unfold Rdiv. nra. }
    split; [apply Rmult_lt_0_compat; auto; apply exp_pos|].
    rewrite <- (Rmult_1_r sigma) at 2. apply Rmult_le_compat_l; [lra|]. rewrite <- exp_0.
    destruct Hle as [Hlt| ->]; [left; now apply exp_increasing|right; reflexivity].
  - destruct (grad_exponential_squared_ok X1 X2 sigma ell M n m H1 H2 Hl) as (G & E1 & E2 & E3). exists G. split; auto. split; auto.
    intros a i k Ha Hi Hk. rewrite E3 by auto.
    eapply derivable_pt_lim_ext; [|rewrite Rmult_comm; apply deriv_scal; exact (gauss_deriv m (fun k => ell.[k, 0%nat]) (fun k => X1.[a, k]) (fun k => X2.[i, k]) k Hk)].
    intros t. cbv beta. rewrite (exponential_squared_ok X1 (move X2 n m i k t) sigma ell M n m H1 eq_refl Hl). rewrite at_mk2.
    unfold gauss. rewrite Rmult_comm. f_equal. f_equal. apply sumf_ext. intros l Hl'. now rewrite move_row.
Qed.
Print Assumptions C39_exponential_squared.

Theorem C39_predict_gradient : forall s X M m T, shape X = [M; m] -> (1 <= m)%nat ->
  shape (rb_X s) = [T; m] -> size (rb_ell s) = m -> shape (rb_rw s) = [T; 1%nat] -> shape (rb_pw s) = [binom (rb_N s + m) m; 1%nat] ->
  exists F D, rbf_predict s X true = Ok (F, Some D) /\ shape F = [M; 1%nat] /\ shape D = [M; m] /\
  (forall F', rbf_predict s X false = Ok (F', None) -> F' === F) /\
  forall r k, (r < M)%nat -> (k < m)%nat ->
    derivable_pt_lim (fun t => match rbf_predict s (move X M m r k t) false with Ok (F', _) => F'.[r, 0%nat] | Err _ => 0 end)
      (X.[r, k]) (D.[r, k]).
Proof.
  intros s X M m T HX Hm H1 H2 H3 H4. assert (HS : rbf_shape s T m) by (repeat split; auto).
  destruct (rbf_predict_ok s X M m T true HX Hm HS) as (L & F & HL & E1 & E2 & D & E3 & E4 & E5).
  exists F, D. split; auto. split; auto. split; auto. split.
  - intros F' EF'. destruct (rbf_predict_ok s X M m T false HX Hm HS) as (L' & F2 & HL' & E1' & E2' & D' & E3' & _).
    rewrite EF' in E3'. injection E3' as <-. rewrite HL in HL'. injection HL' as <-.
    apply (eqnd2 _ M 1); auto. intros i j Hi Hj. assert (j = 0%nat) as -> by lia. rewrite E2, E2' by auto. reflexivity.
  - intros r k Hr Hk. rewrite E5 by auto.
    eapply derivable_pt_lim_ext; [|exact (rbf_eval_deriv s T m L k (fun j => X.[r, j]) Hk)].
    intros t. cbv beta. destruct (rbf_predict_ok s (move X M m r k t) M m T false eq_refl Hm HS) as (L' & F2 & HL2 & _ & E6 & D2 & E7 & _).
    rewrite HL in HL2. injection HL2 as <-. rewrite E7, E6 by auto. unfold rbf_eval. f_equal.
    + apply sumf_ext. intros a Ha. f_equal. unfold gauss. f_equal. apply sumf_ext. intros j Hj. now rewrite move_row.
    + unfold poly_eval. apply sumf_ext. intros c Hc. f_equal. apply mono_ext. intros j Hj. now rewrite move_row.
Qed.
Print Assumptions C39_predict_gradient.

(** one centre at 0 with weight 2, ell = 1, plus the polynomial 5 + 7 x *)
Definition s39 : rbf := {| rb_N := 1; rb_X := mat_of [[0]]; rb_f := mat_of [[0]]; rb_K := mat_of [[1]]; rb_ell := mat_of [[1]];
  rb_Rsqr := Fin 0; rb_rw := mat_of [[2]]; rb_pw := mat_of [[5]; [7]] |}.
Example C39_case : exists F D, rbf_predict s39 (mat_of [[1]]) true = Ok (F, Some D) /\
  F.[0%nat, 0%nat] = 2 * exp (-1) + 12 /\ D.[0%nat, 0%nat] = -4 * exp (-1) + 7.
Proof.
  eexists _, _. split; [reflexivity|].
  assert (E : 0 + (1 - 0) * (1 - 0) * (-1 / 1) = -1) by field. assert (E' : 0 + (0 - 1) * (0 - 1) * (-1 / 1) = -1) by field.
  split; cbn; rewrite ?E, ?E'; field.
Qed.

(** C38, degree 0: the slice [poly_weights[1:m+1]] is empty, so training on any
    data raises. *)
Theorem C38_degree_zero_raises : forall lstsq X f weights M m,
  lstsq_contract lstsq -> shape X = [M; m] -> shape f = [M; 1%nat] -> (1 <= m)%nat ->
  match weights with None => True | Some w => shape w = [M; 1%nat] end ->
  exists e, poly_train lstsq 0 X f weights = Err e.
Proof.
  intros lstsq X f weights M m HL HX Hf Hm Hw.
  destruct (poly_train lstsq 0 X f weights) as [s|e] eqn:E; [exfalso|eauto].
  unfold poly_train in E. rewrite (process_io_eq _ X f M m HX Hf) in E. cbn [rbind] in E.
  destruct (Nat.ltb M (binom (0 + m) m)); [discriminate|].
  destruct (polynomial_bases_ok X 0 M m HX Hm) as (L & EL & EB). rewrite EB in E. cbn [rbind] in E.
  assert (LL : length L = 1%nat) by (rewrite (index_set_length 0 m Hm L EL); apply binom_diag). rewrite LL in E.
  set (B0 := mk2 M 1 _) in E. change (ncols B0) with 1%nat in E.
  apply rbind_ok in E. destruct E as ((B & fw) & EW & E).
  assert (HS : shape B = [M; 1%nat] /\ shape fw = [M; 1%nat]).
  { destruct weights as [w|].
    - destruct (bcast2_same _ _ _ Rmult w B0 M 1 Hw eq_refl) as (B' & E1 & E2 & _). rewrite E1 in EW. cbn [rbind] in EW.
      destruct (bcast2_same _ _ _ Rmult w f M 1 Hw Hf) as (f' & E3 & E4 & _). rewrite E3 in EW. cbn [rbind] in EW. injection EW as <- <-. auto.
    - injection EW as <- <-. auto. }
  destruct HS as [SB SF]. apply rbind_ok in E. destruct E as (pw & Epw & E). destruct (HL M 1%nat B fw pw SB SF Epw) as [Spw _].
  apply rbind_ok in E. destruct E as (r & _ & E). apply rbind_ok in E. destruct E as (d & _ & E). cbv zeta in E.
  apply rbind_ok in E. destruct E as (pw' & _ & E). apply rbind_ok in E. destruct E as (g & Eg & E).
  apply reshape_inv in Eg. destruct Eg as [Eg _]. unfold size, rows_slice in Eg. rewrite shape_mk2, (nrows_shape2 _ _ _ _ Spw), (ncols_shape2 _ _ _ _ Spw) in Eg.
  cbn [prodn fold_right] in Eg. replace (Nat.min (m + 1) 1 - 1)%nat with 0%nat in Eg by lia. cbn in Eg. lia.
Qed.
Print Assumptions C38_degree_zero_raises.

(** C40.  [chosen] spells out the length scales and the noise floor for a given
    g = 10^(fminbound result). *)
Theorem C40_training_solves_regularised_problem : forall solve cholesky fminbound N X f v e M m s,
  solve_sound solve -> shape X = [M; m] -> shape f = [M; 1%nat] -> (1 <= m)%nat ->
  rbf_train solve cholesky fminbound N X f v e = Ok s ->
  shape (rb_rw s) = [M; 1%nat] /\ rb_X s = X /\
  exists l nu, fminbound (rbf_objective solve cholesky X f v N e) = Ok l /\
   chosen (Rpower 10 l) e v M m (fun k => (rb_ell s).[k, 0%nat]) nu /\
   (forall i, (i < M)%nat -> / 10 ^ 6 <= nu i) /\
   (exists F, rbf_predict s X false = Ok (F, None) /\ shape F = [M; 1%nat] /\
      forall i, (i < M)%nat -> F.[i, 0%nat] = f.[i, 0%nat] - nu i * (rb_rw s).[i, 0%nat]) /\
   (forall T a ex, (forall t, (t < T)%nat -> (nsum m (ex t) <= N)%nat) ->
      sumf M (fun i => terms_eval m T a ex (fun k => X.[i, k]) * (rb_rw s).[i, 0%nat]) = 0).
Proof.
  intros solve cholesky fminbound N X f v e M m s HS HX Hf Hm H.
  destruct (rbf_train_inv solve cholesky fminbound N X f v e M m s HS HX Hf Hm H) as (L & l & nu & EL & HLM & El & Hch & Hnu & T).
  pose proof (r_shape _ _ _ _ _ _ _ _ T) as SH.
  split; [apply SH|]. split; [apply (r_X _ _ _ _ _ _ _ _ T)|]. exists l, nu. split; auto. split; auto. split; auto. split.
  - destruct (rbf_predict_ok s X M m M false HX Hm SH) as (L' & F & EL' & E1 & E2 & D & E3 & _).
    rewrite (r_N _ _ _ _ _ _ _ _ T), EL in EL'. injection EL' as <-.
    exists F. split; auto. split; auto. intros i Hi. rewrite E2 by auto.
    rewrite <- (rtrained_residual N X f M m L nu s Hm EL T i Hi). symmetry. apply (rtrained_value N X f M m L nu s Hm EL T).
  - intros TT a ex Hex. destruct (terms_collect N m L EL Hm TT a ex Hex) as (w & Ew).
    rewrite <- (rtrained_orthogonal N X f M m L nu s T w). apply sumf_ext. intros i Hi. now rewrite Ew.
Qed.
Print Assumptions C40_training_solves_regularised_problem.

Theorem C40_reproduces_polynomials : forall solve cholesky fminbound N X f v e M m s T a ex,
  solve_sound solve -> shape X = [M; m] -> shape f = [M; 1%nat] -> (1 <= m)%nat ->
  rbf_train solve cholesky fminbound N X f v e = Ok s ->
  match e with None => True | Some e => (forall k, (k < m)%nat -> 0 < e.[k, 0%nat]) /\ (forall k, (k < nrows e)%nat -> 0 <= e.[k, 0%nat]) /\ (m <= nrows e)%nat end ->
  (forall B L, polynomial_bases X N = Ok (B, L) -> full_rank M (ncols B) (fun r i => B.[r, i])) ->
  (forall t, (t < T)%nat -> (nsum m (ex t) <= N)%nat) ->
  (forall r, (r < M)%nat -> f.[r, 0%nat] = terms_eval m T a ex (fun j => X.[r, j])) ->
  forall Y P, shape Y = [P; m] -> exists F, rbf_predict s Y false = Ok (F, None) /\ shape F = [P; 1%nat] /\
    forall r, (r < P)%nat -> F.[r, 0%nat] = terms_eval m T a ex (fun j => Y.[r, j]).
Proof.
  intros solve cholesky fminbound N X f v e M m s TT a ex HS HX Hf Hm H He HR Hex Hd Y P HY.
  destruct (rbf_train_inv solve cholesky fminbound N X f v e M m s HS HX Hf Hm H) as (L & l & nu & EL & HLM & El & Hch & Hnu & T).
  destruct (terms_collect N m L EL Hm TT a ex Hex) as (w & Ew).
  assert (Pell : forall k, (k < m)%nat -> 0 < (rb_ell s).[k, 0%nat]).
  { assert (G : 0 < Rpower 10 l) by (unfold Rpower; apply exp_pos).
    unfold chosen in Hch. destruct e as [e|]; destruct Hch as [Hl _]; intros k Hk; rewrite Hl by auto; auto.
    destruct He as (He1 & He2 & He0). apply Rmult_lt_0_compat; [|apply Rinv_0_lt_compat; auto]. apply Rmult_lt_0_compat; auto.
    eapply Rlt_le_trans with (e.[k, 0%nat]); auto. apply (sumf_term_le (nrows e) (fun j => e.[j, 0%nat]) k); auto. lia. }
  assert (HR' : full_rank M (length L) (fun r i => mono m (nth i L []) (fun j => X.[r, j]))).
  { destruct (polynomial_bases_ok X N M m HX Hm) as (L' & EL' & EB). rewrite EL in EL'. injection EL' as <-. exact (HR _ _ EB). }
  destruct (rbf_predict_ok s Y P m M false HY Hm (r_shape _ _ _ _ _ _ _ _ T)) as (L' & F & EL' & E1 & E2 & D & E3 & _).
  rewrite (r_N _ _ _ _ _ _ _ _ T), EL in EL'. injection EL' as <-.
  exists F. split; auto. split; auto. intros r Hr. rewrite E2, Ew by auto.
  rewrite <- (rtrained_value N X f M m L nu s Hm EL T). apply (rtrained_exact N X f M m L nu s Hm EL T w Pell Hnu HR').
  intros i Hi. now rewrite Hd, Ew.
Qed.
Print Assumptions C40_reproduces_polynomials.

(** the training system is nonsingular - the Gaussian matrix is positive
    semidefinite - so training succeeds as soon as the optimiser does *)
Theorem C40_training_returns : forall solve cholesky fminbound N X f v e M m l,
  solve_contract solve -> shape X = [M; m] -> shape f = [M; 1%nat] -> (1 <= m)%nat -> (binom (N + m) m <= M)%nat ->
  (forall B L, polynomial_bases X N = Ok (B, L) -> full_rank M (ncols B) (fun r i => B.[r, i])) ->
  match v with None => True | Some v => size v = M end ->
  match e with None => True | Some e => (m <= nrows e)%nat /\ (forall k, (k < m)%nat -> 0 < e.[k, 0%nat]) /\ (forall k, (k < nrows e)%nat -> 0 <= e.[k, 0%nat]) end ->
  fminbound (rbf_objective solve cholesky X f v N e) = Ok l ->
  exists s, rbf_train solve cholesky fminbound N X f v e = Ok s.
Proof.
  intros solve cholesky fminbound N X f v e M m l HS HX Hf Hm HM HR Hv He Hl.
  destruct (polynomial_bases_ok X N M m HX Hm) as (L & EL & EB).
  apply (rbf_train_returns solve cholesky fminbound N X f v e M m L l); auto.
  - rewrite (index_set_length N m Hm L EL). auto.
  - exact (HR _ _ EB).
Qed.
Print Assumptions C40_training_returns.

Theorem C40_R_squared : forall solve cholesky fminbound N X f v e M m s,
  solve_sound solve -> shape X = [M; m] -> shape f = [M; 1%nat] -> (1 <= m)%nat ->
  rbf_train solve cholesky fminbound N X f v e = Ok s ->
  match e with None => True | Some e => (forall k, (k < m)%nat -> 0 < e.[k, 0%nat]) /\ (forall k, (k < nrows e)%nat -> 0 <= e.[k, 0%nat]) /\ (m <= nrows e)%nat end ->
  (exists i, (i < M)%nat /\ f.[i, 0%nat] <> 0) ->
  exists r2, rb_Rsqr s = Fin r2 /\ 0 <= r2 <= 1 /\
    (r2 = 1 <-> exists F, rbf_predict s X false = Ok (F, None) /\ forall i, (i < M)%nat -> F.[i, 0%nat] = f.[i, 0%nat]).
Proof.
  intros solve cholesky fminbound N X f v e M m s HS HX Hf Hm H He (i0 & Hi0 & Hne).
  destruct (rbf_train_inv solve cholesky fminbound N X f v e M m s HS HX Hf Hm H) as (L & l & nu & EL & HLM & El & Hch & Hnu & T).
  destruct (rbf_R2 solve cholesky fminbound N X f v e M m s HS HX Hf Hm H) as (q1 & q2 & E & Hq & H1 & H2 & H3 & H4).
  { assert (G : 0 < Rpower 10 l) by (unfold Rpower; apply exp_pos).
    unfold chosen in Hch. destruct e as [e|]; destruct Hch as [Hl _]; intros k Hk; rewrite Hl by auto; auto.
    destruct He as (He1 & He2 & He0). apply Rmult_lt_0_compat; [|apply Rinv_0_lt_compat; auto]. apply Rmult_lt_0_compat; auto.
    eapply Rlt_le_trans with (e.[k, 0%nat]); auto. apply (sumf_term_le (nrows e) (fun j => e.[j, 0%nat]) k); auto. lia. }
  assert (Hq2 : 0 < q2). { destruct (Req_dec q2 0) as [Z|Z]; [exfalso; apply Hne; auto|lra]. }
  exists (1 - q1 / q2). split.
  { rewrite E. unfold xdiv. destruct (Req_EM_T q2 0); [lra|reflexivity]. }
  assert (B1 : 0 <= q1 / q2) by (apply Rmult_le_pos; [lra|left; now apply Rinv_0_lt_compat]).
  assert (B2 : q1 / q2 <= 1) by (apply (Rmult_le_reg_r q2); auto; unfold Rdiv; rewrite Rmult_assoc, Rinv_l by lra; lra).
  split; [lra|].
  destruct (rbf_predict_ok s X M m M false HX Hm (r_shape _ _ _ _ _ _ _ _ T)) as (L' & F & EL' & F1 & F2 & D & F3 & _).
  rewrite (r_N _ _ _ _ _ _ _ _ T), EL in EL'. injection EL' as <-.
  assert (FV : forall i, (i < M)%nat -> F.[i, 0%nat] = rbf_value s m (fun k => X.[i, k])).
  { intros i Hi. rewrite F2 by auto. symmetry. apply (rtrained_value N X f M m L nu s Hm EL T). }
  split.
  - intros Z. assert (Z1 : q1 = 0). { assert (q1 / q2 = 0) by lra. apply Rmult_eq_reg_r with (/ q2); [unfold Rdiv in *; lra|apply Rinv_neq_0_compat; lra]. }
    exists F. split; auto. intros i Hi. rewrite FV by auto. now apply H3.
  - intros (F' & E' & Q). rewrite F3 in E'. injection E' as <-. rewrite H4; [unfold Rdiv; ring|]. intros i Hi. rewrite <- FV by auto. auto.
Qed.
Print Assumptions C40_R_squared.

(** the affine data 1 + 2x at 0, 1, 3 *)
Definition X40 : nd R := mat_of [[0]; [1]; [3]].
Definition f40 : nd R := mat_of [[1]; [3]; [7]].
Definition fmin40 (g : R -> res R) : res R := Ok 0.
Definition chol40 (K : nd R) : res (nd R) := Ok K.
Lemma rank40 : forall B L, polynomial_bases X40 1 = Ok (B, L) -> full_rank 3 (ncols B) (fun r i => B.[r, i]).
Proof.
  intros B L E. destruct (polynomial_bases_ok X40 1 3 1 eq_refl ltac:(lia)) as (L' & EL & EB). rewrite EB in E.
  assert (EL2 : index_set 1 1 = Ok [[0]; [1]]%nat) by reflexivity.
  rewrite EL2 in EL. assert (E3 : L' = [[0]; [1]]%nat) by congruence. clear EL EB EL2.
  assert (EB : B = mk2 3 (length L') (fun r i => mono 1 (nth i L' []) (fun j => X40.[r, j]))) by congruence. clear E.
  rewrite EB, E3. clear EB E3. unfold ncols. cbn [shape mk2 nth length]. intros x Hx.
  pose proof (Hx 0%nat ltac:(lia)) as H0. pose proof (Hx 1%nat ltac:(lia)) as H1. clear Hx.
  unfold mono, X40, mat_of in H0, H1. cbn [sumf prodf nth at_ mk2 pow] in H0, H1.
  intros j Hj. destruct j as [|[|j]]; try lia; lra.
Qed.
Example C40_case : exists s, rbf_train solve_ref chol40 fmin40 1 X40 f40 None None = Ok s /\
  forall Y P, shape Y = [P; 1%nat] -> exists F, rbf_predict s Y false = Ok (F, None) /\ shape F = [P; 1%nat] /\
    forall r, (r < P)%nat -> F.[r, 0%nat] = 1 + 2 * Y.[r, 0%nat].
Proof.
  destruct (C40_training_returns solve_ref chol40 fmin40 1 X40 f40 None None 3 1 0 solve_ref_contract) as (s & Hs).
  1-2: reflexivity. lia. cbn; lia. exact rank40. exact I. exact I. reflexivity.
  exists s. split; [exact Hs|]. intros Y P HY.
  destruct (C40_reproduces_polynomials solve_ref chol40 fmin40 1 X40 f40 None None 3 1 s 2 (fun t => match t with O => 1 | _ => 2 end) (fun t j => t) solve_ref_sound) with (Y := Y) (P := P) as (F & F1 & F2 & F3).
  1-2: reflexivity. lia. exact Hs. exact I. exact rank40.
  - intros t Ht. destruct t as [|[|t]]; cbn; lia.
  - intros r Hr. destruct r as [|[|[|r]]]; try lia; unfold terms_eval; cbn; lra.
  - exact HY.
  - exists F. split; [exact F1|]. split; [exact F2|]. intros r Hr. rewrite F3 by exact Hr. unfold terms_eval; cbn. ring.
Qed.
