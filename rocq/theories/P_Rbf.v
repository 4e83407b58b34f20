(** Proofs about RadialBasisApproximation *)
From Coq Require Import String Reals Lra Lia List Arith ZArith Bool FunctionalExtensionality.
From Verif Require Import Prelude Py NumArr LinAlg Lsq M_Misc M_RespSurf P_Misc P_IndexSet P_Poly P_PolyTrain P_PolyFacts GaussPD.
Import ListNotations.
Open Scope R_scope.

(** the squared exponential of two points *)
Definition gauss (m : nat) (ell : nat -> R) (x y : nat -> R) : R :=
  exp (sumf m (fun k => (x k - y k) * (x k - y k) * (-1 / ell k))).

Lemma gauss_sym : forall m ell x y, gauss m ell x y = gauss m ell y x.
Proof. intros. unfold gauss. f_equal. apply sumf_ext. intros. ring. Qed.
Lemma gauss_diag : forall m ell x, gauss m ell x x = 1.
Proof. intros. unfold gauss. rewrite sumf_zero; [apply exp_0|]. intros. ring. Qed.

Lemma exponential_squared_ok : forall X1 X2 sigma ell M n m, shape X1 = [M; m] -> shape X2 = [n; m] -> size ell = m ->
  exponential_squared X1 X2 sigma ell =
    Ok (mk2 M n (fun a i => sigma * gauss m (fun k => ell.[k, 0%nat]) (fun k => X1.[a, k]) (fun k => X2.[i, k]))).
Proof.
  intros. unfold exponential_squared, shape2. rewrite H, H0. cbn [rbind]. unfold bdim. rewrite H1, !Nat.eqb_refl. cbn [negb]. rewrite andb_false_r.
  do 2 f_equal. apply functional_extensionality; intros a. apply functional_extensionality; intros i. unfold gauss. do 2 f_equal. apply sumf_ext; intros k Hk. now rewrite !bidx_ok.
Qed.
Lemma index_set_nonempty : forall N m L, index_set N m = Ok L -> (1 <= length L)%nat.
Proof.
  intros N m L H. unfold index_set in H. destruct m; [destruct N; [|discriminate]|]; injection H as <-; cbn [length map]; lia.
Qed.
Lemma exponential_squared_inv : forall X1 X2 sigma ell M n m K, shape X1 = [M; m] -> shape X2 = [n; m] -> (1 <= n)%nat ->
  exponential_squared X1 X2 sigma ell = Ok K -> size ell = m.
Proof.
  intros X1 X2 sigma ell M n m K H1 H2 Hn H. unfold exponential_squared, shape2 in H. rewrite H1, H2 in H. cbn [rbind] in H. unfold bdim in H.
  rewrite Nat.eqb_refl in H. destruct n; [lia|]. destruct (Nat.eqb_spec m (size ell)); auto. discriminate.
Qed.

Definition dgauss (m : nat) (ell : nat -> R) (x y : nat -> R) (k : nat) : R :=
  -2 * (-1 / ell k) * (x k - y k) * gauss m ell x y.

Lemma grad_exponential_squared_ok : forall X1 X2 sigma ell M n m, shape X1 = [M; m] -> shape X2 = [n; m] -> size ell = m ->
  exists G, grad_exponential_squared X1 X2 sigma ell = Ok G /\ shape G = [M; n; m] /\
  forall a i k, (k < m)%nat -> G.[a, i, k] = sigma * dgauss m (fun k => ell.[k, 0%nat]) (fun k => X1.[a, k]) (fun k => X2.[i, k]) k.
Proof.
  intros. unfold grad_exponential_squared, shape2. rewrite H, H0. cbn [rbind]. unfold bdim. rewrite Nat.eqb_refl. cbv beta iota zeta. rewrite H1, Nat.eqb_refl. cbn [negb]. rewrite andb_false_r.
  assert (E : (negb (Nat.eqb n 0 || Nat.eqb m 0) && Nat.eqb m 0)%bool = false) by (destruct (Nat.eqb n 0), (Nat.eqb m 0); reflexivity). rewrite E.
  eexists. split; [reflexivity|]. split; [reflexivity|]. intros a i k Hk. rewrite at_mk3. unfold dgauss, gauss. rewrite !(bidx_ok m k) by auto.
  rewrite (sumf_ext m _ (fun l => (X1.[a, l] - X2.[i, l]) * (X1.[a, l] - X2.[i, l]) * (-1 / ell.[l, 0%nat]))) by (intros l Hl; now rewrite !(bidx_ok m l)). ring.
Qed.

Lemma gauss_deriv : forall m ell x y k, (k < m)%nat ->
  derivable_pt_lim (fun t => gauss m ell x (set_at y k t)) (y k) (dgauss m ell x y k).
Proof.
  intros m ell x y k Hk.
  set (E := fun t => sumf m (fun l => (x l - set_at y k t l) * (x l - set_at y k t l) * (-1 / ell l))).
  assert (HE : E (y k) = sumf m (fun l => (x l - y l) * (x l - y l) * (-1 / ell l))).
  { unfold E. apply sumf_ext. intros l Hl. now rewrite set_at_id. }
  assert (DE : derivable_pt_lim E (y k) (-2 * (-1 / ell k) * (x k - y k))).
  { replace (-2 * (-1 / ell k) * (x k - y k)) with (sumf m (fun l => kron_delta k l * (-2 * (-1 / ell l) * (x l - y l)))) by
      (apply (sumf_kd_l m k (fun l => -2 * (-1 / ell l) * (x l - y l)) Hk)).
    apply (deriv_sumf m (fun l t => (x l - set_at y k t l) * (x l - set_at y k t l) * (-1 / ell l))). intros l Hl.
    unfold set_at, kron_delta. rewrite (Nat.eqb_sym k l). destruct (Nat.eqb_spec l k) as [->|Nl].
    - replace (1 * (-2 * (-1 / ell k) * (x k - y k))) with (((0 - 1) * (x k - y k) + (x k - y k) * (0 - 1)) * (-1 / ell k)) by ring.
      apply deriv_scal. apply (derivable_pt_lim_mult (fun t => x k - t) (fun t => x k - t)).
      + apply (derivable_pt_lim_minus (fct_cte (x k)) id); [apply derivable_pt_lim_const|apply derivable_pt_lim_id].
      + apply (derivable_pt_lim_minus (fct_cte (x k)) id); [apply derivable_pt_lim_const|apply derivable_pt_lim_id].
    - rewrite Rmult_0_l. apply derivable_pt_lim_const. }
  unfold dgauss. replace (gauss m ell x y) with (exp (E (y k))) by (unfold gauss; now rewrite HE).
  rewrite Rmult_comm. apply (derivable_pt_lim_comp E exp); auto. apply derivable_pt_lim_exp.
Qed.

(** ** predictions *)
Definition rbf_shape (s : rbf) (T m : nat) : Prop :=
  shape (rb_X s) = [T; m] /\ size (rb_ell s) = m /\ shape (rb_rw s) = [T; 1%nat] /\ shape (rb_pw s) = [binom (rb_N s + m) m; 1%nat].

Definition rbf_eval (s : rbf) (T m : nat) (L : list (list nat)) (x : nat -> R) : R :=
  sumf T (fun a => gauss m (fun k => (rb_ell s).[k, 0%nat]) x (fun k => (rb_X s).[a, k]) * (rb_rw s).[a, 0%nat])
  + poly_eval m L (fun c => (rb_pw s).[c, 0%nat]) x.
Definition rbf_deval (s : rbf) (T m : nat) (L : list (list nat)) (k : nat) (x : nat -> R) : R :=
  sumf T (fun a => dgauss m (fun k => (rb_ell s).[k, 0%nat]) (fun k => (rb_X s).[a, k]) x k * (rb_rw s).[a, 0%nat])
  + poly_deval m L (fun c => (rb_pw s).[c, 0%nat]) k x.

Lemma rbf_eval_deriv : forall s T m L k x, (k < m)%nat ->
  derivable_pt_lim (fun t => rbf_eval s T m L (set_at x k t)) (x k) (rbf_deval s T m L k x).
Proof.
  intros s T m L k x Hk. unfold rbf_eval, rbf_deval.
  apply (derivable_pt_lim_plus (fun t => sumf T (fun a => gauss m (fun k => (rb_ell s).[k, 0%nat]) (set_at x k t) (fun k => (rb_X s).[a, k]) * (rb_rw s).[a, 0%nat]))
     (fun t => poly_eval m L (fun c => (rb_pw s).[c, 0%nat]) (set_at x k t))); [|now apply poly_eval_deriv].
  apply (deriv_sumf T (fun a t => gauss m (fun k => (rb_ell s).[k, 0%nat]) (set_at x k t) (fun k => (rb_X s).[a, k]) * (rb_rw s).[a, 0%nat])).
  intros a Ha. apply deriv_scal. eapply derivable_pt_lim_ext; [|now apply gauss_deriv]. intros t. apply gauss_sym.
Qed.

Lemma rbf_predict_ok : forall s X M m T cg, shape X = [M; m] -> (1 <= m)%nat -> rbf_shape s T m ->
  exists L F, index_set (rb_N s) m = Ok L /\ shape F = [M; 1%nat] /\
  (forall r, (r < M)%nat -> F.[r, 0%nat] = rbf_eval s T m L (fun j => X.[r, j])) /\
  exists D, rbf_predict s X cg = Ok (F, if cg then Some D else None) /\ shape D = [M; m] /\
   forall r k, (k < m)%nat -> D.[r, k] = rbf_deval s T m L k (fun j => X.[r, j]).
Proof.
  intros s X M m T cg HX Hm (H1 & H2 & H3 & H4).
  destruct (polynomial_bases_ok X (rb_N s) M m HX Hm) as (L & HL & EB).
  destruct (grad_polynomial_bases_ok X (rb_N s) M m HX Hm) as (L' & HL' & EG). rewrite HL in HL'. injection HL' as <-.
  destruct (grad_exponential_squared_ok (rb_X s) X 1 (rb_ell s) T M m H1 HX H2) as (G & EGK & SG & VG).
  rewrite <- (index_set_length (rb_N s) m Hm L HL) in H4.
  pose proof (exponential_squared_ok X (rb_X s) 1 (rb_ell s) M T m HX H1 H2) as EK.
  set (K := mk2 M T _) in EK. set (B := mk2 M (length L) _) in EB.
  pose proof (mdot_ok K (rb_rw s) M T 1 eq_refl H3) as D1.
  pose proof (mdot_ok B (rb_pw s) M (length L) 1 eq_refl H4) as D2.
  set (F1 := mk2 M 1 _) in D1. set (F2 := mk2 M 1 _) in D2.
  destruct (bcast2_same _ _ _ Rplus F1 F2 M 1 eq_refl eq_refl) as (F & E1 & E2 & E3).
  exists L, F. split; auto. split; auto. split.
  { intros r Hr. rewrite E3 by (auto; lia). unfold F1, F2. rewrite !at_mk2. unfold rbf_eval, poly_eval, K, B. f_equal.
    - apply sumf_ext. intros a Ha. rewrite at_mk2. ring.  }
  eexists. split.
  - unfold rbf_predict. rewrite (process_inputs_eq _ X M m HX). cbn [rbind]. rewrite EK. cbn [rbind]. rewrite EB. cbn [rbind].
    rewrite D1. cbn [rbind]. rewrite D2. cbn [rbind]. rewrite E1. cbn [rbind]. rewrite <- E2, reshape_id. cbn [rbind].
    destruct cg; [|reflexivity]. rewrite EGK. cbn [rbind]. rewrite EG. cbn [rbind]. reflexivity.
  - split; [reflexivity|]. intros r k Hk. rewrite at_mk2. unfold nrows. rewrite SG. cbn [nth]. unfold rbf_deval, poly_deval. f_equal.
    apply sumf_ext. intros a Ha. rewrite VG by auto. ring.
Qed.

(** ** training *)
(** numpy.linalg.solve returns only solutions *)
Definition solve_sound (solve : nd R -> nd R -> res (nd R)) : Prop :=
  forall n p A B V, shape A = [n; n] -> shape B = [n; p] -> solve A B = Ok V ->
  shape V = [n; p] /\ forall i j, (i < n)%nat -> (j < p)%nat -> sumf n (fun k => A.[i, k] * V.[k, j]) = B.[i, j].

(** the length scales and the noise floor chosen in lines 360-371 of train *)
Definition chosen (g : R) (e v : option (nd R)) (M m : nat) (ell : nat -> R) (nu : nat -> R) : Prop :=
  match e with
  | None => (forall k, (k < m)%nat -> ell k = g) /\
            match v with None => forall i, (i < M)%nat -> nu i = / 10 ^ 6
                       | Some v => forall i, (i < M)%nat -> nu i = Rmax (flat v i) (/ 10 ^ 6) end
  | Some e => (forall k, (k < m)%nat -> ell k = g * sumf (nrows e) (fun j => e.[j, 0%nat]) / e.[k, 0%nat]) /\
            match v with None => forall i, (i < M)%nat -> nu i = Rmax (g * sumf (nrows e - m) (fun k => e.[(m + k)%nat, 0%nat])) (/ 10 ^ 6)
                       | Some v => forall i, (i < M)%nat -> nu i = Rmax (flat v i) (/ 10 ^ 6) end
  end.

(** the saddle-point matrix of lines 375-377 *)
Definition saddle (M p : nat) (K B : nat -> nat -> R) (i j : nat) : R :=
  if Nat.ltb j M then (if Nat.ltb i M then K i j else B j (i - M)%nat)
  else (if Nat.ltb i M then B i (j - M)%nat else 0).

Lemma saddle_row1 : forall M p K B w i, (i < M)%nat ->
  sumf (M + p) (fun j => saddle M p K B i j * w j) = sumf M (fun j => K i j * w j) + sumf p (fun c => B i c * w (M + c)%nat).
Proof.
  intros M p K B w i Hi. rewrite sumf_split. f_equal; apply sumf_ext; intros j Hj; unfold saddle.
  - destruct (Nat.ltb_spec j M), (Nat.ltb_spec i M); try lia. reflexivity.
  - destruct (Nat.ltb_spec (M + j) M), (Nat.ltb_spec i M); try lia. now replace (M + j - M)%nat with j by lia.
Qed.
Lemma saddle_row2 : forall M p K B w c, (c < p)%nat ->
  sumf (M + p) (fun j => saddle M p K B (M + c) j * w j) = sumf M (fun j => B j c * w j).
Proof.
  intros M p K B w c Hc. rewrite sumf_split. rewrite (sumf_zero p).
  - rewrite Rplus_0_r. apply sumf_ext. intros j Hj. unfold saddle.
    destruct (Nat.ltb_spec j M), (Nat.ltb_spec (M + c) M); try lia. now replace (M + c - M)%nat with c by lia.
  - intros j Hj. unfold saddle. destruct (Nat.ltb_spec (M + j) M), (Nat.ltb_spec (M + c) M); try lia. ring.
Qed.

(** positive definite top-left block and full-rank B make it nonsingular *)
Lemma saddle_nonsingular : forall M p K B,
  (forall x, (exists i, (i < M)%nat /\ x i <> 0) -> 0 < sumf M (fun i => sumf M (fun j => x i * x j * K i j))) ->
  full_rank M p B ->
  forall w, (forall i, (i < M + p)%nat -> sumf (M + p) (fun j => saddle M p K B i j * w j) = 0) ->
  forall i, (i < M + p)%nat -> w i = 0.
Proof.
  intros M p K B HK HB w Hw.
  assert (H1 : forall i, (i < M)%nat -> sumf M (fun j => K i j * w j) + sumf p (fun c => B i c * w (M + c)%nat) = 0).
  { intros i Hi. rewrite <- saddle_row1 by auto. apply Hw. lia. }
  assert (H2 : forall c, (c < p)%nat -> sumf M (fun j => B j c * w j) = 0).
  { intros c Hc. rewrite <- (saddle_row2 M p K B w c Hc). apply Hw. lia. }
  assert (Q : sumf M (fun i => sumf M (fun j => w i * w j * K i j)) = 0).
  { rewrite (sumf_ext M _ (fun i => - (w i * sumf p (fun c => B i c * w (M + c)%nat)))).
    - rewrite sumf_opp. rewrite (sumf_ext M _ (fun i => sumf p (fun c => B i c * w i * w (M + c)%nat))).
      + rewrite sumf_swap. rewrite sumf_zero; [ring|]. intros c Hc. rewrite sumf_scal_r, H2 by auto. ring.
      + intros i Hi. rewrite <- sumf_scal_l. apply sumf_ext. intros; ring.
    - intros i Hi. specialize (H1 i Hi). rewrite (sumf_ext M _ (fun j => w i * (K i j * w j))) by (intros; ring). rewrite sumf_scal_l.
      replace (sumf M (fun j => K i j * w j)) with (- sumf p (fun c => B i c * w (M + c)%nat)) by lra. ring. }
  assert (Z1 : forall i, (i < M)%nat -> w i = 0).
  { intros i Hi. destruct (Req_dec (w i) 0); auto. exfalso. assert (0 < 0); [|lra]. rewrite <- Q at 2. apply HK. eauto. }
  assert (Z2 : forall c, (c < p)%nat -> w (M + c)%nat = 0).
  { apply (HB (fun c => w (M + c)%nat)). intros i Hi. specialize (H1 i Hi). rewrite sumf_zero in H1; [lra|]. intros j Hj. rewrite Z1 by auto. ring. }
  intros i Hi. destruct (lt_dec i M); [auto|]. replace i with (M + (i - M))%nat by lia. apply Z2. lia.
Qed.

Section RbfTrain.
  Variables (solve : nd R -> nd R -> res (nd R)) (cholesky : nd R -> res (nd R)) (fminbound : (R -> res R) -> res R).

  Lemma scales_chosen : forall g (f : nd R) v e M m ell v0 v1, shape f = [M; 1%nat] ->
    rbf_scales g f m v e = (ell, v0) -> reshape (shape f) v0 = Ok v1 -> size ell = m ->
    chosen g e v M m (fun k => ell.[k, 0%nat]) (fun i => Rmax (v1.[i, 0%nat]) (/ 10 ^ 6)).
  Proof.
    intros g f v e M m ell v0 v1 Hf H HR HS. unfold chosen. rewrite Hf in HR.
    assert (HV : forall v2, v2 = v0 -> forall i, (i < M)%nat -> v1.[i, 0%nat] = flat v2 i).
    { intros v2 -> i Hi. pose proof (reshape_inv _ _ _ _ HR) as [P _]. destruct (reshape_ok _ [M; 1%nat] v0 P) as (Y & Y1 & Y2 & Y3).
      rewrite HR in Y1. injection Y1 as <-. unfold flat.
      rewrite Y3 by (repeat constructor; auto). f_equal. f_equal. cbn. lia. }
    assert (HC : forall c i, (i < M)%nat -> v0 = amap (fun _ => c) f -> v1.[i, 0%nat] = c).
    { intros c i Hi E. rewrite (HV v0 eq_refl i Hi). rewrite E. reflexivity. }
    destruct e as [e|]; cbn in H; injection H as <- Hv.
    - split.
      + intros k Hk. unfold size in HS. cbn in HS. rewrite at_mk2. reflexivity.
      + destruct v as [v|]; intros i Hi; [now rewrite (HV v Hv)|]. now rewrite (HC _ i Hi (eq_sym Hv)).
    - split.
      + intros k Hk. reflexivity.
      + destruct v as [v|]; intros i Hi; [now rewrite (HV v Hv)|]. rewrite (HC _ i Hi (eq_sym Hv)). apply Rmax_left. lra.
  Qed.

  Lemma add_diag_ok : forall K v M, shape v = [M; 1%nat] -> exists K', add_diag K v M = Ok K' /\ shape K' = [M; M] /\
    forall i j, (i < M)%nat -> K'.[i, j] = K.[i, j] + kron_delta i j * v.[i, 0%nat].
  Proof.
    intros K v M Hv. unfold add_diag.
    assert (P : prodn [M] = size v) by (unfold size; rewrite Hv; cbn; lia).
    destruct (reshape_ok _ [M] v P) as (Y & Y1 & Y2 & Y3). rewrite Y1. cbn [rbind].
    eexists. split; [reflexivity|]. split; [reflexivity|]. intros i j Hi. rewrite at_mk2. f_equal. f_equal.
    rewrite Y3 by (repeat constructor; auto). rewrite Hv.
    replace (ravel [M] [i]) with (ravel [M; 1%nat] [i; 0%nat]) by (cbn; lia). rewrite unravel_ravel; auto. repeat constructor; auto.
  Qed.

  (** lines 199-275 with the choices made explicit *)
  Definition train_tail (N M : nat) (X f K B ell : nd R) : res rbf :=
    let p := ncols B in
    do C1 <- vstack K (tr B); do C2 <- vstack B (zeros2 p p); do C <- hstack C1 C2;
    do rhs <- vstack f (zeros2 p 1);
    do w <- solve C rhs;
    let rw := rows_slice w 0 M in let pw := rows_slice w M (nrows w) in
    do Bp <- mdot B pw; do r <- bcast2 Rminus f Bp;
    do Kr <- solve K r; do q1 <- mdot (tr r) Kr;
    do Kf <- solve K f; do q2 <- mdot (tr f) Kf;
    let Rsqr := xsub (Fin 1) (xdiv (Fin (q1.[0%nat, 0%nat])) (Fin (q2.[0%nat, 0%nat]))) in
    Ok {| rb_N := N; rb_X := X; rb_f := f; rb_K := K; rb_ell := ell; rb_Rsqr := Rsqr; rb_rw := rw; rb_pw := pw |}.

  Lemma saddle_system : forall (K B f : nd R) M p, shape K = [M; M] -> shape B = [M; p] -> shape f = [M; 1%nat] ->
    exists C1 C2 C rhs, vstack K (tr B) = Ok C1 /\ vstack B (zeros2 p p) = Ok C2 /\ hstack C1 C2 = Ok C /\ vstack f (zeros2 p 1) = Ok rhs /\
    shape C = [M + p; M + p]%nat /\ shape rhs = [M + p; 1]%nat /\
    (forall i j, (i < M + p)%nat -> (j < M + p)%nat -> C.[i, j] = saddle M p (fun i j => K.[i, j]) (fun i j => B.[i, j]) i j) /\
    (forall i, (i < M)%nat -> rhs.[i, 0%nat] = f.[i, 0%nat]) /\ (forall c, (c < p)%nat -> rhs.[(M + c)%nat, 0%nat] = 0).
  Proof.
    intros K B f M p HK HB Hf.
    assert (E1 : vstack K (tr B) = Ok (mk2 (M + p) M (fun i j => if Nat.ltb i M then K.[i, j] else (tr B).[(i - M)%nat, j]))).
    { unfold vstack, tr. rewrite HK, shape_mk2, (nrows_shape2 _ _ _ _ HB), (ncols_shape2 _ _ _ _ HB), Nat.eqb_refl. reflexivity. }
    assert (E2 : vstack B (zeros2 p p) = Ok (mk2 (M + p) p (fun i j => if Nat.ltb i M then B.[i, j] else (zeros2 p p).[(i - M)%nat, j]))).
    { unfold vstack, zeros2. rewrite HB, shape_mk2, Nat.eqb_refl. reflexivity. }
    assert (E4 : vstack f (zeros2 p 1) = Ok (mk2 (M + p) 1 (fun i j => if Nat.ltb i M then f.[i, j] else (zeros2 p 1).[(i - M)%nat, j]))).
    { unfold vstack, zeros2. rewrite Hf, shape_mk2. reflexivity. }
    eexists _, _, _, _. split; [exact E1|]. split; [exact E2|]. split; [unfold hstack; rewrite !shape_mk2, Nat.eqb_refl; reflexivity|]. split; [exact E4|].
    split; [reflexivity|]. split; [reflexivity|]. split; [|split].
    - intros i j Hi Hj. rewrite at_mk2. unfold saddle, tr, zeros2. rewrite !at_mk2.
      destruct (Nat.ltb_spec j M), (Nat.ltb_spec i M); reflexivity.
    - intros i Hi. rewrite at_mk2. destruct (Nat.ltb_spec i M); [reflexivity|lia].
    - intros c Hc. rewrite at_mk2. destruct (Nat.ltb_spec (M + c) M); [lia|reflexivity].
  Qed.

  Record rtrained (N : nat) (X f : nd R) (M m : nat) (L : list (list nat)) (nu : nat -> R) (s : rbf) : Prop := {
    r_N : rb_N s = N;
    r_X : rb_X s = X;
    r_shape : rbf_shape s M m;
    r_top : forall i, (i < M)%nat ->
       sumf M (fun j => (gauss m (fun k => (rb_ell s).[k, 0%nat]) (fun k => X.[i, k]) (fun k => X.[j, k]) + kron_delta i j * nu i) * (rb_rw s).[j, 0%nat])
       + poly_eval m L (fun c => (rb_pw s).[c, 0%nat]) (fun k => X.[i, k]) = f.[i, 0%nat];
    r_bot : forall c, (c < length L)%nat -> sumf M (fun j => mono m (nth c L []) (fun k => X.[j, k]) * (rb_rw s).[j, 0%nat]) = 0
  }.

  Lemma train_tail_inv : forall N M m X f K L ell nu s, solve_sound solve -> (1 <= m)%nat -> shape X = [M; m] -> shape f = [M; 1%nat] ->
    index_set N m = Ok L -> size ell = m -> shape K = [M; M] ->
    (forall i j, (i < M)%nat -> (j < M)%nat -> K.[i, j] = gauss m (fun k => ell.[k, 0%nat]) (fun k => X.[i, k]) (fun k => X.[j, k]) + kron_delta i j * nu i) ->
    train_tail N M X f K (mk2 M (length L) (fun r i => mono m (nth i L []) (fun j => X.[r, j]))) ell = Ok s ->
    rtrained N X f M m L nu s /\ rb_ell s = ell.
  Proof.
    intros N M m X f K L ell nu s HS Hm HX Hf HL He HK VK H. unfold train_tail in H.
    set (B := mk2 M (length L) (fun r i => mono m (nth i L []) (fun j => X.[r, j]))) in *.
    change (ncols B) with (length L) in H.
    destruct (saddle_system K B f M (length L) HK eq_refl Hf) as (C1 & C2 & C & rhs & Q1 & Q2 & Q3 & Q4 & Q5 & Q6 & Q7 & Q8 & Q9).
    cbv zeta in H. rewrite Q1 in H. cbn [rbind] in H. rewrite Q2 in H. cbn [rbind] in H. rewrite Q3 in H. cbn [rbind] in H.
    rewrite Q4 in H. cbn [rbind] in H. apply rbind_ok in H. destruct H as (w & Ew & H).
    destruct (HS _ _ _ _ _ Q5 Q6 Ew) as [Sw Vw].
    apply rbind_ok in H. destruct H as (Bp & _ & H). apply rbind_ok in H. destruct H as (r & _ & H).
    apply rbind_ok in H. destruct H as (Kr & _ & H). apply rbind_ok in H. destruct H as (q1 & _ & H).
    apply rbind_ok in H. destruct H as (Kf & _ & H). apply rbind_ok in H. destruct H as (q2 & _ & H). injection H as <-.
    split; [|reflexivity].
    assert (SW : forall i, (i < M + length L)%nat -> sumf (M + length L) (fun j => saddle M (length L) (fun i j => K.[i, j]) (fun i j => B.[i, j]) i j * w.[j, 0%nat]) = rhs.[i, 0%nat]).
    { intros i Hi. rewrite <- (Vw i 0%nat) by lia. apply sumf_ext. intros j Hj. now rewrite Q7. }
    constructor; cbn [rb_N rb_X rb_ell rb_rw rb_pw]; auto.
    - unfold rbf_shape. cbn [rb_N rb_X rb_ell rb_rw rb_pw]. split; auto. split; auto. unfold rows_slice.
      rewrite !shape_mk2, (nrows_shape2 _ _ _ _ Sw), (ncols_shape2 _ _ _ _ Sw). rewrite <- (index_set_length N m Hm L HL).
      split; f_equal; lia.
    - intros i Hi. rewrite <- (Q8 i Hi), <- (SW i) by lia. rewrite saddle_row1 by auto. unfold poly_eval, rows_slice. f_equal.
      + apply sumf_ext. intros j Hj. rewrite VK by auto. reflexivity.
    - intros c Hc. rewrite <- (Q9 c Hc), <- (SW (M + c)%nat) by lia. rewrite saddle_row2 by auto. reflexivity.
  Qed.

  Lemma rbf_train_eq : forall N X f v e M m, shape X = [M; m] -> shape f = [M; 1%nat] -> (1 <= m)%nat ->
    exists L, index_set N m = Ok L /\
    rbf_train solve cholesky fminbound N X f v e =
      if Nat.ltb M (length L) then Err (Exc "Not enough points to fit response surface"%string) else
      do log10g <- fminbound (rbf_objective solve cholesky X f v N e);
      let '(ell, v0) := rbf_scales (Rpower 10 log10g) f m v e in
      do v1 <- reshape (shape f) v0;
      do K0 <- exponential_squared X X 1 ell;
      do K <- add_diag K0 (amap (fun a => Rmax a (/ 10 ^ 6)) v1) M;
      train_tail N M X f K (mk2 M (length L) (fun r i => mono m (nth i L []) (fun j => X.[r, j]))) ell.
  Proof.
    intros N X f v e M m HX Hf Hm. destruct (polynomial_bases_ok X N M m HX Hm) as (L & EL & EB). exists L. split; auto.
    unfold rbf_train. rewrite (process_io_eq _ X f M m HX Hf). cbn [rbind]. rewrite <- (index_set_length N m Hm L EL).
    destruct (Nat.ltb M (length L)); auto. destruct (fminbound _) as [l|]; [|reflexivity]. cbn [rbind]. cbv zeta.
    destruct (rbf_scales _ _ _ _ _) as [ell v0]. destruct (reshape _ v0) as [v1|]; [|reflexivity]. cbn [rbind].
    destruct (exponential_squared X X 1 ell) as [K0|]; [|reflexivity]. cbn [rbind].
    destruct (add_diag K0 _ M) as [K|]; [|reflexivity]. cbn [rbind]. rewrite EB. reflexivity.
  Qed.

  Lemma rbf_train_inv : forall N X f v e M m s, solve_sound solve -> shape X = [M; m] -> shape f = [M; 1%nat] -> (1 <= m)%nat ->
    rbf_train solve cholesky fminbound N X f v e = Ok s ->
    exists L l nu, index_set N m = Ok L /\ (length L <= M)%nat /\ fminbound (rbf_objective solve cholesky X f v N e) = Ok l /\
     chosen (Rpower 10 l) e v M m (fun k => (rb_ell s).[k, 0%nat]) nu /\ (forall i, (i < M)%nat -> / 10 ^ 6 <= nu i) /\
     rtrained N X f M m L nu s.
  Proof.
    intros N X f v e M m s HS HX Hf Hm H. destruct (rbf_train_eq N X f v e M m HX Hf Hm) as (L & EL & ET). rewrite ET in H.
    destruct (Nat.ltb_spec M (length L)); [discriminate|]. apply rbind_ok in H. destruct H as (l & El & H). cbv zeta in H.
    destruct (rbf_scales (Rpower 10 l) f m v e) as [ell v0] eqn:ES. apply rbind_ok in H. destruct H as (v1 & Ev & H).
    apply rbind_ok in H. destruct H as (K0 & EK0 & H). apply rbind_ok in H. destruct H as (K & EK & H).
    assert (NE := index_set_nonempty _ _ _ EL). pose proof (exponential_squared_inv _ _ _ _ _ _ _ _ HX HX ltac:(lia) EK0) as Sell.
    pose proof (exponential_squared_ok X X 1 ell M M m HX HX Sell) as EK0'. rewrite EK0 in EK0'. injection EK0' as ->.
    assert (Sv : shape (amap (fun a => Rmax a (/ 10 ^ 6)) v1) = [M; 1%nat]).
    { unfold amap. cbn [shape]. apply reshape_inv in Ev. rewrite Hf in Ev. tauto. }
    destruct (add_diag_ok (mk2 M M (fun a i => 1 * gauss m (fun k => ell.[k, 0%nat]) (fun k => X.[a, k]) (fun k => X.[i, k]))) _ M Sv) as (K' & K1 & K2 & K3).
    rewrite EK in K1. injection K1 as <-.
    destruct (train_tail_inv N M m X f K L ell (fun i => Rmax (v1.[i, 0%nat]) (/ 10 ^ 6)) s HS Hm HX Hf EL Sell K2) as (T & Eell); auto.
    { intros i j Hi Hj. rewrite K3 by auto. rewrite at_mk2. unfold amap. cbn [at_]. ring. }
    exists L, l, (fun i => Rmax (v1.[i, 0%nat]) (/ 10 ^ 6)). split; auto. split; auto. split; auto. split; [|split; auto].
    - rewrite Eell. exact (scales_chosen _ f v e M m ell v0 v1 Hf ES Ev Sell).
    - intros i Hi. apply Rmax_r.
  Qed.
End RbfTrain.

Definition rbf_value (s : rbf) (m : nat) (x : nat -> R) : R :=
  match rbf_predict s (pt m x) false with Ok (F, _) => F.[0%nat, 0%nat] | Err _ => 0 end.
Definition rbf_slope (s : rbf) (m k : nat) (x : nat -> R) : R :=
  match rbf_predict s (pt m x) true with Ok (_, Some D) => D.[0%nat, k] | _ => 0 end.

Lemma rbf_value_ok : forall s m T x L, (1 <= m)%nat -> rbf_shape s T m -> index_set (rb_N s) m = Ok L -> rbf_value s m x = rbf_eval s T m L x.
Proof.
  intros s m T x L Hm HS HL. unfold rbf_value.
  destruct (rbf_predict_ok s (pt m x) 1 m T false eq_refl Hm HS) as (L' & F & E1 & E2 & E3 & D & E4 & _). rewrite HL in E1. injection E1 as <-.
  rewrite E4, E3 by lia. reflexivity.
Qed.

Lemma reg_pd : forall M m (x : nat -> nat -> R) ell nu,
  (forall k, (k < m)%nat -> 0 < ell k) -> (forall i, (i < M)%nat -> / 10 ^ 6 <= nu i) ->
  forall c, (exists i, (i < M)%nat /\ c i <> 0) ->
  0 < sumf M (fun i => sumf M (fun j => c i * c j * (gauss m ell (x i) (x j) + kron_delta i j * nu i))).
Proof.
  intros M m x ell nu Hl Hn c (i0 & Hi0 & Hc).
  rewrite (sumf_ext M _ (fun i => sumf M (fun j => c i * c j * gauss m ell (x i) (x j)) + c i * c i * nu i)).
  - rewrite sumf_plus. pose proof (gauss_psd M m x ell c Hl) as H1.
    assert (H2 : 0 < sumf M (fun i => c i * c i * nu i)).
    { assert (P : forall i, (i < M)%nat -> 0 < nu i).
      { intros i Hi. specialize (Hn i Hi). assert (0 < / 10 ^ 6) by (apply Rinv_0_lt_compat, pow_lt; lra). lra. }
      eapply Rlt_le_trans with (c i0 * c i0 * nu i0).
      - apply Rmult_lt_0_compat; auto. now apply Rsqr_pos_lt.
      - apply (sumf_term_le M (fun i => c i * c i * nu i) i0); auto. intros i Hi. apply Rmult_le_pos; [apply Rle_0_sqr|left; auto]. }
    unfold gauss. lra.
  - intros i Hi. rewrite (sumf_ext M _ (fun j => c i * c j * gauss m ell (x i) (x j) + kron_delta i j * (c i * c j * nu i))) by (intros; ring).
    rewrite sumf_plus. f_equal. apply (sumf_kd_l M i (fun j => c i * c j * nu i) Hi).
Qed.

Section RbfConsequences.
  Variables (N : nat) (X f : nd R) (M m : nat) (L : list (list nat)) (nu : nat -> R) (s : rbf).
  Hypotheses (Hm : (1 <= m)%nat) (EL : index_set N m = Ok L) (T : rtrained N X f M m L nu s).

  Lemma rtrained_value : forall x, rbf_value s m x = rbf_eval s M m L x.
  Proof.
    intros x. apply rbf_value_ok; auto; [apply (r_shape _ _ _ _ _ _ _ _ T)|]. now rewrite (r_N _ _ _ _ _ _ _ _ T).
  Qed.

  Lemma rtrained_residual : forall i, (i < M)%nat -> rbf_value s m (fun k => X.[i, k]) = f.[i, 0%nat] - nu i * (rb_rw s).[i, 0%nat].
  Proof.
    intros i Hi. rewrite rtrained_value. unfold rbf_eval. rewrite (r_X _ _ _ _ _ _ _ _ T).
    pose proof (r_top _ _ _ _ _ _ _ _ T i Hi) as H.
    rewrite (sumf_ext M _ (fun j => gauss m (fun k => (rb_ell s).[k, 0%nat]) (fun k => X.[i, k]) (fun k => X.[j, k]) * (rb_rw s).[j, 0%nat] + kron_delta i j * (nu i * (rb_rw s).[j, 0%nat]))) in H by (intros; ring).
    rewrite sumf_plus, (sumf_kd_l M i (fun j => nu i * (rb_rw s).[j, 0%nat]) Hi) in H. lra.
  Qed.

  Lemma rtrained_orthogonal : forall w, sumf M (fun j => poly_eval m L w (fun k => X.[j, k]) * (rb_rw s).[j, 0%nat]) = 0.
  Proof.
    intros w. rewrite (sumf_ext M _ (fun j => sumf (length L) (fun c => mono m (nth c L []) (fun k => X.[j, k]) * (rb_rw s).[j, 0%nat] * w c))).
    - rewrite sumf_swap. apply sumf_zero. intros c Hc. rewrite sumf_scal_r, (r_bot _ _ _ _ _ _ _ _ T c Hc). ring.
    - intros j Hj. unfold poly_eval. rewrite <- sumf_scal_r. apply sumf_ext. intros; ring.
  Qed.

  Lemma rtrained_exact : forall w, (forall k, (k < m)%nat -> 0 < (rb_ell s).[k, 0%nat]) -> (forall i, (i < M)%nat -> / 10 ^ 6 <= nu i) ->
    full_rank M (length L) (fun r i => mono m (nth i L []) (fun j => X.[r, j])) ->
    (forall i, (i < M)%nat -> f.[i, 0%nat] = poly_eval m L w (fun k => X.[i, k])) ->
    forall x, rbf_value s m x = poly_eval m L w x.
  Proof.
    intros w Hl Hn HR Hf x.
    set (K := fun i j => gauss m (fun k => (rb_ell s).[k, 0%nat]) (fun k => X.[i, k]) (fun k => X.[j, k]) + kron_delta i j * nu i).
    set (B := fun r i => mono m (nth i L []) (fun j => X.[r, j])).
    set (u := fun i => if Nat.ltb i M then (rb_rw s).[i, 0%nat] else (rb_pw s).[(i - M)%nat, 0%nat] - w (i - M)%nat).
    assert (U1 : forall i, (i < M)%nat -> u i = (rb_rw s).[i, 0%nat]) by (intros i Hi; unfold u; destruct (Nat.ltb_spec i M); [auto|lia]).
    assert (U2 : forall c, u (M + c)%nat = (rb_pw s).[c, 0%nat] - w c).
    { intros c. unfold u. destruct (Nat.ltb_spec (M + c) M); [lia|]. now replace (M + c - M)%nat with c by lia. }
    assert (Z : forall i, (i < M + length L)%nat -> u i = 0).
    { apply (saddle_nonsingular M (length L) K B).
      - intros c Hc. apply (reg_pd M m (fun i k => X.[i, k]) (fun k => (rb_ell s).[k, 0%nat]) nu Hl Hn c Hc).
      - exact HR.
      - intros i Hi. destruct (lt_dec i M) as [Hi'|Hi'].
        + rewrite saddle_row1 by auto. pose proof (r_top _ _ _ _ _ _ _ _ T i Hi') as H. rewrite Hf in H by auto.
          rewrite (sumf_ext M _ (fun j => K i j * (rb_rw s).[j, 0%nat])) by (intros j Hj; now rewrite U1).
          rewrite (sumf_ext (length L) _ (fun c => B i c * (rb_pw s).[c, 0%nat] - B i c * w c)) by (intros c Hc; rewrite U2; ring).
          rewrite sumf_minus. unfold poly_eval in H. unfold K, B. lra.
        + replace i with (M + (i - M))%nat by lia. rewrite saddle_row2 by lia.
          rewrite (sumf_ext M _ (fun j => B j (i - M)%nat * (rb_rw s).[j, 0%nat])) by (intros j Hj; now rewrite U1).
          apply (r_bot _ _ _ _ _ _ _ _ T). lia. }
    rewrite rtrained_value. unfold rbf_eval. rewrite sumf_zero.
    - rewrite Rplus_0_l. apply poly_eval_w. intros c Hc. specialize (Z (M + c)%nat ltac:(lia)). rewrite U2 in Z. lra.
    - intros a Ha. rewrite <- U1, Z by lia. ring.
  Qed.
End RbfConsequences.

(** ** training succeeds *)
Lemma rbf_train_returns : forall solve cholesky fminbound N X f v e M m L l,
  solve_contract solve -> shape X = [M; m] -> shape f = [M; 1%nat] -> (1 <= m)%nat ->
  index_set N m = Ok L -> (length L <= M)%nat ->
  full_rank M (length L) (fun r i => mono m (nth i L []) (fun j => X.[r, j])) ->
  match v with None => True | Some v => size v = M end ->
  match e with None => True | Some e => (m <= nrows e)%nat /\ (forall k, (k < m)%nat -> 0 < e.[k, 0%nat]) /\ (forall k, (k < nrows e)%nat -> 0 <= e.[k, 0%nat]) end ->
  fminbound (rbf_objective solve cholesky X f v N e) = Ok l ->
  exists s, rbf_train solve cholesky fminbound N X f v e = Ok s.
Proof.
  intros solve cholesky fminbound N X f v e M m L l HS HX Hf Hm EL HLM HR Hv He Hl.
  destruct (rbf_train_eq solve cholesky fminbound N X f v e M m HX Hf Hm) as (L' & EL' & ET). rewrite EL in EL'. injection EL' as <-.
  rewrite ET. destruct (Nat.ltb_spec M (length L)); [lia|]. rewrite Hl. cbn [rbind]. clear ET Hl.
  destruct (rbf_scales (Rpower 10 l) f m v e) as [ell v0] eqn:ES.
  assert (Sv0 : size v0 = M).
  { unfold rbf_scales in ES. destruct e, v; injection ES as _ <-; auto; unfold size, amap; cbn [shape]; rewrite Hf; cbn; lia. }
  assert (Sell : size ell = m).
  { unfold rbf_scales in ES. destruct e as [e|]; injection ES as <- _; unfold size; rewrite shape_mk2; cbn; [|lia]. destruct He. lia. }
  assert (Pell : forall k, (k < m)%nat -> 0 < ell.[k, 0%nat]).
  { assert (G : 0 < Rpower 10 l) by (unfold Rpower; apply exp_pos).
    intros k Hk. unfold rbf_scales in ES. destruct e as [e|]; injection ES as <- _; rewrite at_mk2; auto.
    destruct He as (He0 & He1 & He2). apply Rmult_lt_0_compat; [|apply Rinv_0_lt_compat; auto]. apply Rmult_lt_0_compat; auto.
    eapply Rlt_le_trans with (e.[k, 0%nat]); auto. apply (sumf_term_le (nrows e) (fun j => e.[j, 0%nat]) k); auto. lia. }
  destruct (reshape_ok _ (shape f) v0) as (v1 & V1 & V2 & _); [rewrite Hf, Sv0; cbn; lia|].
  rewrite V1. cbn [rbind]. rewrite (exponential_squared_ok X X 1 ell M M m HX HX Sell). cbn [rbind].
  set (K0 := mk2 M M _). assert (Sv : shape (amap (fun a => Rmax a (/ 10 ^ 6)) v1) = [M; 1%nat]) by (unfold amap; cbn [shape]; now rewrite V2).
  destruct (add_diag_ok K0 _ M Sv) as (K & K1 & K2 & K3). rewrite K1. cbn [rbind]. unfold train_tail.
  set (B := mk2 M (length L) _). change (ncols B) with (length L).
  destruct (saddle_system K B f M (length L) K2 eq_refl Hf) as (C1 & C2 & C & rhs & Q1 & Q2 & Q3 & Q4 & Q5 & Q6 & Q7 & Q8 & Q9).
  rewrite Q1. cbn [rbind]. rewrite Q2. cbn [rbind]. rewrite Q3. cbn [rbind]. rewrite Q4. cbn [rbind].
  assert (PD : forall c, (exists i, (i < M)%nat /\ c i <> 0) -> 0 < sumf M (fun i => sumf M (fun j => c i * c j * K.[i, j]))).
  { intros c Hc. rewrite (sumf_ext M _ (fun i => sumf M (fun j => c i * c j * (gauss m (fun k => ell.[k, 0%nat]) (fun k => X.[i, k]) (fun k => X.[j, k]) + kron_delta i j * Rmax (v1.[i, 0%nat]) (/ 10 ^ 6))))).
    - apply (reg_pd M m (fun i k => X.[i, k]) (fun k => ell.[k, 0%nat]) (fun i => Rmax (v1.[i, 0%nat]) (/ 10 ^ 6))); auto. intros; apply Rmax_r.
    - intros i Hi. apply sumf_ext. intros j Hj. rewrite K3 by auto. unfold K0. rewrite at_mk2, Rmult_1_l. reflexivity. }
  assert (NK : nonsingular M K).
  { intros x Hx i Hi. destruct (Req_dec (x i) 0); auto. exfalso. assert (P : 0 < 0); [|lra].
    eapply Rlt_le_trans; [apply (PD x); eauto|]. right. apply sumf_zero. intros a Ha.
    rewrite (sumf_ext M _ (fun j => x a * (K.[a, j] * x j))) by (intros; ring). rewrite sumf_scal_l, Hx by auto. ring. }
  assert (NC : nonsingular (M + length L) C).
  { intros x Hx. apply (saddle_nonsingular M (length L) (fun i j => K.[i, j]) (fun i j => B.[i, j])); auto.
    intros i Hi. rewrite <- (Hx i Hi) at 1. apply sumf_ext. intros j Hj. now rewrite Q7. }
  destruct (HS _ _ _ _ Q5 Q6 NC) as (w & W1 & W2 & _). rewrite W1. cbn [rbind]. cbv zeta.
  assert (Sp : shape (rows_slice w M (nrows w)) = [length L; 1%nat]).
  { unfold rows_slice. rewrite shape_mk2, (nrows_shape2 _ _ _ _ W2), (ncols_shape2 _ _ _ _ W2). f_equal. lia. }
  rewrite (mdot_ok B (rows_slice w M (nrows w)) M (length L) 1 eq_refl Sp). cbn [rbind]. set (Bp := mk2 M 1 _).
  destruct (bcast2_same _ _ _ Rminus f Bp M 1 Hf eq_refl) as (r & R1 & R2 & _). rewrite R1. cbn [rbind].
  destruct (HS _ _ _ _ K2 R2 NK) as (Kr & E1 & E2 & _). rewrite E1. cbn [rbind].
  assert (Str : shape (tr r) = [1%nat; M]) by (unfold tr; rewrite shape_mk2, (nrows_shape2 _ _ _ _ R2), (ncols_shape2 _ _ _ _ R2); auto).
  rewrite (mdot_ok (tr r) Kr 1 M 1 Str E2). cbn [rbind].
  destruct (HS _ _ _ _ K2 Hf NK) as (Kf & F1 & F2 & _). rewrite F1. cbn [rbind].
  assert (Stf : shape (tr f) = [1%nat; M]) by (unfold tr; rewrite shape_mk2, (nrows_shape2 _ _ _ _ Hf), (ncols_shape2 _ _ _ _ Hf); auto).
  rewrite (mdot_ok (tr f) Kf 1 M 1 Stf F2). cbn [rbind]. eexists. reflexivity.
Qed.

(** ** R^2 of the radial basis fit *)
Lemma all_zero_or : forall n (a : nat -> R), (forall i, (i < n)%nat -> a i = 0) \/ exists i, (i < n)%nat /\ a i <> 0.
Proof.
  induction n; intros a; [left; intros; lia|]. destruct (IHn a) as [H|(i & H1 & H2)]; [|right; exists i; split; auto].
  destruct (Req_dec (a n) 0) as [E|E]; [left|right; exists n; auto]. intros i Hi. destruct (Nat.eq_dec i n); [subst; auto|apply H; lia].
Qed.
Definition r2_of (r : xr) (q1 q2 : R) : Prop := r = xsub (Fin 1) (xdiv (Fin q1) (Fin q2)).

Lemma rbf_R2 : forall solve cholesky fminbound N X f v e M m s, solve_sound solve -> shape X = [M; m] -> shape f = [M; 1%nat] -> (1 <= m)%nat ->
  rbf_train solve cholesky fminbound N X f v e = Ok s ->
  (forall k, (k < m)%nat -> 0 < (rb_ell s).[k, 0%nat]) ->
  exists q1 q2, r2_of (rb_Rsqr s) q1 q2 /\ 0 <= q1 <= q2 /\
    (q2 = 0 -> forall i, (i < M)%nat -> f.[i, 0%nat] = 0) /\
    ((forall i, (i < M)%nat -> f.[i, 0%nat] = 0) -> q2 = 0) /\
    (q1 = 0 -> forall i, (i < M)%nat -> rbf_value s m (fun k => X.[i, k]) = f.[i, 0%nat]) /\
    ((forall i, (i < M)%nat -> rbf_value s m (fun k => X.[i, k]) = f.[i, 0%nat]) -> q1 = 0).
Proof.
  intros solve cholesky fminbound N X f v e M m s HS HX Hf Hm H Pell.
  pose proof H as H0. destruct (rbf_train_inv solve cholesky fminbound N X f v e M m s HS HX Hf Hm H0) as (L & l & nu & EL & HLM & El & Hch & Hnu & T).
  (* the kernel matrix and the two solves *)
  destruct (rbf_train_eq solve cholesky fminbound N X f v e M m HX Hf Hm) as (L' & EL' & ET). rewrite EL in EL'. injection EL' as <-. rewrite ET in H. clear ET.
  destruct (Nat.ltb_spec M (length L)); [discriminate|]. rewrite El in H. cbn [rbind] in H.
  destruct (rbf_scales (Rpower 10 l) f m v e) as [ell v0] eqn:ES. apply rbind_ok in H. destruct H as (v1 & Ev & H).
  apply rbind_ok in H. destruct H as (K0 & EK0 & H). apply rbind_ok in H. destruct H as (K & EK & H).
  assert (NE := index_set_nonempty _ _ _ EL). pose proof (exponential_squared_inv _ _ _ _ _ _ _ _ HX HX ltac:(lia) EK0) as Sell.
  pose proof (exponential_squared_ok X X 1 ell M M m HX HX Sell) as EK0'. rewrite EK0 in EK0'. injection EK0' as ->.
  assert (Sv : shape (amap (fun a => Rmax a (/ 10 ^ 6)) v1) = [M; 1%nat]).
  { unfold amap. cbn [shape]. apply reshape_inv in Ev. rewrite Hf in Ev. tauto. }
  destruct (add_diag_ok (mk2 M M (fun a i => 1 * gauss m (fun k => ell.[k, 0%nat]) (fun k => X.[a, k]) (fun k => X.[i, k]))) _ M Sv) as (K' & K1 & K2 & K3).
  rewrite EK in K1. injection K1 as <-.
  set (n1 := fun i => Rmax (v1.[i, 0%nat]) (/ 10 ^ 6)).
  assert (VK : forall i j, (i < M)%nat -> (j < M)%nat -> K.[i, j] = gauss m (fun k => ell.[k, 0%nat]) (fun k => X.[i, k]) (fun k => X.[j, k]) + kron_delta i j * n1 i).
  { intros i j Hi Hj. rewrite K3 by auto. rewrite at_mk2. unfold amap. cbn [at_]. unfold n1. ring. }
  destruct (train_tail_inv solve N M m X f K L ell n1 s HS Hm HX Hf EL Sell K2 VK H) as (T1 & Eell).
  clear T Hch Hnu nu. rename T1 into T.
  rewrite Eell in Pell.
  assert (PD : forall c, (exists i, (i < M)%nat /\ c i <> 0) -> 0 < sumf M (fun i => sumf M (fun j => c i * c j * K.[i, j]))).
  { intros c Hc. rewrite (sumf_ext M _ (fun i => sumf M (fun j => c i * c j * (gauss m (fun k => ell.[k, 0%nat]) (fun k => X.[i, k]) (fun k => X.[j, k]) + kron_delta i j * n1 i)))).
    - apply (reg_pd M m (fun i k => X.[i, k]) (fun k => ell.[k, 0%nat]) n1); auto. intros; apply Rmax_r.
    - intros i Hi. apply sumf_ext. intros j Hj. now rewrite VK. }
  assert (Ksym : forall i j, (i < M)%nat -> (j < M)%nat -> K.[i, j] = K.[j, i]).
  { intros i j Hi Hj. rewrite !VK by auto. rewrite gauss_sym. f_equal. unfold kron_delta. destruct (Nat.eqb_spec i j), (Nat.eqb_spec j i); subst; try lia; ring. }
  assert (NK : forall x, (forall i, (i < M)%nat -> sumf M (fun k => K.[i, k] * x k) = 0) -> forall i, (i < M)%nat -> x i = 0).
  { intros x Hx i Hi. destruct (Req_dec (x i) 0); auto. exfalso. assert (P : 0 < 0); [|lra].
    eapply Rlt_le_trans; [apply (PD x); eauto|]. right. apply sumf_zero. intros a Ha.
    rewrite (sumf_ext M _ (fun j => x a * (K.[a, j] * x j))) by (intros; ring). rewrite sumf_scal_l, Hx by auto. ring. }
  unfold train_tail in H. set (B := mk2 M (length L) (fun r i => mono m (nth i L []) (fun j => X.[r, j]))) in *. cbv zeta in H. change (ncols B) with (length L) in H.
  destruct (saddle_system K B f M (length L) K2 eq_refl Hf) as (C1 & C2 & C & rhs & Q1 & Q2 & Q3 & Q4 & Q5 & Q6 & Q7 & Q8 & Q9).
  rewrite Q1 in H. cbn [rbind] in H. rewrite Q2 in H. cbn [rbind] in H. rewrite Q3 in H. cbn [rbind] in H.
  rewrite Q4 in H. cbn [rbind] in H. apply rbind_ok in H. destruct H as (w & Ew & H).
  destruct (HS _ _ _ _ _ Q5 Q6 Ew) as [Sw _].
  assert (Sp : shape (rows_slice w M (nrows w)) = [length L; 1%nat]).
  { unfold rows_slice. rewrite shape_mk2, (nrows_shape2 _ _ _ _ Sw), (ncols_shape2 _ _ _ _ Sw). f_equal. lia. }
  rewrite (mdot_ok B (rows_slice w M (nrows w)) M (length L) 1 eq_refl Sp) in H. cbn [rbind] in H. set (Bp := mk2 M 1 _) in H.
  destruct (bcast2_same _ _ _ Rminus f Bp M 1 Hf eq_refl) as (r & R1 & R2 & R3). rewrite R1 in H. cbn [rbind] in H.
  apply rbind_ok in H. destruct H as (Kr & E1 & H). destruct (HS _ _ _ _ _ K2 R2 E1) as [SKr VKr].
  assert (Str : shape (tr r) = [1%nat; M]) by (unfold tr; rewrite shape_mk2, (nrows_shape2 _ _ _ _ R2), (ncols_shape2 _ _ _ _ R2); auto).
  rewrite (mdot_ok (tr r) Kr 1 M 1 Str SKr) in H. cbn [rbind] in H.
  apply rbind_ok in H. destruct H as (Kf & E2 & H). destruct (HS _ _ _ _ _ K2 Hf E2) as [SKf VKf].
  assert (Stf : shape (tr f) = [1%nat; M]) by (unfold tr; rewrite shape_mk2, (nrows_shape2 _ _ _ _ Hf), (ncols_shape2 _ _ _ _ Hf); auto).
  rewrite (mdot_ok (tr f) Kf 1 M 1 Stf SKf) in H. cbn [rbind] in H.
  injection H as Es.
  set (rw := fun i => (rb_rw s).[i, 0%nat]). set (y := fun i => Kf.[i, 0%nat]).
  set (p := fun i => poly_eval m L (fun c => (rb_pw s).[c, 0%nat]) (fun k => X.[i, k])).
  assert (Hr : forall i, (i < M)%nat -> r.[i, 0%nat] = f.[i, 0%nat] - p i).
  { intros i Hi. rewrite R3 by (auto; lia). f_equal. unfold p, Bp, poly_eval. rewrite at_mk2, <- Es. reflexivity. }
  assert (Krw : forall i, (i < M)%nat -> sumf M (fun j => K.[i, j] * rw j) = r.[i, 0%nat]).
  { intros i Hi. pose proof (r_top _ _ _ _ _ _ _ _ T i Hi) as Q. rewrite Hr by auto. fold (p i) in Q.
    rewrite (sumf_ext M _ (fun j => (gauss m (fun k => (rb_ell s).[k, 0%nat]) (fun k => X.[i, k]) (fun k => X.[j, k]) + kron_delta i j * n1 i) * (rb_rw s).[j, 0%nat])); [lra|].
    intros j Hj. rewrite VK by auto. rewrite Eell. reflexivity. }
  assert (EKr : forall i, (i < M)%nat -> Kr.[i, 0%nat] = rw i).
  { assert (Q : forall i, (i < M)%nat -> (fun i => Kr.[i, 0%nat] - rw i) i = 0).
    { apply NK. intros i Hi. rewrite (sumf_ext M _ (fun k => K.[i, k] * Kr.[k, 0%nat] - K.[i, k] * rw k)) by (intros; ring).
      rewrite sumf_minus, VKr, Krw by (auto; lia). ring. }
    intros i Hi. specialize (Q i Hi). cbv beta in Q. lra. }
  assert (Ky : forall i, (i < M)%nat -> sumf M (fun j => K.[i, j] * y j) = f.[i, 0%nat]) by (intros i Hi; apply VKf; auto; lia).
  set (q1 := sumf M (fun i => r.[i, 0%nat] * rw i)). set (q2 := sumf M (fun i => f.[i, 0%nat] * y i)).
  assert (ER : rb_Rsqr s = xsub (Fin 1) (xdiv (Fin q1) (Fin q2))).
  { rewrite <- Es. cbn [rb_Rsqr].
    assert (G1 : sumf M (fun i => r.[i, 0%nat] * Kr.[i, 0%nat]) = q1) by (unfold q1; apply sumf_ext; intros i Hi; now rewrite EKr).
    change (xsub (Fin 1) (xdiv (Fin (sumf M (fun i => r.[i, 0%nat] * Kr.[i, 0%nat]))) (Fin q2)) = xsub (Fin 1) (xdiv (Fin q1) (Fin q2))).
    now rewrite G1. }
  set (qf := fun a b : nat -> R => sumf M (fun i => sumf M (fun j => a i * b j * K.[i, j]))).
  assert (QF : forall a b c, (forall i, (i < M)%nat -> sumf M (fun j => K.[i, j] * b j) = c i) -> qf a b = sumf M (fun i => a i * c i)).
  { intros a b c Hc. unfold qf. apply sumf_ext. intros i Hi. rewrite <- (Hc i Hi), <- sumf_scal_l. apply sumf_ext. intros; ring. }
  assert (QP : forall a, (forall i, (i < M)%nat -> a i = 0) \/ 0 < qf a a).
  { intros a. destruct (all_zero_or M a) as [Z|Z]; [left; auto|right; now apply PD]. }
  assert (QP0 : forall a, 0 <= qf a a).
  { intros a. destruct (QP a) as [Z|P]; [|lra]. right. unfold qf. symmetry. apply sumf_zero. intros i Hi. apply sumf_zero. intros j Hj. rewrite Z by auto. ring. }
  assert (QZ : forall a, qf a a = 0 -> forall i, (i < M)%nat -> a i = 0).
  { intros a E. destruct (QP a); auto. lra. }
  assert (E1q : q1 = qf rw rw).
  { rewrite (QF rw rw (fun i => r.[i, 0%nat]) Krw). unfold q1. apply sumf_ext. intros; ring. }
  assert (E2q : q2 = qf y y).
  { rewrite (QF y y (fun i => f.[i, 0%nat]) Ky). unfold q2. apply sumf_ext. intros; ring. }
  set (z := fun i => y i - rw i).
  assert (Kz : forall i, (i < M)%nat -> sumf M (fun j => K.[i, j] * z j) = p i).
  { intros i Hi. unfold z. rewrite (sumf_ext M _ (fun j => K.[i, j] * y j - K.[i, j] * rw j)) by (intros; ring).
    rewrite sumf_minus, Ky, Krw, Hr by auto. ring. }
  assert (Cross : qf rw z = 0).
  { rewrite (QF rw z p Kz). rewrite <- (rtrained_orthogonal N X f M m L n1 s T (fun c => (rb_pw s).[c, 0%nat])). apply sumf_ext. intros; unfold p, rw; ring. }
  assert (Cross2 : qf z rw = 0).
  { rewrite <- Cross. unfold qf. rewrite sumf_swap. apply sumf_ext. intros i Hi. apply sumf_ext. intros j Hj. rewrite (Ksym i j) by auto. ring. }
  assert (EQ : q2 = q1 + qf z z).
  { rewrite E2q, E1q. assert (D : qf y y = qf rw rw + qf rw z + qf z rw + qf z z).
    { unfold qf. rewrite <- !sumf_plus. apply sumf_ext. intros i Hi. rewrite <- !sumf_plus. apply sumf_ext. intros j Hj. unfold z. ring. }
    rewrite D, Cross, Cross2. ring. }
  exists q1, q2. split; [exact ER|]. pose proof (QP0 rw). pose proof (QP0 z). split; [lra|].
  assert (n1pos : forall i, 0 < n1 i).
  { intros i. unfold n1. apply Rlt_le_trans with (/ 10 ^ 6); [apply Rinv_0_lt_compat, pow_lt; lra|apply Rmax_r]. }
  split; [|split; [|split]].
  - intros Z i Hi. rewrite <- (Ky i Hi). apply sumf_zero. intros j Hj. rewrite (QZ y) by (auto; lra). ring.
  - intros Z. unfold q2. apply sumf_zero. intros i Hi. rewrite Z by auto. ring.
  - intros Z i Hi. rewrite (rtrained_residual N X f M m L n1 s Hm EL T i Hi). fold (rw i). rewrite (QZ rw) by (auto; lra). ring.
  - intros Z. unfold q1. apply sumf_zero. intros i Hi.
    assert (E0 : rw i = 0).
    { pose proof (rtrained_residual N X f M m L n1 s Hm EL T i Hi) as Q. rewrite Z in Q by auto. fold (rw i) in Q.
      assert (Q' : n1 i * rw i = 0) by lra. apply Rmult_integral in Q'. destruct Q'; auto. specialize (n1pos i). lra. }
    rewrite E0. ring.
Qed.
