(** C76-C78: how RadialBasisApproximation chooses its length scale
    (utils/response_surfaces.py 199-388) *)
From Coq Require Import String Reals Lra Lia List Arith ZArith Bool FunctionalExtensionality.
From Verif Require Import Prelude Py NumArr LinAlg Lsq M_Misc M_RespSurf P_Misc P_IndexSet P_Poly P_PolyTrain P_PolyFacts GaussPD Cholesky SolveRef P_Rbf P_RbfObj GaussSPD Toy Properties_RespSurf.
Import ListNotations.
Open Scope R_scope.

(** ** C76 *)

Lemma nsum_list : forall al m, length al = m -> nsum m (fun j => nth j al 0%nat) = list_sum al.
Proof.
  intros al m <-. unfold nsum. f_equal. clear. induction al as [|a al IH]; [reflexivity|]. cbn [length seq map nth]. f_equal. rewrite <- seq_shift, map_map. exact IH.
Qed.
Lemma eval_terms : forall N m I beta, (1 <= m)%nat -> index_set N m = Ok I -> let ex t j := nth j (nth t I []) 0%nat in
  (forall t, (t < length I)%nat -> (nsum m (ex t) <= N)%nat) /\ forall x, poly_eval m I beta x = terms_eval m (length I) beta ex x.
Proof.
  intros N m I beta Hm HI ex. split.
  - intros t Ht. unfold ex. destruct (proj1 (index_set_In N m Hm I (nth t I []) HI) (nth_In I [] Ht)) as [A B]. rewrite nsum_list by auto. exact B.
  - intros x. unfold poly_eval, terms_eval. apply sumf_ext. intros t Ht. unfold mono, ex. ring.
Qed.

(** squared-exponential kernel with length scales ell, plus noise nu on the diagonal *)
Definition noisy (m : nat) (ell nu : nat -> R) (X : nd R) (i j : nat) : R :=
  exp (sumf m (fun k => (X.[i, k] - X.[j, k]) * (X.[i, k] - X.[j, k]) * (-1 / ell k))) + kron_delta i j * nu i.

(** L is the Cholesky factor of kernel plus noise, q the smallest value of |L^-1 (f - p)|^2 over
    the polynomials p of degree at most N; the objective is log(det L) + M log(max(q / M, 5 eps)) *)
Definition objective_value (M m N : nat) (ell nu : nat -> R) (X : nd R) (f : nat -> R) (L : nd R) (q : R) : Prop :=
  chol_factor M (mk2 M M (noisy m ell nu X)) L /\
  (forall T a ex z, (forall t, (t < T)%nat -> (nsum m (ex t) <= N)%nat) ->
     (forall i, (i < M)%nat -> sumf M (fun k => L.[i, k] * z k) = f i - terms_eval m T a ex (fun k => X.[i, k])) -> q <= sumf M (fun k => z k * z k)) /\
  (exists T a ex z, (forall t, (t < T)%nat -> (nsum m (ex t) <= N)%nat) /\
     (forall i, (i < M)%nat -> sumf M (fun k => L.[i, k] * z k) = f i - terms_eval m T a ex (fun k => X.[i, k])) /\ q = sumf M (fun k => z k * z k)).

Theorem C76_objective : forall solve cholesky N X f v e M m lg ell nu,
  solve_contract solve -> cholesky_contract cholesky -> shape X = [M; m] -> shape f = [M; 1%nat] -> (1 <= m)%nat ->
  (forall B I, polynomial_bases X N = Ok (B, I) -> full_rank M (ncols B) (fun r i => B.[r, i])) ->
  match v with None => True | Some v => size v = M end -> match e with None => True | Some e => (m <= nrows e)%nat end -> raw_scales (Rpower 10 lg) e v M m ell nu ->
  posdef M (noisy m ell nu X) ->
  exists L q, objective_value M m N ell nu X (fun i => f.[i, 0%nat]) L q /\
    rbf_objective solve cholesky X f v N e lg = Ok (sumf M (fun i => ln (L.[i, i])) + INR M * ln (Rmax (q / INR M) (5 / 2 ^ 52))).
Proof.
  intros solve cholesky N X f v e M m lg ell nu HS HC HX Hf Hm HB Hv He RS PD.
  destruct (polynomial_bases_ok X N M m HX Hm) as (I & HI & EB). assert (HR := HB _ _ EB).
  destruct (objective_run solve cholesky N X f v e M m I lg ell nu HS HC HX Hf Hm HI HR Hv He RS PD) as (L & beta & u & R). cbv zeta in R. destruct R as (CF & KU & BU & RUN).
  assert (CF' := CF). set (r := fun i => f.[i, 0%nat] - poly_eval m I beta (fun k => X.[i, k])) in *.
  exists L, (sumf M (fun i => r i * u i)). split; [|exact RUN]. split; [exact CF|].
  destruct CF as (SL & TL & DL & EL).
  (* for every residual there are u' with K u' = r' and z with L z = r' *)
  assert (SO : forall r' : nat -> R, exists u', forall i, (i < M)%nat -> sumf M (fun j => kern m ell nu X i j * u' j) = r' i).
  { intros r'. destruct (HS M 1%nat (mk2 M M (kern m ell nu X)) (mk2 M 1 (fun i _ => r' i)) eq_refl eq_refl) as (V & _ & _ & Q); [apply pd_nonsingular; exact PD|].
    exists (fun j => V.[j, 0%nat]). intros i Hi. exact (Q i 0%nat Hi ltac:(lia)). }
  split.
  - intros T a ex z Hex Hz. destruct (terms_collect N m I HI Hm T a ex Hex) as (w & Ew).
    destruct (SO (fun i => f.[i, 0%nat] - poly_eval m I w (fun k => X.[i, k]))) as (u' & HU').
    rewrite <- (whiten M (mk2 M M (kern m ell nu X)) L u' (fun i => f.[i, 0%nat] - poly_eval m I w (fun k => X.[i, k])) z CF' HU').
    + apply (gls M (length I) (kern m ell nu X) (fun i c => mono m (nth c I []) (fun k => X.[i, k])) (fun i => f.[i, 0%nat]) beta w u u'); auto. intros; apply kern_sym.
    + intros i Hi. rewrite Hz by auto. now rewrite Ew.
  - destruct (eval_terms N m I beta Hm HI) as [D EV].
    set (z := fun k => sumf M (fun j => L.[j, k] * u j)).
    assert (HZ : forall i, (i < M)%nat -> sumf M (fun k => L.[i, k] * z k) = r i).
    { intros i Hi. unfold r. rewrite <- KU by auto. unfold z. rewrite (sumf_ext M _ (fun k => sumf M (fun j => L.[i, k] * L.[j, k] * u j))) by (intros; rewrite <- sumf_scal_l; apply sumf_ext; intros; ring).
      rewrite sumf_swap. apply sumf_ext. intros j Hj. rewrite sumf_scal_r, EL by auto. reflexivity. }
    exists (length I), beta, (fun t j => nth j (nth t I []) 0%nat), z. split; [exact D|]. split.
    + intros i Hi. rewrite HZ by auto. unfold r. now rewrite EV.
    + apply (whiten M (mk2 M M (kern m ell nu X)) L u r z CF'); auto.
Qed.
Print Assumptions C76_objective.

(** the value determines itself *)
Lemma value_unique : forall M m N ell nu X f L q L' q', objective_value M m N ell nu X f L q -> objective_value M m N ell nu X f L' q' ->
  (forall i, (i < M)%nat -> L'.[i, i] = L.[i, i]) /\ q' = q.
Proof.
  intros M m N ell nu X f L q L' q' (C & A & (T & a & ex & z & D & Z & E)) (C' & A' & (T' & a' & ex' & z' & D' & Z' & E')).
  assert (U := chol_unique _ _ _ _ C C'). split; [intros i Hi; symmetry; now apply U|]. apply Rle_antisym.
  - rewrite E. apply (A' T a ex z D). intros i Hi. rewrite <- Z by auto. apply sumf_ext. intros k Hk. now rewrite U.
  - rewrite E'. apply (A T' a' ex' z' D'). intros i Hi. rewrite <- Z' by auto. apply sumf_ext. intros k Hk. now rewrite U.
Qed.

(** two lists of terms in one *)
Lemma terms_app : forall m T T' a a' ex ex' s t x,
  terms_eval m (T + T') (fun u => if Nat.ltb u T then s * a u else t * a' (u - T)%nat) (fun u => if Nat.ltb u T then ex u else ex' (u - T)%nat) x = s * terms_eval m T a ex x + t * terms_eval m T' a' ex' x.
Proof.
  intros. unfold terms_eval. rewrite sumf_split, <- !sumf_scal_l. f_equal; apply sumf_ext; intros i Hi.
  - rewrite (proj2 (Nat.ltb_lt i T) Hi). ring.
  - rewrite (proj2 (Nat.ltb_ge (T + i) T)) by lia. replace (T + i - T)%nat with i by lia. ring.
Qed.
Lemma terms_app_deg : forall m N T T' (ex ex' : nat -> nat -> nat), (forall t, (t < T)%nat -> (nsum m (ex t) <= N)%nat) -> (forall t, (t < T')%nat -> (nsum m (ex' t) <= N)%nat) ->
  forall t, (t < T + T')%nat -> (nsum m (if Nat.ltb t T then ex t else ex' (t - T)%nat) <= N)%nat.
Proof. intros m N T T' ex ex' H H' t Ht. destruct (Nat.ltb_spec t T); [auto|apply H'; lia]. Qed.

(** data c f + p: the same factor, c^2 q *)
Lemma value_affine : forall M m N ell nu X f L q c T a ex, c <> 0 -> (forall t, (t < T)%nat -> (nsum m (ex t) <= N)%nat) -> objective_value M m N ell nu X f L q ->
  objective_value M m N ell nu X (fun i => c * f i + terms_eval m T a ex (fun k => X.[i, k])) L (c * c * q).
Proof.
  intros M m N ell nu X f L q c T a ex Hc Hex (C & A & (T1 & a1 & ex1 & z & D & Z & E)). split; [exact C|]. split.
  - intros T2 a2 ex2 z2 H2 HZ2.
    assert (Q := A (T2 + T)%nat (fun u => if Nat.ltb u T2 then / c * a2 u else - / c * a (u - T2)%nat) (fun u => if Nat.ltb u T2 then ex2 u else ex (u - T2)%nat) (fun k => / c * z2 k) (terms_app_deg m N T2 T ex2 ex H2 Hex)).
    assert (Q' : q <= sumf M (fun k => / c * z2 k * (/ c * z2 k))).
    { apply Q. intros i Hi. rewrite terms_app. rewrite (sumf_ext M _ (fun k => / c * (L.[i, k] * z2 k))) by (intros; ring). rewrite sumf_scal_l, HZ2 by auto. field. auto. }
    rewrite (sumf_ext M _ (fun k => / c * / c * (z2 k * z2 k))) in Q' by (intros; ring). rewrite sumf_scal_l in Q'.
    assert (P : 0 < c * c) by (apply Rsqr_pos_lt; auto). apply Rmult_le_compat_l with (r := c * c) in Q'; [|lra].
    replace (c * c * (/ c * / c * sumf M (fun k => z2 k * z2 k))) with (sumf M (fun k => z2 k * z2 k)) in Q' by (field; auto). exact Q'.
  - exists (T1 + T)%nat, (fun u => if Nat.ltb u T1 then c * a1 u else 1 * a (u - T1)%nat), (fun u => if Nat.ltb u T1 then ex1 u else ex (u - T1)%nat), (fun k => c * z k).
    split; [now apply terms_app_deg|]. split.
    + intros i Hi. rewrite terms_app. rewrite (sumf_ext M _ (fun k => c * (L.[i, k] * z k))) by (intros; ring). rewrite sumf_scal_l, Z by auto. ring.
    + rewrite E, <- sumf_scal_l. apply sumf_ext. intros; ring.
Qed.

(** scaling the data by c and adding a polynomial that the fit contains shifts the objective by
    M log(c^2), so that its minimiser stays where it was *)
Theorem C76_affine : forall solve cholesky N X f f' v e M m lg ell nu c T a ex,
  solve_contract solve -> cholesky_contract cholesky -> shape X = [M; m] -> shape f = [M; 1%nat] -> shape f' = [M; 1%nat] -> (1 <= m)%nat ->
  (forall B I, polynomial_bases X N = Ok (B, I) -> full_rank M (ncols B) (fun r i => B.[r, i])) ->
  match v with None => True | Some v => size v = M end -> match e with None => True | Some e => (m <= nrows e)%nat end -> raw_scales (Rpower 10 lg) e v M m ell nu ->
  posdef M (noisy m ell nu X) ->
  c <> 0 -> (forall t, (t < T)%nat -> (nsum m (ex t) <= N)%nat) ->
  (forall i, (i < M)%nat -> f'.[i, 0%nat] = c * f.[i, 0%nat] + terms_eval m T a ex (fun k => X.[i, k])) ->
  exists d q, rbf_objective solve cholesky X f v N e lg = Ok (d + INR M * ln (Rmax (q / INR M) (5 / 2 ^ 52))) /\
    rbf_objective solve cholesky X f' v N e lg = Ok (d + INR M * ln (Rmax (c * c * q / INR M) (5 / 2 ^ 52))) /\ 0 <= q /\
    (c = 1 -> rbf_objective solve cholesky X f' v N e lg = rbf_objective solve cholesky X f v N e lg) /\
    (5 / 2 ^ 52 <= q / INR M -> 5 / 2 ^ 52 <= c * c * q / INR M -> exists o, rbf_objective solve cholesky X f v N e lg = Ok o /\ rbf_objective solve cholesky X f' v N e lg = Ok (o + INR M * ln (c * c))).
Proof.
  intros solve cholesky N X f f' v e M m lg ell nu c T a ex HS HC HX Hf Hf' Hm HB Hv He RS PD Hc Hex Ef.
  destruct (C76_objective solve cholesky N X f v e M m lg ell nu HS HC HX Hf Hm HB Hv He RS PD) as (L & q & V & E).
  destruct (C76_objective solve cholesky N X f' v e M m lg ell nu HS HC HX Hf' Hm HB Hv He RS PD) as (L' & q' & V' & E').
  assert (VA := value_affine M m N ell nu X _ L q c T a ex Hc Hex V).
  assert (VB : objective_value M m N ell nu X (fun i => c * f.[i, 0%nat] + terms_eval m T a ex (fun k => X.[i, k])) L' q').
  { destruct V' as (C1 & A1 & (T1 & a1 & ex1 & z1 & D1 & Z1 & E1)). split; [exact C1|]. split.
    - intros T2 a2 ex2 z2 D2 Z2. apply (A1 T2 a2 ex2 z2 D2). intros i Hi. rewrite Ef by auto. auto.
    - exists T1, a1, ex1, z1. split; auto. split; auto. intros i Hi. rewrite <- Ef by auto. auto. }
  destruct (value_unique _ _ _ _ _ _ _ _ _ _ _ VA VB) as [UL Uq].
  assert (E2 : rbf_objective solve cholesky X f' v N e lg = Ok (sumf M (fun i => ln (L.[i, i])) + INR M * ln (Rmax (c * c * q / INR M) (5 / 2 ^ 52)))).
  { rewrite E', Uq. do 2 f_equal. apply sumf_ext. intros i Hi. now rewrite UL. }
  assert (Q0 : 0 <= q). { destruct V as (_ & _ & (T1 & a1 & ex1 & z1 & D1 & Z1 & ->)). apply sumf_sq_nonneg. }
  exists (sumf M (fun i => ln (L.[i, i]))), q. split; [exact E|]. split; [exact E2|]. split; [exact Q0|]. split.
  - intros ->. rewrite E, E2. now replace (1 * 1 * q) with q by ring.
  - intros H1 H2. eexists. split; [exact E|]. rewrite E2. f_equal. rewrite !Rmax_left by auto.
    assert (Pf : 0 < 5 / 2 ^ 52) by (apply Rdiv_lt_0_compat; [lra|apply pow_lt; lra]).
    replace (c * c * q / INR M) with (q / INR M * (c * c)) by (unfold Rdiv; ring). rewrite ln_mult; [ring|lra|]. apply Rsqr_pos_lt; auto.
Qed.
Print Assumptions C76_affine.

(** fits with the same scales are linear in the data *)
Lemma fit_linear : forall N X f1 f2 f3 M m I nu1 nu2 nu3 s1 s2 s3 w a b, (1 <= m)%nat -> index_set N m = Ok I ->
  full_rank M (length I) (fun r i => mono m (nth i I []) (fun j => X.[r, j])) ->
  rtrained N X f1 M m I nu1 s1 -> rtrained N X f2 M m I nu2 s2 -> rtrained N X f3 M m I nu3 s3 ->
  (forall k, (k < m)%nat -> 0 < (rb_ell s1).[k, 0%nat]) -> (forall i, (i < M)%nat -> / 10 ^ 6 <= nu1 i) ->
  (forall k, (k < m)%nat -> (rb_ell s2).[k, 0%nat] = (rb_ell s1).[k, 0%nat] /\ (rb_ell s3).[k, 0%nat] = (rb_ell s1).[k, 0%nat]) ->
  (forall i, (i < M)%nat -> nu2 i = nu1 i /\ nu3 i = nu1 i) ->
  (forall i, (i < M)%nat -> f3.[i, 0%nat] = a * f1.[i, 0%nat] + b * f2.[i, 0%nat] + poly_eval m I w (fun k => X.[i, k])) ->
  forall x, rbf_value s3 m x = a * rbf_value s1 m x + b * rbf_value s2 m x + poly_eval m I w x.
Proof.
  intros N X f1 f2 f3 M m I nu1 nu2 nu3 s1 s2 s3 w a b Hm HI HR T1 T2 T3 Pl Pn EL EN Ef x.
  assert (GE : forall s, (forall k, (k < m)%nat -> (rb_ell s).[k, 0%nat] = (rb_ell s1).[k, 0%nat]) -> forall y z, gauss m (fun k => (rb_ell s).[k, 0%nat]) y z = gauss m (fun k => (rb_ell s1).[k, 0%nat]) y z).
  { intros s H y z. unfold gauss. f_equal. apply sumf_ext. intros k Hk. now rewrite H. }
  assert (G2 := GE s2 (fun k Hk => proj1 (EL k Hk))). assert (G3 := GE s3 (fun k Hk => proj2 (EL k Hk))). clear GE.
  set (K := fun i j => gauss m (fun k => (rb_ell s1).[k, 0%nat]) (fun k => X.[i, k]) (fun k => X.[j, k]) + kron_delta i j * nu1 i).
  set (B := fun r i => mono m (nth i I []) (fun j => X.[r, j])).
  assert (R1 : forall i, (i < M)%nat -> sumf M (fun j => K i j * (rb_rw s1).[j, 0%nat]) + sumf (length I) (fun c => B i c * (rb_pw s1).[c, 0%nat]) = f1.[i, 0%nat]).
  { intros i Hi. exact (r_top _ _ _ _ _ _ _ _ T1 i Hi). }
  assert (R2 : forall i, (i < M)%nat -> sumf M (fun j => K i j * (rb_rw s2).[j, 0%nat]) + sumf (length I) (fun c => B i c * (rb_pw s2).[c, 0%nat]) = f2.[i, 0%nat]).
  { intros i Hi. rewrite <- (r_top _ _ _ _ _ _ _ _ T2 i Hi). f_equal. apply sumf_ext. intros j Hj. unfold K. rewrite G2, (proj1 (EN i Hi)). reflexivity. }
  assert (R3 : forall i, (i < M)%nat -> sumf M (fun j => K i j * (rb_rw s3).[j, 0%nat]) + sumf (length I) (fun c => B i c * (rb_pw s3).[c, 0%nat]) = f3.[i, 0%nat]).
  { intros i Hi. rewrite <- (r_top _ _ _ _ _ _ _ _ T3 i Hi). f_equal. apply sumf_ext. intros j Hj. unfold K. rewrite G3, (proj2 (EN i Hi)). reflexivity. }
  set (u := fun i => if Nat.ltb i M then (rb_rw s3).[i, 0%nat] - (a * (rb_rw s1).[i, 0%nat] + b * (rb_rw s2).[i, 0%nat])
     else (rb_pw s3).[(i - M)%nat, 0%nat] - (a * (rb_pw s1).[(i - M)%nat, 0%nat] + b * (rb_pw s2).[(i - M)%nat, 0%nat] + w (i - M)%nat)).
  assert (U1 : forall i, (i < M)%nat -> u i = (rb_rw s3).[i, 0%nat] - (a * (rb_rw s1).[i, 0%nat] + b * (rb_rw s2).[i, 0%nat])) by (intros i Hi; unfold u; destruct (Nat.ltb_spec i M); [auto|lia]).
  assert (U2 : forall c, u (M + c)%nat = (rb_pw s3).[c, 0%nat] - (a * (rb_pw s1).[c, 0%nat] + b * (rb_pw s2).[c, 0%nat] + w c)).
  { intros c. unfold u. destruct (Nat.ltb_spec (M + c) M); [lia|]. now replace (M + c - M)%nat with c by lia. }
  assert (Z : forall i, (i < M + length I)%nat -> u i = 0).
  { apply (saddle_nonsingular M (length I) K B).
    - intros c Hc. apply (reg_pd M m (fun i k => X.[i, k]) (fun k => (rb_ell s1).[k, 0%nat]) nu1 Pl Pn c Hc).
    - exact HR.
    - intros i Hi. destruct (lt_dec i M) as [Hi'|Hi'].
      + rewrite saddle_row1 by auto. specialize (R1 i Hi'). specialize (R2 i Hi'). specialize (R3 i Hi'). rewrite Ef in R3 by auto. unfold poly_eval in R3. fold (B i) in R3.
        rewrite (sumf_ext M _ (fun j => K i j * (rb_rw s3).[j, 0%nat] - (a * (K i j * (rb_rw s1).[j, 0%nat]) + b * (K i j * (rb_rw s2).[j, 0%nat])))) by (intros j Hj; rewrite U1 by auto; ring).
        rewrite (sumf_ext (length I) _ (fun c => B i c * (rb_pw s3).[c, 0%nat] - (a * (B i c * (rb_pw s1).[c, 0%nat]) + b * (B i c * (rb_pw s2).[c, 0%nat]) + B i c * w c))) by (intros c Hc; rewrite U2; ring).
        rewrite !sumf_minus, !sumf_plus, !sumf_scal_l. rewrite <- R1, <- R2 in R3.
        change (sumf (length I) (fun i0 => mono m (nth i0 I []) (fun k => X.[i, k]) * w i0)) with (sumf (length I) (fun c => B i c * w c)) in R3. lra.
      + replace i with (M + (i - M))%nat by lia. rewrite saddle_row2 by lia. set (c := (i - M)%nat). assert (Hc : (c < length I)%nat) by (unfold c; lia).
        rewrite (sumf_ext M _ (fun j => B j c * (rb_rw s3).[j, 0%nat] - (a * (B j c * (rb_rw s1).[j, 0%nat]) + b * (B j c * (rb_rw s2).[j, 0%nat])))) by (intros j Hj; rewrite U1 by auto; ring).
        rewrite !sumf_minus, !sumf_plus, !sumf_scal_l. unfold B.
        rewrite (r_bot _ _ _ _ _ _ _ _ T1 c Hc), (r_bot _ _ _ _ _ _ _ _ T2 c Hc), (r_bot _ _ _ _ _ _ _ _ T3 c Hc). ring. }
  rewrite (rtrained_value N X f1 M m I nu1 s1 Hm HI T1), (rtrained_value N X f2 M m I nu2 s2 Hm HI T2), (rtrained_value N X f3 M m I nu3 s3 Hm HI T3). unfold rbf_eval.
  rewrite (r_X _ _ _ _ _ _ _ _ T1), (r_X _ _ _ _ _ _ _ _ T2), (r_X _ _ _ _ _ _ _ _ T3).
  set (g := fun i => gauss m (fun k => (rb_ell s1).[k, 0%nat]) x (fun k => X.[i, k])).
  rewrite (sumf_ext M (fun i => gauss m (fun k => (rb_ell s3).[k, 0%nat]) x (fun k => X.[i, k]) * (rb_rw s3).[i, 0%nat]) (fun i => a * (g i * (rb_rw s1).[i, 0%nat]) + b * (g i * (rb_rw s2).[i, 0%nat]))).
  2: { intros i Hi. rewrite G3. assert (Q := Z i ltac:(lia)). rewrite U1 in Q by auto. fold (g i). replace ((rb_rw s3).[i, 0%nat]) with (a * (rb_rw s1).[i, 0%nat] + b * (rb_rw s2).[i, 0%nat]) by lra. ring. }
  rewrite (sumf_ext M (fun i => gauss m (fun k => (rb_ell s2).[k, 0%nat]) x (fun k => X.[i, k]) * (rb_rw s2).[i, 0%nat]) (fun i => g i * (rb_rw s2).[i, 0%nat])) by (intros i Hi; now rewrite G2).
  change (sumf M (fun i => gauss m (fun k' => (rb_ell s1).[k', 0%nat]) x (fun k => X.[i, k]) * (rb_rw s1).[i, 0%nat])) with (sumf M (fun i => g i * (rb_rw s1).[i, 0%nat])).
  rewrite sumf_plus, !sumf_scal_l.
  rewrite (poly_eval_w m I (fun c => (rb_pw s3).[c, 0%nat]) (fun c => a * (rb_pw s1).[c, 0%nat] + b * (rb_pw s2).[c, 0%nat] + w c)).
  2: { intros c Hc. assert (Q := Z (M + c)%nat ltac:(lia)). rewrite U2 in Q. lra. }
  unfold poly_eval. set (h := fun i => mono m (nth i I []) x).
  rewrite (sumf_ext (length I) (fun i => mono m (nth i I []) x * (a * (rb_pw s1).[i, 0%nat] + b * (rb_pw s2).[i, 0%nat] + w i)) (fun i => a * (h i * (rb_pw s1).[i, 0%nat]) + b * (h i * (rb_pw s2).[i, 0%nat]) + h i * w i)) by (intros; unfold h; ring).
  rewrite !sumf_plus, !sumf_scal_l. unfold h. ring.
Qed.

Lemma pd_dec : forall M K, posdef M K \/ ~ posdef M K.
Proof.
  intros M K. destruct (ClassicalDedekindReals.sig_not_dec (posdef M K)) as [P|P]; [left|right; exact P].
  intros x Hx. apply Rnot_le_lt. intros H. apply P. intros PD. specialize (PD x Hx). lra.
Qed.

(** a scale the eigenvalues allow is positive *)
Definition eigs_ok (m : nat) (e : option (nd R)) : Prop :=
  match e with None => True | Some e => (forall k, (k < m)%nat -> 0 < e.[k, 0%nat]) /\ (forall k, (k < nrows e)%nat -> 0 <= e.[k, 0%nat]) /\ (m <= nrows e)%nat end.
Lemma chosen_pos : forall l e v M m ell nu, eigs_ok m e -> chosen (Rpower 10 l) e v M m ell nu -> forall k, (k < m)%nat -> 0 < ell k.
Proof.
  intros l e v M m ell nu He Hch. assert (G : 0 < Rpower 10 l) by (unfold Rpower; apply exp_pos).
  unfold chosen in Hch. destruct e as [e|]; destruct Hch as [Hl _]; intros k Hk; rewrite Hl by auto; auto.
  destruct He as (He1 & He2 & He0). apply Rmult_lt_0_compat; [|apply Rinv_0_lt_compat; auto]. apply Rmult_lt_0_compat; auto.
  eapply Rlt_le_trans with (e.[k, 0%nat]); auto. apply (sumf_term_le (nrows e) (fun j => e.[j, 0%nat]) k); auto. lia.
Qed.
Lemma chosen_same : forall g e v M m ell nu ell' nu', chosen g e v M m ell nu -> chosen g e v M m ell' nu' ->
  (forall k, (k < m)%nat -> ell' k = ell k) /\ (forall i, (i < M)%nat -> nu' i = nu i).
Proof.
  intros g e v M m ell nu ell' nu' H H'. unfold chosen in *. destruct e as [e|], v as [v|]; destruct H as [A B], H' as [A' B']; split; intros; rewrite ?A, ?A', ?B, ?B' by auto; reflexivity.
Qed.

(** training is linear in the data as long as the scale stays the same *)
Theorem C76_training_linear : forall solve cholesky fminbound N X f1 f2 f3 v e M m s1 s2 s3 l a b T c ex,
  solve_sound solve -> shape X = [M; m] -> shape f1 = [M; 1%nat] -> shape f2 = [M; 1%nat] -> shape f3 = [M; 1%nat] -> (1 <= m)%nat -> eigs_ok m e ->
  (forall B I, polynomial_bases X N = Ok (B, I) -> full_rank M (ncols B) (fun r i => B.[r, i])) ->
  rbf_train solve cholesky fminbound N X f1 v e = Ok s1 -> rbf_train solve cholesky fminbound N X f2 v e = Ok s2 -> rbf_train solve cholesky fminbound N X f3 v e = Ok s3 ->
  fminbound (rbf_objective solve cholesky X f1 v N e) = Ok l -> fminbound (rbf_objective solve cholesky X f2 v N e) = Ok l -> fminbound (rbf_objective solve cholesky X f3 v N e) = Ok l ->
  (forall t, (t < T)%nat -> (nsum m (ex t) <= N)%nat) ->
  (forall i, (i < M)%nat -> f3.[i, 0%nat] = a * f1.[i, 0%nat] + b * f2.[i, 0%nat] + terms_eval m T c ex (fun k => X.[i, k])) ->
  forall Y P, shape Y = [P; m] -> exists F1 F2 F3, rbf_predict s1 Y false = Ok (F1, None) /\ rbf_predict s2 Y false = Ok (F2, None) /\ rbf_predict s3 Y false = Ok (F3, None) /\
    forall r, (r < P)%nat -> F3.[r, 0%nat] = a * F1.[r, 0%nat] + b * F2.[r, 0%nat] + terms_eval m T c ex (fun k => Y.[r, k]).
Proof.
  intros solve cholesky fminbound N X f1 f2 f3 v e M m s1 s2 s3 l a b T c ex HS HX H1 H2 H3 Hm He HR R1 R2 R3 L1 L2 L3 Hex Ef Y P HY.
  destruct (rbf_train_inv solve cholesky fminbound N X f1 v e M m s1 HS HX H1 Hm R1) as (I & l1 & nu1 & EL & HLM & El1 & C1 & N1 & T1).
  destruct (rbf_train_inv solve cholesky fminbound N X f2 v e M m s2 HS HX H2 Hm R2) as (I2 & l2 & nu2 & EL2 & _ & El2 & C2 & N2 & T2).
  destruct (rbf_train_inv solve cholesky fminbound N X f3 v e M m s3 HS HX H3 Hm R3) as (I3 & l3 & nu3 & EL3 & _ & El3 & C3 & N3 & T3).
  rewrite EL in EL2, EL3. injection EL2 as <-. injection EL3 as <-. rewrite L1 in El1. injection El1 as <-. rewrite L2 in El2. injection El2 as <-. rewrite L3 in El3. injection El3 as <-.
  destruct (chosen_same _ _ _ _ _ _ _ _ _ C1 C2) as [A2 B2]. destruct (chosen_same _ _ _ _ _ _ _ _ _ C1 C3) as [A3 B3].
  destruct (terms_collect N m I EL Hm T c ex Hex) as (w & Ew).
  assert (HR' : full_rank M (length I) (fun r i => mono m (nth i I []) (fun j => X.[r, j]))).
  { destruct (polynomial_bases_ok X N M m HX Hm) as (L' & EL' & EB). rewrite EL in EL'. injection EL' as <-. exact (HR _ _ EB). }
  assert (V := fit_linear N X f1 f2 f3 M m I nu1 nu2 nu3 s1 s2 s3 w a b Hm EL HR' T1 T2 T3 (chosen_pos _ _ _ _ _ _ _ He C1) N1 (fun k Hk => conj (A2 k Hk) (A3 k Hk)) (fun i Hi => conj (B2 i Hi) (B3 i Hi))).
  assert (V' : forall x, rbf_value s3 m x = a * rbf_value s1 m x + b * rbf_value s2 m x + poly_eval m I w x).
  { apply V. intros i Hi. rewrite Ef, Ew by auto. reflexivity. }
  destruct (rbf_predict_ok s1 Y P m M false HY Hm (r_shape _ _ _ _ _ _ _ _ T1)) as (I1 & F1 & D1 & _ & P1 & D & Q1 & _).
  destruct (rbf_predict_ok s2 Y P m M false HY Hm (r_shape _ _ _ _ _ _ _ _ T2)) as (I2 & F2 & D2 & _ & P2 & D' & Q2 & _).
  destruct (rbf_predict_ok s3 Y P m M false HY Hm (r_shape _ _ _ _ _ _ _ _ T3)) as (I3 & F3 & D3 & _ & P3 & D'' & Q3 & _).
  rewrite (r_N _ _ _ _ _ _ _ _ T1), EL in D1. rewrite (r_N _ _ _ _ _ _ _ _ T2), EL in D2. rewrite (r_N _ _ _ _ _ _ _ _ T3), EL in D3. injection D1 as <-. injection D2 as <-. injection D3 as <-.
  exists F1, F2, F3. split; [exact Q1|]. split; [exact Q2|]. split; [exact Q3|]. intros r Hr. rewrite P1, P2, P3, Ew by auto.
  rewrite <- (rtrained_value N X f1 M m I nu1 s1 Hm EL T1), <- (rtrained_value N X f2 M m I nu2 s2 Hm EL T2), <- (rtrained_value N X f3 M m I nu3 s3 Hm EL T3). apply V'.
Qed.
Print Assumptions C76_training_linear.

(** adding a polynomial of degree at most N to the data adds it to the predictions: the
    objective, and with it the scale, does not change *)
Theorem C76_training_shift : forall solve cholesky fminbound N X f f' v e M m s T c ex,
  solve_contract solve -> solve_sound solve -> cholesky_contract cholesky -> shape X = [M; m] -> shape f = [M; 1%nat] -> shape f' = [M; 1%nat] -> (1 <= m)%nat -> eigs_ok m e ->
  match v with None => True | Some v => size v = M end ->
  (forall B I, polynomial_bases X N = Ok (B, I) -> full_rank M (ncols B) (fun r i => B.[r, i])) ->
  (forall t, (t < T)%nat -> (nsum m (ex t) <= N)%nat) ->
  (forall i, (i < M)%nat -> f'.[i, 0%nat] = f.[i, 0%nat] + terms_eval m T c ex (fun k => X.[i, k])) ->
  rbf_train solve cholesky fminbound N X f v e = Ok s ->
  exists s', rbf_train solve cholesky fminbound N X f' v e = Ok s' /\
    forall Y P, shape Y = [P; m] -> exists F F', rbf_predict s Y false = Ok (F, None) /\ rbf_predict s' Y false = Ok (F', None) /\
      forall r, (r < P)%nat -> F'.[r, 0%nat] = F.[r, 0%nat] + terms_eval m T c ex (fun k => Y.[r, k]).
Proof.
  intros solve cholesky fminbound N X f f' v e M m s T c ex HC HS HK HX Hf Hf' Hm He Hv HR Hex Ef RUN.
  assert (HE : match e with None => True | Some e => (m <= nrows e)%nat end) by (destruct e; [apply He|exact I]).
  assert (OB : rbf_objective solve cholesky X f' v N e = rbf_objective solve cholesky X f v N e).
  { apply functional_extensionality. intros lg.
    set (g := Rpower 10 lg).
    set (ell := fun k => match e with None => g | Some e => g * sumf (nrows e) (fun j => e.[j, 0%nat]) / e.[k, 0%nat] end).
    set (nu := fun i : nat => match v with Some v => flat v i | None => match e with None => / 10 ^ 6 | Some e => g * sumf (nrows e - m) (fun k => e.[(m + k)%nat, 0%nat]) end end).
    assert (RS : raw_scales g e v M m ell nu) by (split; intros; reflexivity).
    destruct (pd_dec M (noisy m ell nu X)) as [PD|PD].
    - destruct (C76_affine solve cholesky N X f f' v e M m lg ell nu 1 T c ex HC HK HX Hf Hf' Hm HR Hv HE RS PD ltac:(lra) Hex) as (d & q & _ & _ & _ & Q & _); [|apply Q; reflexivity].
      intros i Hi. rewrite Ef by auto. ring.
    - rewrite (objective_not_pd solve cholesky N X f v e M m lg ell nu HK HX Hf Hv HE RS PD). apply (objective_not_pd solve cholesky N X f' v e M m lg ell nu HK HX Hf' Hv HE RS PD). }
  destruct (rbf_train_inv solve cholesky fminbound N X f v e M m s HS HX Hf Hm RUN) as (I & l & nu & EL & HLM & El & _).
  destruct (C40_training_returns solve cholesky fminbound N X f' v e M m l HC HX Hf' Hm) as (s' & RUN'); auto.
  - rewrite <- (index_set_length N m Hm I EL). exact HLM.
  - destruct e; [destruct He as (? & ? & ?); auto|exact Logic.I].
  - rewrite OB. exact El.
  - exists s'. split; [exact RUN'|]. intros Y P HY.
    destruct (C76_training_linear solve cholesky fminbound N X f f f' v e M m s s s' l 1 0 T c ex HS HX Hf Hf Hf' Hm He HR RUN RUN RUN' El El) with (Y := Y) (P := P) as (F1 & F2 & F3 & Q1 & Q2 & Q3 & Q); auto.
    + rewrite OB. exact El.
    + intros i Hi. rewrite Ef by auto. ring.
    + exists F1, F3. split; [exact Q1|]. split; [exact Q3|]. intros r Hr. rewrite Q by auto. ring.
Qed.
Print Assumptions C76_training_shift.

(** ** C77: the objective and the likelihood of a Gaussian process *)

(** minus the log density at f of the normal law with mean p(x_i) and covariance s2 K, K = L L^T,
    z = L^-1 (f - p): (M log(2 pi s2) + log det K + z.z / s2) / 2 *)
Definition gp_nll (M : nat) (L : nd R) (z : nat -> R) (s2 : R) : R :=
  INR M / 2 * ln (2 * PI * s2) + sumf M (fun i => ln (L.[i, i])) + sumf M (fun i => z i * z i) / (2 * s2).

(** what the objective is: the likelihood maximised over the polynomial and the variance, up to a
    constant, plus M/2 times the log of the variance that maximises it *)
Theorem C77_objective_is_likelihood_partial : forall solve cholesky N X f v e M m lg ell nu,
  solve_contract solve -> cholesky_contract cholesky -> shape X = [M; m] -> shape f = [M; 1%nat] -> (1 <= m)%nat -> (1 <= M)%nat ->
  (forall B I, polynomial_bases X N = Ok (B, I) -> full_rank M (ncols B) (fun r i => B.[r, i])) ->
  match v with None => True | Some v => size v = M end -> match e with None => True | Some e => (m <= nrows e)%nat end -> raw_scales (Rpower 10 lg) e v M m ell nu ->
  posdef M (noisy m ell nu X) ->
  exists L q, objective_value M m N ell nu X (fun i => f.[i, 0%nat]) L q /\
  (5 / 2 ^ 52 <= q / INR M ->
   exists nll, rbf_objective solve cholesky X f v N e lg = Ok (nll + INR M / 2 * ln (q / INR M) - INR M / 2 * (1 + ln (2 * PI))) /\
    (forall T a ex z s2, (forall t, (t < T)%nat -> (nsum m (ex t) <= N)%nat) -> 0 < s2 ->
       (forall i, (i < M)%nat -> sumf M (fun k => L.[i, k] * z k) = f.[i, 0%nat] - terms_eval m T a ex (fun k => X.[i, k])) -> nll <= gp_nll M L z s2) /\
    (exists T a ex z, (forall t, (t < T)%nat -> (nsum m (ex t) <= N)%nat) /\
       (forall i, (i < M)%nat -> sumf M (fun k => L.[i, k] * z k) = f.[i, 0%nat] - terms_eval m T a ex (fun k => X.[i, k])) /\ nll = gp_nll M L z (q / INR M))).
Proof.
  intros solve cholesky N X f v e M m lg ell nu HS HC HX Hf Hm HM HB Hv He RS PD.
  destruct (C76_objective solve cholesky N X f v e M m lg ell nu HS HC HX Hf Hm HB Hv He RS PD) as (L & q & V & E).
  exists L, q. split; [exact V|]. intros FL. destruct V as (CF & LB & (T & a & ex & z & D & Z & Q)).
  assert (PM : 0 < INR M) by (apply lt_0_INR; lia).
  assert (P5 : 0 < 5 / 2 ^ 52) by (apply Rdiv_lt_0_compat; [lra|apply pow_lt; lra]).
  assert (PI0 := PI_RGT_0). assert (Pq : 0 < q / INR M) by lra.
  assert (LN : forall s2, 0 < s2 -> ln (2 * PI * s2) = ln (2 * PI) + ln s2) by (intros; apply ln_mult; lra).
  exists (INR M / 2 * (ln (2 * PI) + ln (q / INR M)) + sumf M (fun i => ln (L.[i, i])) + INR M / 2). split; [|split].
  - rewrite E, Rmax_left by auto. f_equal. field.
  - intros T' a' ex' z' s2 D' Ps Z'. unfold gp_nll. rewrite LN by auto. assert (Q' := LB T' a' ex' z' D' Z').
    assert (EX : ln (q / INR M / s2) <= q / INR M / s2 - 1).
    { assert (Py : 0 < q / INR M / s2) by (apply Rdiv_lt_0_compat; auto). assert (H := exp_ineq1_le (ln (q / INR M / s2))). rewrite exp_ln in H by auto. lra. }
    unfold Rdiv in EX at 1. rewrite ln_mult, ln_Rinv in EX by (auto; now apply Rinv_0_lt_compat).
    assert (E1 : INR M / 2 * (ln (q / INR M) + - ln s2) <= INR M / 2 * (q / INR M / s2 - 1)) by (apply Rmult_le_compat_l; lra).
    assert (E2 : INR M / 2 * (q / INR M / s2 - 1) = q / (2 * s2) - INR M / 2) by (field; lra).
    assert (E3 : q / (2 * s2) <= sumf M (fun i => z' i * z' i) / (2 * s2)) by (apply Rmult_le_compat_r; [left; apply Rinv_0_lt_compat; lra|exact Q']).
    lra.
  - exists T, a, ex, z. split; [exact D|]. split; [exact Z|]. unfold gp_nll. rewrite LN, <- Q by auto.
    assert (q <> 0). { intros ->. unfold Rdiv in Pq. lra. }
    field. split; lra.
Qed.
Print Assumptions C77_objective_is_likelihood_partial.

(** two points at distance one *)
Lemma chol2 : forall K L c k, K.[0%nat, 0%nat] = c -> K.[0%nat, 1%nat] = k -> K.[1%nat, 1%nat] = c -> chol_factor 2 K L ->
  sumf 2 (fun i => ln (L.[i, i])) = / 2 * ln (c * c - k * k) /\ 0 < c * c - k * k /\
  forall r z, (forall i, (i < 2)%nat -> sumf 2 (fun j => L.[i, j] * z j) = r i) -> (c * c - k * k) * sumf 2 (fun i => z i * z i) = c * (r 0%nat * r 0%nat + r 1%nat * r 1%nat) - 2 * k * (r 0%nat * r 1%nat).
Proof.
  intros K L c k K0 K1 K2 (SL & TL & DL & EL).
  assert (A := EL 0%nat 0%nat ltac:(lia) ltac:(lia)). assert (B := EL 0%nat 1%nat ltac:(lia) ltac:(lia)). assert (C := EL 1%nat 1%nat ltac:(lia) ltac:(lia)).
  assert (P0 := DL 0%nat ltac:(lia)). assert (P1 := DL 1%nat ltac:(lia)). assert (Z := TL 0%nat 1%nat ltac:(lia) ltac:(lia)).
  rewrite K0 in A. rewrite K1 in B. rewrite K2 in C. cbn [sumf] in A, B, C. rewrite Z in *.
  set (x := L.[0%nat, 0%nat]) in *. set (y := L.[1%nat, 0%nat]) in *. set (t := L.[1%nat, 1%nat]) in *.
  assert (D : c * c - k * k = (x * t) * (x * t)) by (rewrite <- A at 1; rewrite <- B, <- C; ring).
  assert (PX : 0 < x * t) by (apply Rmult_lt_0_compat; auto).
  split; [|split].
  - cbn [sumf]. fold x t. rewrite D, ln_mult, ln_mult by auto. field.
  - rewrite D. apply Rmult_lt_0_compat; auto.
  - intros r z H. assert (H0 := H 0%nat ltac:(lia)). assert (H1 := H 1%nat ltac:(lia)). cbn [sumf] in H0, H1 |- *. fold x y t in H0, H1. rewrite Z in H0. rewrite D, <- H0, <- H1.
    match goal with |- _ = c * (?p + ?q) - ?w => replace (c * (p + q)) with (c * p + c * q) by ring end. rewrite <- C at 1. rewrite <- A, <- B. ring.
Qed.

Definition X77 : nd R := mat_of [[0]; [1]].
Definition f77 : nd R := mat_of [[0]; [2]].
Definition e77 : nd R := mat_of [[3]; [6]].
Lemma rank77 : forall B L, polynomial_bases X77 0 = Ok (B, L) -> full_rank 2 (ncols B) (fun r i => B.[r, i]).
Proof.
  intros B L E. destruct (polynomial_bases_ok X77 0 2 1 eq_refl ltac:(lia)) as (L' & EL & EB). rewrite EB in E.
  assert (EL2 : index_set 0 1 = Ok [[0]]%nat) by reflexivity.
  rewrite EL2 in EL. assert (E3 : L' = [[0]]%nat) by congruence. clear EL EB EL2.
  assert (EB : B = mk2 2 (length L') (fun r i => mono 1 (nth i L' []) (fun j => X77.[r, j]))) by congruence. clear E.
  rewrite EB, E3. clear EB E3. unfold ncols. cbn [shape mk2 nth length]. intros x Hx.
  pose proof (Hx 0%nat ltac:(lia)) as H0. clear Hx.
  unfold mono, X77, mat_of in H0. cbn [sumf prodf nth at_ mk2 pow] in H0.
  intros j Hj. destruct j as [|j]; try lia; lra.
Qed.

(** kernel, objective and best likelihood at 10^lg = g: c = 1 + 6 g, k = exp(-1/(3g)) *)
Lemma value77 : forall solve cholesky lg g, solve_contract solve -> cholesky_contract cholesky -> Rpower 10 lg = g -> 0 < g <= 1 ->
  let c := 1 + 6 * g in let k := exp (- 1 / (3 * g)) in
  exists L, chol_factor 2 (mk2 2 2 (noisy 1 (fun _ => 3 * g) (fun _ => 6 * g) X77)) L /\
    rbf_objective solve cholesky X77 f77 None 0 (Some e77) lg = Ok (/ 2 * ln (c * c - k * k) + 2 * ln (/ (c - k))) /\ k < 1 /\
    (forall T a ex z s2, (forall t, (t < T)%nat -> (nsum 1 (ex t) <= 0)%nat) -> 0 < s2 ->
       (forall i, (i < 2)%nat -> sumf 2 (fun k => L.[i, k] * z k) = f77.[i, 0%nat] - terms_eval 1 T a ex (fun k => X77.[i, k])) ->
       / 2 * ln (c * c - k * k) + ln (/ (c - k)) + (1 + ln (2 * PI)) <= gp_nll 2 L z s2) /\
    (exists T a ex z s2, (forall t, (t < T)%nat -> (nsum 1 (ex t) <= 0)%nat) /\ 0 < s2 /\
       (forall i, (i < 2)%nat -> sumf 2 (fun k => L.[i, k] * z k) = f77.[i, 0%nat] - terms_eval 1 T a ex (fun k => X77.[i, k])) /\
       / 2 * ln (c * c - k * k) + ln (/ (c - k)) + (1 + ln (2 * PI)) = gp_nll 2 L z s2).
Proof.
  intros solve cholesky lg g HS HC Hg Pg c k.
  assert (Pk : 0 < k) by apply exp_pos.
  assert (Pk1 : k < 1). { unfold k. rewrite <- exp_0. apply exp_increasing. unfold Rdiv. assert (0 < / (3 * g)) by (apply Rinv_0_lt_compat; lra). lra. }
  assert (RS : raw_scales (Rpower 10 lg) (Some e77) None 2 1 (fun _ => 3 * g) (fun _ => 6 * g)).
  { rewrite Hg. split.
    - intros i Hi. replace i with 0%nat by lia. unfold e77, mat_of, nrows. cbn. field.
    - intros i Hi. unfold e77, mat_of, nrows. cbn. field. }
  assert (PD : posdef 2 (noisy 1 (fun _ => 3 * g) (fun _ => 6 * g) X77)) by (apply kern_pd; intros; lra).
  destruct (C77_objective_is_likelihood_partial solve cholesky 0 X77 f77 None (Some e77) 2 1 lg _ _ HS HC eq_refl eq_refl ltac:(lia) ltac:(lia) rank77 Logic.I ltac:(cbn; lia) RS PD) as (L & q & V & W).
  exists L. assert (V' := V). destruct V' as (CF & LB & AT). split; [exact CF|].
  assert (E00 : forall i, (i < 2)%nat -> noisy 1 (fun _ => 3 * g) (fun _ => 6 * g) X77 i i = c).
  { intros i Hi. unfold noisy, c. rewrite kd_same. cbn [sumf]. rewrite Rminus_diag_eq by reflexivity. rewrite !Rmult_0_l, Rplus_0_l, exp_0. ring. }
  assert (E01 : noisy 1 (fun _ => 3 * g) (fun _ => 6 * g) X77 0 1 = k).
  { unfold noisy, k. rewrite kd_diff by lia. cbn [sumf]. unfold X77, mat_of. cbn [at_ mk2 nth]. rewrite Rmult_0_l, Rplus_0_r. f_equal. field. lra. }
  destruct (chol2 (mk2 2 2 (noisy 1 (fun _ => 3 * g) (fun _ => 6 * g) X77)) L c k (E00 0%nat ltac:(lia)) E01 (E00 1%nat ltac:(lia)) CF) as (LD & PC & ZZ).
  assert (Ck : 0 < c - k) by (unfold c; lra). assert (Ck' : 0 < c + k) by (unfold c; lra).
  assert (TE : forall T a ex, (forall t, (t < T)%nat -> (nsum 1 (ex t) <= 0)%nat) -> exists b, forall x, terms_eval 1 T a ex x = b).
  { intros T a ex D. exists (sumf T a). intros x. unfold terms_eval. apply sumf_ext. intros t Ht. specialize (D t Ht). unfold nsum in D. cbn in D. cbn [prodf]. replace (ex t 0%nat) with 0%nat by lia. cbn. ring. }
  assert (F0 : f77.[0%nat, 0%nat] = 0) by reflexivity. assert (F1 : f77.[1%nat, 0%nat] = 2) by reflexivity.
  assert (QV : q = 2 / (c - k)).
  { apply Rle_antisym.
    - (* at the constant 1 *)
      destruct AT as (T & a & ex & z & D & Z & E). destruct CF as (SL & TL & DL & EL). assert (P0 := DL 0%nat ltac:(lia)). assert (P1 := DL 1%nat ltac:(lia)). assert (Z01 := TL 0%nat 1%nat ltac:(lia) ltac:(lia)).
      set (z' := fun i => match i with O => - / L.[0%nat, 0%nat] | _ => (1 + L.[1%nat, 0%nat] * / L.[0%nat, 0%nat]) / L.[1%nat, 1%nat] end).
      assert (HZ : forall i, (i < 2)%nat -> sumf 2 (fun j => L.[i, j] * z' j) = f77.[i, 0%nat] - terms_eval 1 1 (fun _ => 1) (fun _ _ => 0%nat) (fun k => X77.[i, k])).
      { intros i Hi. unfold terms_eval. destruct i as [|[|i]]; [| |lia]; cbn [sumf prodf pow]; rewrite ?F0, ?F1, ?Z01; unfold z'; field; lra. }
      apply Rle_trans with (sumf 2 (fun i => z' i * z' i)).
      + apply (LB 1%nat (fun _ => 1) (fun _ _ => 0%nat) z'); [intros; cbn; lia|exact HZ].
      + right. apply Rmult_eq_reg_l with (c * c - k * k); [|lra]. rewrite (ZZ _ _ HZ). unfold terms_eval. cbn [sumf prodf pow]. rewrite F0, F1. field. lra.
    - destruct AT as (T & a & ex & z & D & Z & E). destruct (TE T a ex D) as (b & Eb). rewrite E.
      assert (Q := ZZ _ _ Z). cbv beta in Q. rewrite !Eb, F0, F1 in Q.
      apply Rmult_le_reg_l with (c * c - k * k); [lra|]. rewrite Q. replace ((c * c - k * k) * (2 / (c - k))) with (2 * (c + k)) by (field; lra).
      replace (c * ((0 - b) * (0 - b) + (2 - b) * (2 - b)) - 2 * k * ((0 - b) * (2 - b))) with (2 * (c + k) + 2 * (c - k) * ((b - 1) * (b - 1))) by ring.
      assert (0 <= (c - k) * ((b - 1) * (b - 1))) by (apply Rmult_le_pos; [lra|apply Rle_0_sqr]). lra. }
  assert (QI : q / INR 2 = / (c - k)) by (rewrite QV; cbn; field; lra).
  assert (FL : 5 / 2 ^ 52 <= q / INR 2).
  { rewrite QI. apply Rle_trans with (/ 7). - apply Rmult_le_reg_r with 7; [lra|]. lra. - apply Rinv_le_contravar; unfold c; lra. }
  destruct (W FL) as (nll & RUN & LO & HI).
  assert (EN : nll = / 2 * ln (c * c - k * k) + ln (/ (c - k)) + (1 + ln (2 * PI))).
  { assert (RV : Ok (nll + INR 2 / 2 * ln (q / INR 2) - INR 2 / 2 * (1 + ln (2 * PI))) = Ok (sumf 2 (fun i => ln (L.[i, i])) + INR 2 * ln (Rmax (q / INR 2) (5 / 2 ^ 52)))).
    { rewrite <- RUN. destruct (C76_objective solve cholesky 0 X77 f77 None (Some e77) 2 1 lg _ _ HS HC eq_refl eq_refl ltac:(lia) rank77 Logic.I ltac:(cbn; lia) RS PD) as (L2 & q2 & V2 & E2).
      destruct (value_unique _ _ _ _ _ _ _ _ _ _ _ V V2) as [UL UQ]. rewrite E2, UQ. do 2 f_equal. apply sumf_ext. intros i Hi. now rewrite UL. }
    apply (f_equal (fun r => match r with Ok x => x | _ => 0 end)) in RV. cbv beta iota in RV. rewrite Rmax_left in RV by auto. rewrite LD, QI in RV. replace (INR 2) with 2 in RV by reflexivity. lra. }
  split; [|split; [exact Pk1|split]].
  - rewrite RUN, EN, QI. cbn [INR]. f_equal. field.
  - intros T a ex z s2 D Ps Z. rewrite <- EN. eapply LO; eauto.
  - destruct HI as (T & a & ex & z & D & Z & EZ). exists T, a, ex, z, (q / INR 2). split; [exact D|]. split; [rewrite QI; now apply Rinv_0_lt_compat|]. split; [exact Z|]. now rewrite <- EN.
Qed.

(** at g = 1 the objective is lower than at g = 1/10, but no polynomial and variance at g = 1 are as
    likely as the best ones at g = 1/10 *)
Theorem C77_objective_is_likelihood_refuted : exists X f e lg1 lg2, forall solve cholesky, solve_contract solve -> cholesky_contract cholesky ->
  exists o1 o2 L1 L2, - 10 <= lg1 <= 1 /\ - 10 <= lg2 <= 1 /\
    rbf_objective solve cholesky X f None 0 (Some e) lg1 = Ok o1 /\ rbf_objective solve cholesky X f None 0 (Some e) lg2 = Ok o2 /\ o2 < o1 /\
    (forall ell nu, raw_scales (Rpower 10 lg1) (Some e) None 2 1 ell nu -> chol_factor 2 (mk2 2 2 (noisy 1 ell nu X)) L1) /\
    (forall ell nu, raw_scales (Rpower 10 lg2) (Some e) None 2 1 ell nu -> chol_factor 2 (mk2 2 2 (noisy 1 ell nu X)) L2) /\
    exists b1 z1 s1, 0 < s1 /\ (forall i, (i < 2)%nat -> sumf 2 (fun k => L1.[i, k] * z1 k) = f.[i, 0%nat] - b1) /\
      forall b2 z2 s2, 0 < s2 -> (forall i, (i < 2)%nat -> sumf 2 (fun k => L2.[i, k] * z2 k) = f.[i, 0%nat] - b2) -> gp_nll 2 L1 z1 s1 < gp_nll 2 L2 z2 s2.
Proof.
  exists X77, f77, e77, (- 1), 0. intros solve cholesky HS HC.
  assert (G1 : Rpower 10 (- 1) = / 10) by (replace (- 1) with (Ropp 1) by ring; rewrite Rpower_Ropp, Rpower_1 by lra; reflexivity).
  assert (G2 : Rpower 10 0 = 1) by (apply Rpower_O; lra).
  destruct (value77 solve cholesky (- 1) (/ 10) HS HC G1 ltac:(lra)) as (L1 & C1 & O1 & K1 & LO1 & HI1).
  destruct (value77 solve cholesky 0 1 HS HC G2 ltac:(lra)) as (L2 & C2 & O2 & K2 & LO2 & HI2). cbv zeta in *.
  set (c1 := 1 + 6 * / 10) in *. set (k1 := exp (- 1 / (3 * / 10))) in *. set (c2 := 1 + 6 * 1) in *. set (k2 := exp (- 1 / (3 * 1))) in *.
  assert (B1 : 0 < k1 < / 11).
  { split; [apply exp_pos|]. unfold k1. replace (- 1 / (3 * / 10)) with (- (10 / 3)) by field. rewrite exp_Ropp. apply Rinv_lt_contravar.
    - apply Rmult_lt_0_compat; [lra|apply exp_pos].
    - replace (10 / 3) with (5 / 6 + 5 / 6 + (5 / 6 + 5 / 6)) by field. rewrite !exp_plus. assert (H := exp_ineq1_le (5 / 6)). set (x := exp (5 / 6)) in *.
      assert (H2 : 121 / 36 <= x * x) by (replace (121 / 36) with ((11 / 6) * (11 / 6)) by field; apply Rmult_le_compat; lra).
      apply Rlt_le_trans with (121 / 36 * (121 / 36)); [lra|]. apply Rmult_le_compat; lra. }
  assert (B2 : / 2 < k2 < 1).
  { split; [|exact K2]. unfold k2. replace (- 1 / (3 * 1)) with (- (1 / 3)) by field. rewrite exp_Ropp. assert (P := exp_pos (1 / 3)). apply Rinv_lt_contravar; [apply Rmult_lt_0_compat; lra|].
    assert (H := exp_le_3). replace 1 with (1 / 3 + 1 / 3 + 1 / 3) in H by field. rewrite !exp_plus in H. set (x := exp (1 / 3)) in *.
    apply Rnot_le_lt. intros Q. assert (4 <= x * x) by (replace 4 with (2 * 2) by ring; apply Rmult_le_compat; lra).
    assert (8 <= x * x * x) by (replace 8 with (4 * 2) by ring; apply Rmult_le_compat; lra). lra. }
  assert (LQ : forall c k, 0 < k -> k < c -> ln (c * c - k * k) = ln (c - k) + ln (c + k)) by (intros c k H H'; rewrite <- ln_mult by lra; f_equal; ring).
  do 4 eexists. split; [lra|]. split; [lra|]. split; [exact O1|]. split; [exact O2|]. split.
  { rewrite !LQ, !ln_Rinv by (unfold c1, c2; lra).
    assert (H1 : 3 * ln (c1 - k1) + ln (c2 + k2) < 3 * ln (c2 - k2) + ln (c1 + k1)); [|lra].
    assert (ln (c1 - k1) < ln 2) by (apply ln_increasing; unfold c1; lra). assert (ln 6 < ln (c2 - k2)) by (apply ln_increasing; unfold c2; lra).
    assert (ln (c2 + k2) < ln 8) by (apply ln_increasing; unfold c2; lra). assert (ln 1 < ln (c1 + k1)) by (apply ln_increasing; unfold c1; lra).
    assert (L8 : ln 8 = 3 * ln 2) by (replace 8 with (2 * 2 * 2) by ring; rewrite !ln_mult by lra; ring).
    assert (L6 : 2 * ln 2 < ln 6) by (replace (2 * ln 2) with (ln (2 * 2)) by (rewrite ln_mult by lra; ring); apply ln_increasing; lra).
    rewrite ln_1 in *. lra. }
  assert (RU : forall g ell nu, raw_scales g (Some e77) None 2 1 ell nu -> forall i j, (i < 2)%nat -> noisy 1 ell nu X77 i j = noisy 1 (fun _ => 3 * g) (fun _ => 6 * g) X77 i j).
  { intros g ell nu [A B] i j Hi. unfold noisy. rewrite (B i Hi). cbn [sumf]. rewrite (A 0%nat ltac:(lia)). f_equal; [f_equal; f_equal; f_equal; f_equal|f_equal]; unfold e77, mat_of, nrows; cbn; field. }
  assert (CC : forall g L ell nu, raw_scales g (Some e77) None 2 1 ell nu -> chol_factor 2 (mk2 2 2 (noisy 1 (fun _ => 3 * g) (fun _ => 6 * g) X77)) L -> chol_factor 2 (mk2 2 2 (noisy 1 ell nu X77)) L).
  { intros g L ell nu RS (Q1 & Q2 & Q3 & Q4). split; auto. split; auto. split; auto. intros i j Hi Hj. rewrite Q4, !at_mk2 by auto. symmetry. now apply RU. }
  split; [intros ell nu RS; rewrite G1 in RS; eapply CC; [exact RS|exact C1]|]. split; [intros ell nu RS; rewrite G2 in RS; eapply CC; [exact RS|exact C2]|].
  assert (TE : forall T a ex, (forall t, (t < T)%nat -> (nsum 1 (ex t) <= 0)%nat) -> exists b, forall x, terms_eval 1 T a ex x = b).
  { intros T a ex D. exists (sumf T a). intros x. unfold terms_eval. apply sumf_ext. intros t Ht. specialize (D t Ht). unfold nsum in D. cbn in D. cbn [prodf]. replace (ex t 0%nat) with 0%nat by lia. cbn. ring. }
  destruct HI1 as (T & a & ex & z & s & D & Ps & Z & EV). destruct (TE T a ex D) as (b & Eb).
  exists b, z, s. split; [exact Ps|]. split; [intros i Hi; rewrite Z, Eb by auto; reflexivity|].
  intros b2 z2 s2 Ps2 Z2. rewrite <- EV. eapply Rlt_le_trans; [|apply (LO2 1%nat (fun _ => b2) (fun _ _ => 0%nat) z2 s2); [intros; cbn; lia|exact Ps2|intros i Hi; rewrite Z2 by auto; unfold terms_eval; cbn; ring]].
  rewrite !LQ, !ln_Rinv by (unfold c1, c2; lra).
  assert (H1 : ln (c1 + k1) + ln (c2 - k2) < ln (c1 - k1) + ln (c2 + k2)); [|lra].
  rewrite <- !ln_mult by (unfold c1, c2; lra). apply ln_increasing; [apply Rmult_lt_0_compat; unfold c1, c2; lra|].
  (* k1 c2 < c1 k2 *)
  assert (k1 * c2 < c1 * k2) by (unfold c1, c2; lra). lra.
Qed.
Print Assumptions C77_objective_is_likelihood_refuted.

(** ** C78: training on repeated points *)

(** scipy.optimize.fminbound over [-10, 1]: returns when the function does, and raises what the
    function raises everywhere *)
Definition fminbound_ok (fminbound : (R -> res R) -> res R) : Prop :=
  (forall h, (forall x, - 10 <= x <= 1 -> exists y, h x = Ok y) -> exists l, fminbound h = Ok l) /\
  (forall h er, (forall x, - 10 <= x <= 1 -> h x = Err er) -> fminbound h = Err er).

(** the noise the caller asks for is positive, or it is not negative and no point is repeated *)
Definition noise_ok (X : nd R) (e v : option (nd R)) (M m : nat) : Prop :=
  match v with Some v => forall i, (i < M)%nat -> 0 < flat v i | None => match e with None => True | Some e => exists k, (m <= k < nrows e)%nat /\ 0 < e.[k, 0%nat] end end \/
  (match v with Some v => forall i, (i < M)%nat -> 0 <= flat v i | None => True end /\ forall i j, (i < j < M)%nat -> exists k, (k < m)%nat /\ X.[i, k] <> X.[j, k]).

Theorem C78_training_returns_partial : forall solve cholesky fminbound N X f v e M m,
  solve_contract solve -> cholesky_contract cholesky -> fminbound_ok fminbound -> shape X = [M; m] -> shape f = [M; 1%nat] -> (1 <= m)%nat -> (binom (N + m) m <= M)%nat ->
  (forall B L, polynomial_bases X N = Ok (B, L) -> full_rank M (ncols B) (fun r i => B.[r, i])) ->
  match v with None => True | Some v => size v = M end -> eigs_ok m e -> noise_ok X e v M m ->
  exists s, rbf_train solve cholesky fminbound N X f v e = Ok s.
Proof.
  intros solve cholesky fminbound N X f v e M m HS HC HF HX Hf Hm HM HR Hv He NO.
  assert (HE : match e with None => True | Some e => (m <= nrows e)%nat end) by (destruct e; [apply He|exact I]).
  destruct (proj1 HF (rbf_objective solve cholesky X f v N e)) as (l & El).
  { intros lg _. set (g := Rpower 10 lg). assert (Pg : 0 < g) by apply exp_pos.
    set (ell := fun k => match e with None => g | Some e => g * sumf (nrows e) (fun j => e.[j, 0%nat]) / e.[k, 0%nat] end).
    set (nu := fun i : nat => match v with Some v => flat v i | None => match e with None => / 10 ^ 6 | Some e => g * sumf (nrows e - m) (fun k => e.[(m + k)%nat, 0%nat]) end end).
    assert (RS : raw_scales g e v M m ell nu) by (split; intros; reflexivity).
    assert (Pl : forall k, (k < m)%nat -> 0 < ell k).
    { intros k Hk. unfold ell. destruct e as [e|]; [|exact Pg]. destruct He as (He1 & He2 & He0). apply Rmult_lt_0_compat; [|apply Rinv_0_lt_compat; auto]. apply Rmult_lt_0_compat; auto.
      eapply Rlt_le_trans with (e.[k, 0%nat]); auto. apply (sumf_term_le (nrows e) (fun j => e.[j, 0%nat]) k); auto. lia. }
    assert (PD : posdef M (noisy m ell nu X)).
    { destruct NO as [NP|[NN DI]].
      - apply kern_pd; [exact Pl|]. intros i Hi. unfold nu. destruct v as [v|]; [now apply NP|]. destruct e as [e|]; [|apply Rinv_0_lt_compat, pow_lt; lra].
        apply Rmult_lt_0_compat; [exact Pg|]. destruct NP as (k & Hk & Pk). destruct He as (_ & He2 & _). eapply Rlt_le_trans; [exact Pk|].
        replace k with (m + (k - m))%nat at 1 by lia. apply (sumf_term_le (nrows e - m) (fun k => e.[(m + k)%nat, 0%nat])); [|lia]. intros j Hj. apply He2. lia.
      - intros c Hc. assert (S := gauss_spd M m (fun i k => X.[i, k]) ell c Hm Pl DI Hc). eapply Rlt_le_trans; [exact S|]. cbv beta.
        assert (N0 : 0 <= sumf M (fun i => c i * c i * nu i)).
        { apply sumf_nonneg. intros i Hi. apply Rmult_le_pos; [apply Rle_0_sqr|]. unfold nu. destruct v as [v|]; [now apply NN|]. destruct e as [e|]; [|left; apply Rinv_0_lt_compat, pow_lt; lra].
          apply Rmult_le_pos; [lra|]. apply sumf_nonneg. intros k Hk. apply He. lia. }
        match goal with |- ?a <= _ => replace a with (a + 0) by ring end. eapply Rle_trans; [apply Rplus_le_compat_l; exact N0|]. right. rewrite <- sumf_plus. apply sumf_ext. intros i Hi.
        replace (c i * c i * nu i) with (sumf M (fun j => kron_delta i j * (c i * c j * nu i))) by (rewrite (sumf_kd_l M i (fun j => c i * c j * nu i) Hi); reflexivity).
        rewrite <- sumf_plus. apply sumf_ext. intros j Hj. unfold noisy. ring. }
    destruct (C76_objective solve cholesky N X f v e M m lg ell nu HS HC HX Hf Hm HR Hv HE RS PD) as (L & q & _ & E). eauto. }
  apply (C40_training_returns solve cholesky fminbound N X f v e M m l); auto. destruct e; [destruct He as (? & ? & ?); auto|exact Logic.I].
Qed.
Print Assumptions C78_training_returns_partial.

Definition X78 : nd R := mat_of [[0]; [0]].

(** the floor of 1e-6 that train puts under the noise "to ensure conditioning" is not in the
    objective: two equal points and no noise, and training raises LinAlgError *)
Theorem C78_training_returns_refuted : forall solve cholesky fminbound, solve_contract solve -> cholesky_contract cholesky -> fminbound_ok fminbound ->
  exists X f e, shape X = [2%nat; 1%nat] /\ shape f = [2%nat; 1%nat] /\ eigs_ok 1 (Some e) /\
    (forall B L, polynomial_bases X 0 = Ok (B, L) -> full_rank 2 (ncols B) (fun r i => B.[r, i])) /\
    rbf_train solve cholesky fminbound 0 X f None (Some e) = Err LinAlgError /\
    (forall solve' cholesky' fminbound' l, solve_contract solve' -> fminbound' (rbf_objective solve' cholesky' X f None 0 (Some e)) = Ok l -> exists s, rbf_train solve' cholesky' fminbound' 0 X f None (Some e) = Ok s).
Proof.
  intros solve cholesky fminbound HS HC HF. exists X78, f77, (mat_of [[1]]).
  assert (RK : forall B L, polynomial_bases X78 0 = Ok (B, L) -> full_rank 2 (ncols B) (fun r i => B.[r, i])).
  { intros B L E. destruct (polynomial_bases_ok X78 0 2 1 eq_refl ltac:(lia)) as (L' & EL & EB). rewrite EB in E.
    assert (EL2 : index_set 0 1 = Ok [[0]]%nat) by reflexivity.
    rewrite EL2 in EL. assert (E3 : L' = [[0]]%nat) by congruence. clear EL EB EL2.
    assert (EB : B = mk2 2 (length L') (fun r i => mono 1 (nth i L' []) (fun j => X78.[r, j]))) by congruence. clear E.
    rewrite EB, E3. clear EB E3. unfold ncols. cbn [shape mk2 nth length]. intros x Hx.
    pose proof (Hx 0%nat ltac:(lia)) as H0. clear Hx.
    unfold mono, X78, mat_of in H0. cbn [sumf prodf nth at_ mk2 pow] in H0.
    intros j Hj. destruct j as [|j]; try lia; lra. }
  assert (EO : eigs_ok 1 (Some (mat_of [[1]]))).
  { split; [|split].
    - intros k Hk. replace k with 0%nat by lia. cbn. lra.
    - intros k Hk. replace k with 0%nat by (unfold nrows, mat_of in Hk; cbn in Hk; lia). cbn. lra.
    - unfold nrows, mat_of. cbn. lia. }
  split; [reflexivity|]. split; [reflexivity|]. split; [exact EO|]. split; [exact RK|]. split.
  - destruct (rbf_train_eq solve cholesky fminbound 0 X78 f77 None (Some (mat_of [[1]])) 2 1 eq_refl eq_refl ltac:(lia)) as (L & EL & ->).
    assert (E3 : L = [[0]]%nat) by (assert (EL2 : index_set 0 1 = Ok [[0]]%nat) by reflexivity; congruence). rewrite E3. cbn [length Nat.ltb Nat.leb].
    rewrite (proj2 HF _ LinAlgError); [reflexivity|]. intros lg _. set (g := Rpower 10 lg). assert (Pg : 0 < g) by apply exp_pos.
    apply (objective_not_pd solve cholesky 0 X78 f77 None (Some (mat_of [[1]])) 2 1 lg (fun _ => g) (fun _ => 0) HC eq_refl eq_refl Logic.I); [unfold nrows, mat_of; cbn; lia| |].
    + split; intros k Hk.
      * fold g. replace k with 0%nat by lia. unfold nrows, mat_of. cbn. field.
      * unfold nrows, mat_of. cbn. ring.
    + intros PD. assert (Q := PD (fun i => match i with O => 1 | _ => - 1 end)). cbn [sumf] in Q.
      assert (EV : forall i j, (i < 2)%nat -> (j < 2)%nat -> kern 1 (fun _ => g) (fun _ => 0) X78 i j = 1).
      { intros i j Hi Hj. unfold kern, gauss. cbn [sumf]. assert (Z : forall i, (i < 2)%nat -> X78.[i, 0%nat] = 0) by (intros [|[|a]] Ha; [reflexivity|reflexivity|lia]). rewrite !Z by auto.
        replace (0 + (0 - 0) * (0 - 0) * (-1 / g)) with 0 by ring. rewrite exp_0. ring. }
      rewrite !EV in Q by lia. assert (0 < 0); [|lra]. eapply Rlt_le_trans; [apply Q; exists 0%nat; split; [lia|lra]|right; ring].
  - intros solve' cholesky' fminbound' l HS' El. apply (C40_training_returns solve' cholesky' fminbound' 0 X78 f77 None (Some (mat_of [[1]])) 2 1 l HS' eq_refl eq_refl ltac:(lia) ltac:(cbn; lia) RK Logic.I); [destruct EO as (? & ? & ?); auto|exact El].
Qed.
Print Assumptions C78_training_returns_refuted.

(** ** cases *)

(** an optimiser meeting the contract: the objective's error at -10, else -10 *)
Definition fmin_ref (h : R -> res R) : res R := match h (- 10) with Ok _ => Ok (- 10) | Err er => Err er end.
Lemma fmin_ref_ok : fminbound_ok fmin_ref.
Proof.
  split; unfold fmin_ref.
  - intros h H. destruct (H (- 10) ltac:(lra)) as (y & ->). eauto.
  - intros h er H. now rewrite (H (- 10) ltac:(lra)).
Qed.

(** data 1, 5, 2 at 0, 1, 3, and the same plus 1 + 2 x *)
Definition f76 : nd R := mat_of [[1]; [5]; [2]].
Definition f76' : nd R := mat_of [[2]; [8]; [9]].
Example C76_case : exists s s', rbf_train solve_ref cholesky_ref fmin_ref 1 X40 f76 None None = Ok s /\ rbf_train solve_ref cholesky_ref fmin_ref 1 X40 f76' None None = Ok s' /\
  forall Y P, shape Y = [P; 1%nat] -> exists F F', rbf_predict s Y false = Ok (F, None) /\ rbf_predict s' Y false = Ok (F', None) /\ forall r, (r < P)%nat -> F'.[r, 0%nat] = F.[r, 0%nat] + (1 + 2 * Y.[r, 0%nat]).
Proof.
  destruct (C78_training_returns_partial solve_ref cholesky_ref fmin_ref 1 X40 f76 None None 3 1 solve_ref_contract cholesky_ref_contract fmin_ref_ok) as (s & Hs).
  1-2: reflexivity. lia. cbn; lia. exact rank40. exact I. exact I. left. exact I.
  destruct (C76_training_shift solve_ref cholesky_ref fmin_ref 1 X40 f76 f76' None None 3 1 s 2 (fun t => match t with O => 1 | _ => 2 end) (fun t j => t) solve_ref_contract solve_ref_sound cholesky_ref_contract) as (s' & Hs' & Q).
  1-3: reflexivity. lia. exact I. exact I. exact rank40.
  - intros t Ht. destruct t as [|[|t]]; cbn; lia.
  - intros r Hr. destruct r as [|[|[|r]]]; try lia; unfold terms_eval; cbn; lra.
  - exact Hs.
  - exists s, s'. split; [exact Hs|]. split; [exact Hs'|]. intros Y P HY. destruct (Q Y P HY) as (F & F' & A & B & C). exists F, F'. split; [exact A|]. split; [exact B|]. intros r Hr. rewrite C by auto. unfold terms_eval. cbn. ring.
Qed.

(** C77: the objective at 10^0 of the two points of C77_objective_is_likelihood_refuted *)
Example C77_case : rbf_objective solve_ref cholesky_ref X77 f77 None 0 (Some e77) 0 = Ok (/ 2 * ln (49 - exp (- (1 / 3)) * exp (- (1 / 3))) + 2 * ln (/ (7 - exp (- (1 / 3))))).
Proof.
  destruct (value77 solve_ref cholesky_ref 0 1 solve_ref_contract cholesky_ref_contract) as (L & _ & E & _); [apply Rpower_O; lra|lra|]. cbv zeta in E. rewrite E.
  replace (-1 / (3 * 1)) with (- (1 / 3)) by field. replace (1 + 6 * 1) with 7 by ring. replace (7 * 7) with 49 by ring. reflexivity.
Qed.

(** C78: without noise, at distinct points *)
Example C78_case : exists s, rbf_train solve_ref cholesky_ref fmin_ref 0 X77 f77 None (Some (mat_of [[1]])) = Ok s.
Proof.
  apply (C78_training_returns_partial solve_ref cholesky_ref fmin_ref 0 X77 f77 None (Some (mat_of [[1]])) 2 1 solve_ref_contract cholesky_ref_contract fmin_ref_ok); try reflexivity; auto.
  - exact rank77.
  - split; [|split].
    + intros k Hk. replace k with 0%nat by lia. cbn. lra.
    + intros k Hk. replace k with 0%nat by (unfold nrows, mat_of in Hk; cbn in Hk; lia). cbn. lra.
    + unfold nrows, mat_of. cbn. lia.
  - right. split; [exact I|]. intros i j Hij. exists 0%nat. split; [lia|]. replace i with 0%nat by lia. replace j with 1%nat by lia. cbn. lra.
Qed.
