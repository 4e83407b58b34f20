(** Proofs about _rbf_objective (utils/response_surfaces.py 330-388) *)
From Coq Require Import String Reals Lra Lia List Arith ZArith Bool.
From Verif Require Import Prelude Py NumArr LinAlg Lsq M_Misc M_RespSurf P_Misc P_IndexSet P_Poly P_PolyTrain P_PolyFacts GaussPD Cholesky P_Rbf.
Import ListNotations.
Open Scope R_scope.

(** the length scales and noise of lines 357-367: unlike train, the objective puts no floor
    under the noise *)
Definition raw_scales (g : R) (e v : option (nd R)) (M m : nat) (ell nu : nat -> R) : Prop :=
  (forall k, (k < m)%nat -> ell k = match e with None => g | Some e => g * sumf (nrows e) (fun j => e.[j, 0%nat]) / e.[k, 0%nat] end) /\
  (forall i, (i < M)%nat -> nu i = match v with Some v => flat v i | None => match e with None => / 10 ^ 6 | Some e => g * sumf (nrows e - m) (fun k => e.[(m + k)%nat, 0%nat]) end end).

(** kernel plus noise *)
Definition kern (m : nat) (ell nu : nat -> R) (X : nd R) (i j : nat) : R :=
  gauss m ell (fun k => X.[i, k]) (fun k => X.[j, k]) + kron_delta i j * nu i.

Lemma kern_sym : forall m ell nu X i j, kern m ell nu X i j = kern m ell nu X j i.
Proof.
  intros m ell nu X i j. unfold kern. rewrite gauss_sym. f_equal. destruct (Nat.eq_dec i j) as [->|Nij]; [reflexivity|]. rewrite !kd_diff by auto. ring.
Qed.
Lemma kern_pd : forall M m ell nu X, (forall k, (k < m)%nat -> 0 < ell k) -> (forall i, (i < M)%nat -> 0 < nu i) -> posdef M (kern m ell nu X).
Proof.
  intros M m ell nu X Hl Hn c (i0 & Hi0 & Hc). unfold kern.
  rewrite (sumf_ext M _ (fun i => sumf M (fun j => c i * c j * gauss m ell (fun k => X.[i, k]) (fun k => X.[j, k])) + c i * c i * nu i)).
  - rewrite sumf_plus. pose proof (gauss_psd M m (fun i k => X.[i, k]) ell c Hl) as H1.
    assert (H2 : 0 < sumf M (fun i => c i * c i * nu i)).
    { eapply Rlt_le_trans with (c i0 * c i0 * nu i0).
      - apply Rmult_lt_0_compat; auto. now apply Rsqr_pos_lt.
      - apply (sumf_term_le M (fun i => c i * c i * nu i) i0); auto. intros i Hi. apply Rmult_le_pos; [apply Rle_0_sqr|left; auto]. }
    unfold gauss. lra.
  - intros i Hi. rewrite (sumf_ext M _ (fun j => c i * c j * gauss m ell (fun k => X.[i, k]) (fun k => X.[j, k]) + kron_delta i j * (c i * c j * nu i))) by (intros; ring).
    rewrite sumf_plus. f_equal. apply (sumf_kd_l M i (fun j => c i * c j * nu i) Hi).
Qed.

Lemma pd_nonsingular : forall M K, posdef M (fun i j => K.[i, j]) -> nonsingular M K.
Proof.
  intros M K PD x Hx i Hi. destruct (Req_dec (x i) 0); auto. exfalso. assert (P : 0 < 0); [|lra].
  eapply Rlt_le_trans; [apply (PD x); eauto|]. right. apply sumf_zero. intros a Ha.
  rewrite (sumf_ext M _ (fun j => x a * (K.[a, j] * x j))) by (intros; ring). rewrite sumf_scal_l, Hx by auto. ring.
Qed.

(** r^T K^-1 r is the squared length of L^-1 r *)
Lemma whiten : forall M K L u r z, chol_factor M K L -> (forall i, (i < M)%nat -> sumf M (fun j => K.[i, j] * u j) = r i) ->
  (forall i, (i < M)%nat -> sumf M (fun k => L.[i, k] * z k) = r i) -> sumf M (fun i => r i * u i) = sumf M (fun k => z k * z k).
Proof.
  intros M K L u r z CF HK HZ. assert (NS := chol_nonsingular M K L CF). destruct CF as (_ & _ & _ & E).
  set (y := fun k => sumf M (fun j => L.[j, k] * u j)).
  assert (Z : forall k, (k < M)%nat -> z k = y k).
  { intros k Hk. assert (Q : (fun k => y k - z k) k = 0); [|cbv beta in Q; lra]. apply (NS (fun k => y k - z k)); auto. intros i Hi. cbv beta.
    rewrite (sumf_ext M _ (fun k => L.[i, k] * y k - L.[i, k] * z k)) by (intros; ring). rewrite sumf_minus, HZ by auto.
    rewrite <- HK by auto. unfold y. rewrite (sumf_ext M (fun k0 => L.[i, k0] * _) (fun k0 => sumf M (fun j => L.[i, k0] * L.[j, k0] * u j))) by (intros; rewrite <- sumf_scal_l; apply sumf_ext; intros; ring).
    rewrite sumf_swap. rewrite (sumf_ext M _ (fun j => K.[i, j] * u j)); [ring|]. intros j Hj. rewrite sumf_scal_r, E by auto. reflexivity. }
  rewrite (sumf_ext M _ (fun i => sumf M (fun k => (L.[i, k] * u i) * z k))) by (intros i Hi; rewrite <- HZ by auto; rewrite <- sumf_scal_r; apply sumf_ext; intros; ring).
  rewrite sumf_swap. apply sumf_ext. intros k Hk. rewrite sumf_scal_r. f_equal. rewrite Z by auto. reflexivity.
Qed.

(** generalised least squares *)
Lemma gls : forall M p K B (f beta beta' u u' : nat -> R), (forall i j, (i < M)%nat -> (j < M)%nat -> K i j = K j i) -> posdef M K ->
  (forall i, (i < M)%nat -> sumf M (fun j => K i j * u j) = f i - sumf p (fun c => B i c * beta c)) ->
  (forall c, (c < p)%nat -> sumf M (fun i => B i c * u i) = 0) ->
  (forall i, (i < M)%nat -> sumf M (fun j => K i j * u' j) = f i - sumf p (fun c => B i c * beta' c)) ->
  sumf M (fun i => (f i - sumf p (fun c => B i c * beta c)) * u i) <= sumf M (fun i => (f i - sumf p (fun c => B i c * beta' c)) * u' i).
Proof.
  intros M p K B f beta beta' u u' HS PD HU HB HU'. set (w := fun i => u' i - u i).
  assert (KW : forall i, (i < M)%nat -> sumf M (fun j => K i j * w j) = sumf p (fun c => B i c * (beta c - beta' c))).
  { intros i Hi. unfold w. rewrite (sumf_ext M _ (fun j => K i j * u' j - K i j * u j)) by (intros; ring). rewrite sumf_minus, HU, HU' by auto.
    rewrite (sumf_ext p (fun c => B i c * (beta c - beta' c)) (fun c => B i c * beta c - B i c * beta' c)) by (intros; ring). rewrite sumf_minus. ring. }
  assert (UW : sumf M (fun i => u i * sumf M (fun j => K i j * w j)) = 0).
  { rewrite (sumf_ext M _ (fun i => sumf p (fun c => B i c * u i * (beta c - beta' c)))) by (intros i Hi; rewrite KW by auto; rewrite <- sumf_scal_l; apply sumf_ext; intros; ring).
    rewrite sumf_swap. apply sumf_zero. intros c Hc. rewrite sumf_scal_r, HB by auto. ring. }
  assert (WU : sumf M (fun i => w i * sumf M (fun j => K i j * u j)) = 0).
  { rewrite <- UW. rewrite (sumf_ext M _ (fun i => sumf M (fun j => w i * (K i j * u j)))) by (intros; now rewrite sumf_scal_l). rewrite sumf_swap. apply sumf_ext. intros j Hj.
    rewrite <- sumf_scal_l. apply sumf_ext. intros i Hi. rewrite (HS i j) by auto. ring. }
  assert (WW : 0 <= sumf M (fun i => w i * sumf M (fun j => K i j * w j))).
  { rewrite (sumf_ext M _ (fun i => sumf M (fun j => w i * w j * K i j))) by (intros i Hi; rewrite <- sumf_scal_l; apply sumf_ext; intros; ring).
    destruct (all_zero_or M w) as [Z|NZ].
    - right. symmetry. apply sumf_zero. intros i Hi. apply sumf_zero. intros j Hj. rewrite Z by auto. ring.
    - left. now apply PD. }
  assert (E : sumf M (fun i => (f i - sumf p (fun c => B i c * beta' c)) * u' i) = sumf M (fun i => (f i - sumf p (fun c => B i c * beta c)) * u i)
     + sumf M (fun i => u i * sumf M (fun j => K i j * w j)) + sumf M (fun i => w i * sumf M (fun j => K i j * u j)) + sumf M (fun i => w i * sumf M (fun j => K i j * w j))).
  { rewrite <- !sumf_plus. apply sumf_ext. intros i Hi. rewrite <- HU, <- HU' by auto.
    rewrite (sumf_ext M (fun j => K i j * u' j) (fun j => K i j * u j + K i j * w j)) by (intros j Hj; unfold w; ring). rewrite sumf_plus.
    replace (u' i) with (u i + w i) by (unfold w; ring). ring. }
  rewrite E, UW, WU. lra.
Qed.

Lemma scales_raw : forall g (f : nd R) v e M m, shape f = [M; 1%nat] ->
  match v with None => True | Some v => size v = M end -> match e with None => True | Some e => (m <= nrows e)%nat end ->
  exists ell v0 v1, rbf_scales g f m v e = (ell, v0) /\ size ell = m /\ reshape [M] v0 = Ok v1 /\
    forall ell' nu, raw_scales g e v M m ell' nu -> (forall k, (k < m)%nat -> ell.[k, 0%nat] = ell' k) /\ (forall i, (i < M)%nat -> v1.[i] = nu i).
Proof.
  intros g f v e M m Hf Hv He.
  assert (SF : forall c : R, size (amap (fun _ => c) f) = M) by (intros c; unfold size, amap; cbn [shape]; rewrite Hf; cbn; lia).
  assert (RS : forall v0 : nd R, size v0 = M -> exists v1, reshape [M] v0 = Ok v1 /\ forall i, (i < M)%nat -> v1.[i] = flat v0 i).
  { intros v0 S0. destruct (reshape_ok _ [M] v0) as (Y & Y1 & Y2 & Y3); [rewrite S0; cbn; lia|]. exists Y. split; auto. intros i Hi. rewrite Y3 by (repeat constructor; auto). unfold flat. f_equal. f_equal. cbn. lia. }
  unfold rbf_scales. destruct e as [e|].
  - set (c := g * sumf (nrows e - m) (fun k => e.[(m + k)%nat, 0%nat])).
    destruct (RS (match v with None => amap (fun _ => c) f | Some v => v end)) as (v1 & E1 & V1); [destruct v; auto|].
    do 3 eexists. split; [reflexivity|]. split; [unfold size; rewrite shape_mk2; cbn; lia|]. split; [exact E1|].
    intros ell' nu [R1 R2]. split; [intros k Hk; rewrite at_mk2, R1 by auto; reflexivity|]. intros i Hi. rewrite V1, R2 by auto. destruct v; auto.
  - destruct (RS (match v with None => amap (fun _ => / 10 ^ 6) f | Some v => v end)) as (v1 & E1 & V1); [destruct v; auto|].
    do 3 eexists. split; [reflexivity|]. split; [unfold size; rewrite shape_mk2; cbn; lia|]. split; [exact E1|].
    intros ell' nu [R1 R2]. split; [intros k Hk; rewrite at_mk2, R1 by auto; reflexivity|]. intros i Hi. rewrite V1, R2 by auto. destruct v; auto.
Qed.

(** the covariance matrix that the objective builds *)
Lemma objective_matrix : forall g X f v e M m ell nu, shape X = [M; m] -> shape f = [M; 1%nat] ->
  match v with None => True | Some v => size v = M end -> match e with None => True | Some e => (m <= nrows e)%nat end -> raw_scales g e v M m ell nu ->
  exists K, shape K = [M; M] /\ (forall i j, (i < M)%nat -> (j < M)%nat -> K.[i, j] = kern m ell nu X i j) /\
    forall (A : Type) (k : nd R -> res A), (let '(l, v0) := rbf_scales g f m v e in do K0 <- exponential_squared X X 1 l; do K <- add_diag K0 v0 M; k K) = k K.
Proof.
  intros g X f v e M m ell nu HX Hf Hv He HR. destruct (scales_raw g f v e M m Hf Hv He) as (l & v0 & v1 & E1 & S1 & E2 & V). destruct (V ell nu HR) as [V1 V2].
  assert (GE : forall i j, gauss m (fun k => l.[k, 0%nat]) (fun k => X.[i, k]) (fun k => X.[j, k]) = gauss m ell (fun k => X.[i, k]) (fun k => X.[j, k])).
  { intros i j. unfold gauss. f_equal. apply sumf_ext. intros k Hk. now rewrite V1. }
  exists (mk2 M M (fun i j => 1 * gauss m (fun k => l.[k, 0%nat]) (fun k => X.[i, k]) (fun k => X.[j, k]) + kron_delta i j * v1.[i])). split; [reflexivity|]. split.
  - intros i j Hi Hj. rewrite at_mk2. unfold kern. rewrite GE, V2 by auto. ring.
  - intros A k. rewrite E1. rewrite (exponential_squared_ok X X 1 l M M m HX HX S1). cbn [rbind]. unfold add_diag. rewrite E2. reflexivity.
Qed.

Lemma tr_shape : forall (X : nd R) r c, shape X = [r; c] -> shape (tr X) = [c; r].
Proof. intros X r c H. unfold tr. now rewrite shape_mk2, (nrows_shape2 _ _ _ _ H), (ncols_shape2 _ _ _ _ H). Qed.

Lemma objective_run : forall solve cholesky N X f v e M m I lg ell nu,
  solve_contract solve -> cholesky_contract cholesky -> shape X = [M; m] -> shape f = [M; 1%nat] -> (1 <= m)%nat -> index_set N m = Ok I ->
  full_rank M (length I) (fun r i => mono m (nth i I []) (fun j => X.[r, j])) ->
  match v with None => True | Some v => size v = M end -> match e with None => True | Some e => (m <= nrows e)%nat end -> raw_scales (Rpower 10 lg) e v M m ell nu ->
  posdef M (kern m ell nu X) ->
  exists L beta u, let r i := f.[i, 0%nat] - poly_eval m I beta (fun k => X.[i, k]) in
    chol_factor M (mk2 M M (kern m ell nu X)) L /\ (forall i, (i < M)%nat -> sumf M (fun j => kern m ell nu X i j * u j) = r i) /\
    (forall c, (c < length I)%nat -> sumf M (fun i => mono m (nth c I []) (fun k => X.[i, k]) * u i) = 0) /\
    rbf_objective solve cholesky X f v N e lg = Ok (sumf M (fun i => ln (L.[i, i])) + INR M * ln (Rmax (sumf M (fun i => r i * u i) / INR M) (5 * / 2 ^ 52))).
Proof.
  intros solve cholesky N X f v e M m I lg ell nu HS HC HX Hf Hm HI HR Hv He RS PK.
  destruct (objective_matrix (Rpower 10 lg) X f v e M m ell nu HX Hf Hv He RS) as (K & SK & VK & RUN).
  assert (PD : posdef M (fun i j => K.[i, j])).
  { intros c Hc. rewrite (sumf_ext M _ (fun i => sumf M (fun j => c i * c j * kern m ell nu X i j))) by (intros i Hi; apply sumf_ext; intros j Hj; now rewrite VK). now apply PK. }
  assert (SY : forall i j, (i < M)%nat -> (j < M)%nat -> K.[i, j] = K.[j, i]) by (intros; rewrite !VK by auto; apply kern_sym).
  destruct (proj1 (HC M K SK SY) PD) as (L & EL & CF). assert (NK := pd_nonsingular M K PD).
  destruct (polynomial_bases_ok X N M m HX Hm) as (I' & HI' & EB). rewrite HI in HI'. injection HI' as <-.
  set (p := length I) in *. set (B := mk2 M p (fun r i => mono m (nth i I []) (fun j => X.[r, j]))) in *.
  destruct (HS M p K B SK eq_refl NK) as (KB & E1 & S1 & V1). destruct (HS M 1%nat K f SK Hf NK) as (Kf & E2 & S2 & V2).
  assert (SB := tr_shape B M p eq_refl).
  set (A := mk2 p p (fun i j => sumf M (fun l => (tr B).[i, l] * KB.[l, j]))). set (z := mk2 p 1 (fun i j => sumf M (fun l => (tr B).[i, l] * Kf.[l, j]))).
  assert (VA : forall i j, A.[i, j] = sumf M (fun l => B.[l, i] * KB.[l, j])) by (intros; reflexivity).
  assert (Vz : forall i, z.[i, 0%nat] = sumf M (fun l => B.[l, i] * Kf.[l, 0%nat])) by (intros; reflexivity).
  assert (NA : nonsingular p A).
  { intros x Hx. set (y := fun l => sumf p (fun j => KB.[l, j] * x j)). set (b := fun i => sumf p (fun j => B.[i, j] * x j)).
    assert (KY : forall i, (i < M)%nat -> sumf M (fun l => K.[i, l] * y l) = b i).
    { intros i Hi. unfold y, b. rewrite (sumf_ext M _ (fun l => sumf p (fun j => K.[i, l] * KB.[l, j] * x j))) by (intros; rewrite <- sumf_scal_l; apply sumf_ext; intros; ring).
      rewrite sumf_swap. apply sumf_ext. intros j Hj. rewrite sumf_scal_r, V1 by auto. reflexivity. }
    assert (Q : sumf M (fun i => sumf M (fun j => y i * y j * K.[i, j])) = 0).
    { rewrite (sumf_ext M _ (fun i => y i * b i)) by (intros i Hi; rewrite <- KY by auto; rewrite <- sumf_scal_l; apply sumf_ext; intros; ring).
      unfold b. rewrite (sumf_ext M _ (fun i => sumf p (fun j => x j * (B.[i, j] * y i)))) by (intros; rewrite <- sumf_scal_l; apply sumf_ext; intros; ring).
      rewrite sumf_swap. apply sumf_zero. intros j Hj. rewrite sumf_scal_l. replace (sumf M (fun i => B.[i, j] * y i)) with 0; [ring|]. rewrite <- (Hx j Hj).
      unfold y. rewrite (sumf_ext M _ (fun i => sumf p (fun k => B.[i, j] * KB.[i, k] * x k))) by (intros; rewrite <- sumf_scal_l; apply sumf_ext; intros; ring).
      rewrite sumf_swap. apply sumf_ext. intros k Hk. rewrite sumf_scal_r, VA. reflexivity. }
    assert (Y0 : forall i, (i < M)%nat -> y i = 0).
    { intros i Hi. destruct (Req_dec (y i) 0); auto. exfalso. assert (0 < 0); [|lra]. rewrite <- Q at 2. apply PD. eauto. }
    apply HR. intros i Hi. change (b i = 0). rewrite <- KY by auto. apply sumf_zero. intros l Hl. rewrite Y0 by auto. ring. }
  destruct (HS p 1%nat A z eq_refl eq_refl NA) as (beta & E3 & S3 & V3).
  set (Bb := mk2 M 1 (fun i j => sumf p (fun l => B.[i, l] * beta.[l, j]))).
  destruct (bcast2_same _ _ _ Rminus f Bb M 1 Hf eq_refl) as (r & E4 & S4 & V4).
  destruct (HS M 1%nat K r SK S4 NK) as (Kr & E5 & S5 & V5).
  assert (VR : forall i, (i < M)%nat -> r.[i, 0%nat] = f.[i, 0%nat] - poly_eval m I (fun c => beta.[c, 0%nat]) (fun k => X.[i, k])).
  { intros i Hi. rewrite V4 by auto. reflexivity. }
  assert (KK : forall i, (i < M)%nat -> Kr.[i, 0%nat] = Kf.[i, 0%nat] - sumf p (fun c => KB.[i, c] * beta.[c, 0%nat])).
  { intros i Hi. assert (Q : (fun i => Kr.[i, 0%nat] - (Kf.[i, 0%nat] - sumf p (fun c => KB.[i, c] * beta.[c, 0%nat]))) i = 0); [|cbv beta in Q; lra]. apply (NK (fun i => Kr.[i, 0%nat] - (Kf.[i, 0%nat] - sumf p (fun c => KB.[i, c] * beta.[c, 0%nat])))); auto. intros a Ha. cbv beta.
    rewrite (sumf_ext M _ (fun k => K.[a, k] * Kr.[k, 0%nat] - (K.[a, k] * Kf.[k, 0%nat] - sumf p (fun c => K.[a, k] * KB.[k, c] * beta.[c, 0%nat])))).
    2: { intros k Hk. rewrite (sumf_ext p (fun c => K.[a, k] * KB.[k, c] * beta.[c, 0%nat]) (fun c => K.[a, k] * (KB.[k, c] * beta.[c, 0%nat]))) by (intros; ring). rewrite sumf_scal_l. ring. }
    rewrite !sumf_minus, V5, V2 by (auto; lia). rewrite sumf_swap. rewrite (sumf_ext p _ (fun c => B.[a, c] * beta.[c, 0%nat])) by (intros c Hc; rewrite sumf_scal_r, V1 by auto; reflexivity).
    rewrite V4 by auto. unfold Bb. rewrite at_mk2. ring. }
  exists L, (fun c => beta.[c, 0%nat]), (fun i => Kr.[i, 0%nat]). cbv zeta.
  assert (CF' : chol_factor M (mk2 M M (kern m ell nu X)) L).
  { destruct CF as (C1 & C2 & C3 & C4). split; auto. split; auto. split; auto. intros i j Hi Hj. rewrite C4, at_mk2, VK by auto. reflexivity. }
  split; [exact CF'|]. split; [|split].
  - intros i Hi. rewrite <- VR, <- (V5 i 0%nat) by (auto; lia). apply sumf_ext. intros j Hj. now rewrite VK.
  - intros c Hc. change (sumf M (fun i => B.[i, c] * Kr.[i, 0%nat]) = 0).
    rewrite (sumf_ext M _ (fun i => B.[i, c] * Kf.[i, 0%nat] - sumf p (fun k => B.[i, c] * KB.[i, k] * beta.[k, 0%nat]))).
    2: { intros i Hi. rewrite KK by auto. rewrite (sumf_ext p (fun k => B.[i, c] * KB.[i, k] * beta.[k, 0%nat]) (fun k => B.[i, c] * (KB.[i, k] * beta.[k, 0%nat]))) by (intros; ring). rewrite sumf_scal_l. ring. }
    rewrite sumf_minus, <- Vz, sumf_swap, <- (V3 c 0%nat) by (auto; lia). rewrite (sumf_ext p (fun j => sumf M _) (fun k => A.[c, k] * beta.[k, 0%nat])) by (intros k Hk; rewrite sumf_scal_r, VA; reflexivity). ring.
  - unfold rbf_objective. cbv zeta. unfold shape2. rewrite HX. cbn [rbind]. rewrite RUN, EL. cbn [rbind]. rewrite EB. cbn [rbind]. rewrite E1. cbn [rbind].
    rewrite (mdot_ok (tr B) KB p M p SB S1). cbn [rbind]. rewrite E2. cbn [rbind]. rewrite (mdot_ok (tr B) Kf p M 1 SB S2). cbn [rbind]. fold A. fold z. rewrite E3. cbn [rbind].
    rewrite (mdot_ok B beta M p 1 eq_refl S3). cbn [rbind]. fold Bb. rewrite E4. cbn [rbind]. rewrite E5. cbn [rbind]. rewrite (mdot_ok (tr r) Kr 1 M 1 (tr_shape r M 1 S4) S5). cbn [rbind]. rewrite at_mk2.
    do 2 f_equal. f_equal. f_equal. f_equal. f_equal. apply sumf_ext. intros i Hi. rewrite <- VR by auto. reflexivity.
Qed.

Lemma objective_not_pd : forall solve cholesky N X f v e M m lg ell nu,
  cholesky_contract cholesky -> shape X = [M; m] -> shape f = [M; 1%nat] ->
  match v with None => True | Some v => size v = M end -> match e with None => True | Some e => (m <= nrows e)%nat end -> raw_scales (Rpower 10 lg) e v M m ell nu ->
  ~ posdef M (kern m ell nu X) -> rbf_objective solve cholesky X f v N e lg = Err LinAlgError.
Proof.
  intros solve cholesky N X f v e M m lg ell nu HC HX Hf Hv He RS NP.
  destruct (objective_matrix (Rpower 10 lg) X f v e M m ell nu HX Hf Hv He RS) as (K & SK & VK & RUN).
  assert (SY : forall i j, (i < M)%nat -> (j < M)%nat -> K.[i, j] = K.[j, i]) by (intros; rewrite !VK by auto; apply kern_sym).
  unfold rbf_objective. cbv zeta. unfold shape2. rewrite HX. cbn [rbind]. rewrite RUN.
  rewrite (proj2 (HC M K SK SY)); [reflexivity|]. intros PD. apply NP. intros c Hc. specialize (PD c Hc).
  rewrite (sumf_ext M _ (fun i => sumf M (fun j => c i * c j * K.[i, j]))); auto. intros i Hi. apply sumf_ext. intros j Hj. now rewrite VK.
Qed.
