(** C93: what the radial basis surface is.  It is the smoothest of all surfaces of its kind for
    the fit it gives (a smoothing spline), and at every point the best linear unbiased prediction
    (kriging with a polynomial trend)
    (utils/response_surfaces.py 199-388, RadialBasisApproximation) *)
From Coq Require Import String Reals Lra Lia List Arith ZArith Bool.
From Verif Require Import Prelude Py NumArr LinAlg Lsq M_Misc M_RespSurf P_Misc P_IndexSet P_Poly P_PolyTrain P_PolyFacts PolySub GaussPD Cholesky SolveRef P_Rbf P_RbfObj Toy Properties_RespSurf Properties_RbfObj.
Import ListNotations.
Open Scope R_scope.

(** a surface with any centres z, coefficients c and polynomial part *)
Definition surface (m : nat) (ell : nat -> R) (P : nat) (c : nat -> R) (z : nat -> nat -> R)
    (T : nat) (a : nat -> R) (ex : nat -> nat -> nat) (x : nat -> R) : R :=
  sumf P (fun j => c j * exp (- sumf m (fun k => (x k - z j k) ^ 2 / ell k))) + terms_eval m T a ex x.
(** its roughness: the squared norm of the radial part in the space of the kernel *)
Definition roughness (m : nat) (ell : nat -> R) (P : nat) (c : nat -> R) (z : nat -> nat -> R) : R :=
  sumf P (fun i => sumf P (fun j => c i * c j * exp (- sumf m (fun k => (z i k - z j k) ^ 2 / ell k)))).
(** misfit, each sample counted with its noise variance, plus roughness *)
Definition smooth_cost (M m : nat) (X f : nd R) (ell nu : nat -> R) (P : nat) (c : nat -> R) (z : nat -> nat -> R)
    (T : nat) (a : nat -> R) (ex : nat -> nat -> nat) : R :=
  sumf M (fun i => (f.[i, 0%nat] - surface m ell P c z T a ex (fun k => X.[i, k])) ^ 2 / nu i) + roughness m ell P c z.

Lemma sumf_nonneg_zero : forall n f, (forall i, (i < n)%nat -> 0 <= f i) -> sumf n f = 0 -> forall i, (i < n)%nat -> f i = 0.
Proof.
  intros n f P Z i Hi. assert (Q := sumf_term_le n f i P Hi). specialize (P i Hi). lra.
Qed.
Lemma gauss_exp : forall m ell x y, exp (- sumf m (fun k => (x k - y k) ^ 2 / ell k)) = gauss m ell x y.
Proof.
  intros. unfold gauss. f_equal. rewrite <- sumf_opp. apply sumf_ext. intros. unfold Rdiv. ring.
Qed.
Definition bil (m : nat) (ell : nat -> R) (P : nat) (c : nat -> R) (z : nat -> nat -> R) (Q : nat) (d : nat -> R) (y : nat -> nat -> R) : R :=
  sumf P (fun i => sumf Q (fun j => c i * d j * gauss m ell (z i) (y j))).

Lemma bil_sym : forall m ell P c z Q d y, bil m ell P c z Q d y = bil m ell Q d y P c z.
Proof.
  intros. unfold bil. rewrite sumf_swap. apply sumf_ext; intros. apply sumf_ext; intros. rewrite gauss_sym. ring.
Qed.
(** the form is positive semidefinite, on two sets of centres together *)
Lemma bil_psd2 : forall m ell P c z Q d y t, (forall k, (k < m)%nat -> 0 < ell k) ->
  0 <= bil m ell P c z P c z + 2 * t * bil m ell P c z Q d y + t * t * bil m ell Q d y Q d y.
Proof.
  intros m ell P c z Q d y t Hl.
  set (z' := fun i => if Nat.ltb i P then z i else y (i - P)%nat). set (c' := fun i => if Nat.ltb i P then c i else t * d (i - P)%nat).
  assert (H := gauss_psd (P + Q) m z' ell c' Hl).
  assert (Z1 : forall i, (i < P)%nat -> z' i = z i /\ c' i = c i) by (intros i Hi; unfold z', c'; destruct (Nat.ltb_spec i P); [auto|lia]).
  assert (Z2 : forall i, z' (P + i)%nat = y i /\ c' (P + i)%nat = t * d i).
  { intros i. unfold z', c'. destruct (Nat.ltb_spec (P + i) P); [lia|]. now replace (P + i - P)%nat with i by lia. }
  change (0 <= sumf (P + Q) (fun i => sumf (P + Q) (fun j => c' i * c' j * gauss m ell (z' i) (z' j)))) in H.
  rewrite sumf_split in H.
  rewrite (sumf_ext P _ (fun i => sumf P (fun j => c i * c j * gauss m ell (z i) (z j)) + t * sumf Q (fun j => c i * d j * gauss m ell (z i) (y j)))) in H.
  2:{ intros i Hi. rewrite sumf_split. destruct (Z1 i Hi) as (-> & ->). f_equal.
      - apply sumf_ext; intros j Hj. destruct (Z1 j Hj) as (-> & ->). reflexivity.
      - rewrite <- sumf_scal_l. apply sumf_ext; intros j Hj. destruct (Z2 j) as (-> & ->). ring. }
  rewrite (sumf_ext Q _ (fun i => t * sumf P (fun j => d i * c j * gauss m ell (y i) (z j)) + t * t * sumf Q (fun j => d i * d j * gauss m ell (y i) (y j)))) in H.
  2:{ intros i Hi. rewrite sumf_split. destruct (Z2 i) as (-> & ->). rewrite <- !sumf_scal_l. f_equal.
      - apply sumf_ext; intros j Hj. destruct (Z1 j Hj) as (-> & ->). ring.
      - apply sumf_ext; intros j Hj. destruct (Z2 j) as (-> & ->). ring. }
  rewrite !sumf_plus, !sumf_scal_l in H.
  change (0 <= bil m ell P c z P c z + t * bil m ell P c z Q d y + (t * bil m ell Q d y P c z + t * t * bil m ell Q d y Q d y)) in H.
  rewrite (bil_sym m ell Q d y P c z) in H. lra.
Qed.
(** two surfaces at distance 0 have the same radial part *)
Lemma bil_null : forall m ell P c z Q d y, (forall k, (k < m)%nat -> 0 < ell k) ->
  bil m ell P c z P c z - 2 * bil m ell P c z Q d y + bil m ell Q d y Q d y = 0 ->
  forall x, sumf P (fun j => c j * gauss m ell x (z j)) = sumf Q (fun j => d j * gauss m ell x (y j)).
Proof.
  intros m ell P c z Q d y Hl H0 x.
  (* the difference, as one set of centres *)
  set (z' := fun i => if Nat.ltb i P then z i else y (i - P)%nat). set (c' := fun i => if Nat.ltb i P then c i else - d (i - P)%nat).
  assert (Z1 : forall i, (i < P)%nat -> z' i = z i /\ c' i = c i) by (intros i Hi; unfold z', c'; destruct (Nat.ltb_spec i P); [auto|lia]).
  assert (Z2 : forall i, z' (P + i)%nat = y i /\ c' (P + i)%nat = - d i).
  { intros i. unfold z', c'. destruct (Nat.ltb_spec (P + i) P); [lia|]. now replace (P + i - P)%nat with i by lia. }
  assert (EB : bil m ell (P + Q) c' z' (P + Q) c' z' = 0).
  { rewrite <- H0. unfold bil. rewrite sumf_split.
    rewrite (sumf_ext P _ (fun i => sumf P (fun j => c i * c j * gauss m ell (z i) (z j)) - sumf Q (fun j => c i * d j * gauss m ell (z i) (y j)))).
    2:{ intros i Hi. rewrite sumf_split. destruct (Z1 i Hi) as (-> & ->). unfold Rminus. rewrite <- sumf_opp. f_equal.
        - apply sumf_ext; intros j Hj. destruct (Z1 j Hj) as (-> & ->). reflexivity.
        - apply sumf_ext; intros j Hj. destruct (Z2 j) as (-> & ->). ring. }
    rewrite (sumf_ext Q _ (fun i => sumf Q (fun j => d i * d j * gauss m ell (y i) (y j)) - sumf P (fun j => d i * c j * gauss m ell (y i) (z j)))).
    2:{ intros i Hi. rewrite sumf_split. destruct (Z2 i) as (-> & ->).
        rewrite (sumf_ext P _ (fun j => - (d i * c j * gauss m ell (y i) (z j)))) by (intros j Hj; destruct (Z1 j Hj) as (-> & ->); ring).
        rewrite (sumf_ext Q _ (fun j => d i * d j * gauss m ell (y i) (y j))) by (intros j Hj; destruct (Z2 j) as (-> & ->); ring).
        rewrite sumf_opp. ring. }
    rewrite !sumf_minus. change (sumf Q (fun i => sumf P (fun j => d i * c j * gauss m ell (y i) (z j)))) with (bil m ell Q d y P c z).
    rewrite (bil_sym m ell Q d y P c z). unfold bil. ring. }
  set (v := sumf (P + Q) (fun j => c' j * gauss m ell x (z' j))).
  assert (EV : v = sumf P (fun j => c j * gauss m ell x (z j)) - sumf Q (fun j => d j * gauss m ell x (y j))).
  { unfold v. rewrite sumf_split. unfold Rminus. rewrite <- sumf_opp. f_equal; apply sumf_ext; intros j Hj.
    - destruct (Z1 j Hj) as (-> & ->). reflexivity.
    - destruct (Z2 j) as (-> & ->). ring. }
  assert (B1 : bil m ell (P + Q) c' z' 1 (fun _ => 1) (fun _ => x) = v).
  { unfold bil, v. apply sumf_ext; intros i Hi. cbn [sumf]. rewrite (gauss_sym m ell (z' i) x). ring. }
  assert (B2 : bil m ell 1 (fun _ => 1) (fun _ => x) 1 (fun _ => 1) (fun _ => x) = 1).
  { unfold bil. cbn [sumf]. rewrite gauss_diag. ring. }
  assert (K := bil_psd2 m ell (P + Q) c' z' 1 (fun _ => 1) (fun _ => x) (- v) Hl). rewrite EB, B1, B2 in K.
  assert (v = 0) by nra. lra.
Qed.

Lemma bil_eval : forall m ell P c z Q d y, bil m ell P c z Q d y = sumf P (fun i => c i * sumf Q (fun j => d j * gauss m ell (z i) (y j))).
Proof. intros. unfold bil. apply sumf_ext; intros. rewrite <- sumf_scal_l. apply sumf_ext; intros. ring. Qed.

Definition wf_scales (m : nat) (e : option (nd R)) : Prop :=
  match e with None => True | Some e => (forall k, (k < m)%nat -> 0 < e.[k, 0%nat]) /\ (forall k, (k < nrows e)%nat -> 0 <= e.[k, 0%nat]) /\ (m <= nrows e)%nat end.
Lemma chosen_pos : forall l e v M m ell nu, wf_scales m e -> chosen (Rpower 10 l) e v M m ell nu -> forall k, (k < m)%nat -> 0 < ell k.
Proof.
  intros l e v M m ell nu He Hch. assert (G : 0 < Rpower 10 l) by (unfold Rpower; apply exp_pos).
  unfold chosen in Hch. destruct e as [e|]; destruct Hch as [Hl _]; intros k Hk; rewrite Hl by auto; auto.
  destruct He as (He1 & He2 & He0). apply Rmult_lt_0_compat; [|apply Rinv_0_lt_compat; auto]. apply Rmult_lt_0_compat; auto.
  eapply Rlt_le_trans with (e.[k, 0%nat]); auto. apply (sumf_term_le (nrows e) (fun j => e.[j, 0%nat]) k); auto. lia.
Qed.
Lemma poly_terms : forall N m L w, (1 <= m)%nat -> index_set N m = Ok L -> exists T a ex,
  (forall t, (t < T)%nat -> (nsum m (ex t) <= N)%nat) /\ forall x, terms_eval m T a ex x = poly_eval m L w x.
Proof.
  intros N m L w Hm HL. exists (length L), w, (fun t j => nth j (nth t L []) 0%nat). split.
  - intros t Ht. destruct (proj1 (index_set_In N m Hm L _ HL) (nth_In L [] Ht)) as [E D]. rewrite nsum_list by auto. exact D.
  - intros x. unfold terms_eval, poly_eval. apply sumf_ext. intros. unfold mono. ring.
Qed.

(** no surface with other centres, coefficients or polynomial part fits the data as well with as
    little roughness; if the polynomials are determined by their values at the samples, no other
    surface is as good *)
Theorem C93_smoothest_fit : forall solve cholesky fminbound N X f v e M m s,
  solve_sound solve -> shape X = [M; m] -> shape f = [M; 1%nat] -> (1 <= m)%nat -> wf_scales m e ->
  rbf_train solve cholesky fminbound N X f v e = Ok s ->
  exists l ell nu c T a ex, fminbound (rbf_objective solve cholesky X f v N e) = Ok l /\ chosen (Rpower 10 l) e v M m ell nu /\
   (forall k, (k < m)%nat -> 0 < ell k) /\ (forall i, (i < M)%nat -> / 10 ^ 6 <= nu i) /\
   (* the surface predicted from *)
   (forall t, (t < T)%nat -> (nsum m (ex t) <= N)%nat) /\
   (forall Y Q, shape Y = [Q; m] -> exists F, rbf_predict s Y false = Ok (F, None) /\ shape F = [Q; 1%nat] /\
      forall r, (r < Q)%nat -> F.[r, 0%nat] = surface m ell M c (fun i k => X.[i, k]) T a ex (fun k => Y.[r, k])) /\
   (* is the best *)
   (forall P c' z T' a' ex', (forall t, (t < T')%nat -> (nsum m (ex' t) <= N)%nat) ->
      smooth_cost M m X f ell nu M c (fun i k => X.[i, k]) T a ex <= smooth_cost M m X f ell nu P c' z T' a' ex') /\
   (* and the only best one *)
   ((forall B L, polynomial_bases X N = Ok (B, L) -> full_rank M (ncols B) (fun r i => B.[r, i])) ->
    forall P c' z T' a' ex', (forall t, (t < T')%nat -> (nsum m (ex' t) <= N)%nat) ->
      smooth_cost M m X f ell nu P c' z T' a' ex' = smooth_cost M m X f ell nu M c (fun i k => X.[i, k]) T a ex ->
      forall x, surface m ell P c' z T' a' ex' x = surface m ell M c (fun i k => X.[i, k]) T a ex x).
Proof.
  intros solve cholesky fminbound N X f v e M m s HS HX Hf Hm He H.
  destruct (rbf_train_inv solve cholesky fminbound N X f v e M m s HS HX Hf Hm H) as (L & l & nu & EL & HLM & El & Hch & Hnu & T).
  assert (Pell := chosen_pos _ _ _ _ _ _ _ He Hch).
  set (ell := fun k => (rb_ell s).[k, 0%nat]) in *. set (c := fun i => (rb_rw s).[i, 0%nat]).
  destruct (poly_terms N m L (fun c => (rb_pw s).[c, 0%nat]) Hm EL) as (TT & a & ex & Hex & Eex).
  assert (SV : forall x, rbf_eval s M m L x = surface m ell M c (fun i k => X.[i, k]) TT a ex x).
  { intros x. unfold rbf_eval, surface. rewrite (r_X _ _ _ _ _ _ _ _ T), Eex. f_equal. apply sumf_ext; intros. rewrite gauss_exp. unfold c, ell. ring. }
  assert (POS : forall i, (i < M)%nat -> 0 < nu i).
  { intros i Hi. specialize (Hnu i Hi). assert (0 < / 10 ^ 6) by (apply Rinv_0_lt_compat, pow_lt; lra). lra. }
  assert (RES : forall i, (i < M)%nat -> surface m ell M c (fun i k => X.[i, k]) TT a ex (fun k => X.[i, k]) = f.[i, 0%nat] - nu i * c i).
  { intros i Hi. rewrite <- SV. rewrite <- (rtrained_value N X f M m L nu s Hm EL T). apply (rtrained_residual N X f M m L nu s Hm EL T i Hi). }
  (* the gap between any surface and this one *)
  assert (GAP : forall P c' z T' a' ex', (forall t, (t < T')%nat -> (nsum m (ex' t) <= N)%nat) ->
     smooth_cost M m X f ell nu P c' z T' a' ex' - smooth_cost M m X f ell nu M c (fun i k => X.[i, k]) TT a ex =
     sumf M (fun i => (surface m ell P c' z T' a' ex' (fun k => X.[i, k]) - surface m ell M c (fun i k => X.[i, k]) TT a ex (fun k => X.[i, k])) ^ 2 / nu i) +
     (bil m ell P c' z P c' z - 2 * bil m ell P c' z M c (fun i k => X.[i, k]) + bil m ell M c (fun i k => X.[i, k]) M c (fun i k => X.[i, k]))).
  { intros P c' z T' a' ex' Hex'. set (S' := surface m ell P c' z T' a' ex'). set (S0 := surface m ell M c (fun i k => X.[i, k]) TT a ex).
    assert (R1 : forall P c z, roughness m ell P c z = bil m ell P c z P c z).
    { intros. unfold roughness, bil. apply sumf_ext; intros. apply sumf_ext; intros. now rewrite gauss_exp. }
    unfold smooth_cost. fold S' S0. rewrite !R1.
    (* sum of c_i times polynomial differences vanishes *)
    assert (OP : forall T1 a1 ex1, (forall t, (t < T1)%nat -> (nsum m (ex1 t) <= N)%nat) -> sumf M (fun i => terms_eval m T1 a1 ex1 (fun k => X.[i, k]) * c i) = 0).
    { intros T1 a1 ex1 H1. destruct (terms_collect N m L EL Hm T1 a1 ex1 H1) as (w & Ew).
      rewrite <- (rtrained_orthogonal N X f M m L nu s T w). apply sumf_ext. intros i Hi. now rewrite Ew. }
    assert (CR : sumf M (fun i => c i * (S' (fun k => X.[i, k]) - S0 (fun k => X.[i, k]))) =
        bil m ell P c' z M c (fun i k => X.[i, k]) - bil m ell M c (fun i k => X.[i, k]) M c (fun i k => X.[i, k])).
    { rewrite (bil_sym m ell P), !bil_eval.
      assert (O1 := OP T' a' ex' Hex'). assert (O2 := OP TT a ex Hex).
      rewrite <- sumf_minus. 
      transitivity (sumf M (fun i => c i * (S' (fun k => X.[i, k]) - S0 (fun k => X.[i, k]))) - sumf M (fun i => terms_eval m T' a' ex' (fun k => X.[i, k]) * c i) + sumf M (fun i => terms_eval m TT a ex (fun k => X.[i, k]) * c i)); [lra|].
      rewrite <- sumf_minus, <- sumf_plus. apply sumf_ext; intros i Hi. unfold S', S0, surface.
      rewrite (sumf_ext P (fun j => c' j * exp (- sumf m (fun k => ((X.[i, k]) - z j k) ^ 2 / ell k))) (fun j => c' j * gauss m ell (fun k => X.[i, k]) (z j))) by (intros j Hj; now rewrite <- gauss_exp).
      rewrite (sumf_ext M (fun j => c j * exp (- sumf m (fun k => ((X.[i, k]) - (X.[j, k])) ^ 2 / ell k))) (fun j => c j * gauss m ell (fun k => X.[i, k]) (fun k => X.[j, k]))) by (intros j Hj; now rewrite <- gauss_exp).
      ring. }
    assert (EX : sumf M (fun i => (f.[i, 0%nat] - S' (fun k => X.[i, k])) ^ 2 / nu i) - sumf M (fun i => (f.[i, 0%nat] - S0 (fun k => X.[i, k])) ^ 2 / nu i) =
        sumf M (fun i => (S' (fun k => X.[i, k]) - S0 (fun k => X.[i, k])) ^ 2 / nu i) - 2 * sumf M (fun i => c i * (S' (fun k => X.[i, k]) - S0 (fun k => X.[i, k])))).
    { rewrite <- sumf_scal_l, <- !sumf_minus. apply sumf_ext; intros i Hi. specialize (POS i Hi). specialize (RES i Hi). fold S0 in RES.
      assert (EF : f.[i, 0%nat] = S0 (fun k => X.[i, k]) + nu i * c i) by lra. rewrite EF. field. lra. }
    rewrite CR in EX. lra. }
  exists l, ell, nu, c, TT, a, ex. split; [exact El|]. split; [exact Hch|]. split; [exact Pell|]. split; [exact Hnu|]. split; [exact Hex|]. split; [|split].
  - intros Y Q HY. destruct (rbf_predict_ok s Y Q m M false HY Hm (r_shape _ _ _ _ _ _ _ _ T)) as (L' & F & EL' & E1 & E2 & D & E3 & _).
    rewrite (r_N _ _ _ _ _ _ _ _ T), EL in EL'. injection EL' as <-. exists F. split; [exact E3|]. split; [exact E1|].
    intros r Hr. rewrite E2 by auto. apply SV.
  - intros P c' z T' a' ex' Hex'. specialize (GAP P c' z T' a' ex' Hex').
    assert (B := bil_psd2 m ell P c' z M c (fun i k => X.[i, k]) (-1) Pell).
    match type of GAP with _ = ?u + _ => assert (0 <= u) end.
    { apply sumf_nonneg; intros i Hi. apply Rmult_le_pos; [apply pow2_ge_0|left; apply Rinv_0_lt_compat; auto]. }
    lra.
  - intros HR P c' z T' a' ex' Hex' EQ. specialize (GAP P c' z T' a' ex' Hex'). rewrite EQ in GAP.
    assert (B := bil_psd2 m ell P c' z M c (fun i k => X.[i, k]) (-1) Pell).
    match type of GAP with _ = ?u + _ => assert (U : 0 <= u) end.
    { apply sumf_nonneg; intros i Hi. apply Rmult_le_pos; [apply pow2_ge_0|left; apply Rinv_0_lt_compat; auto]. }
    match type of GAP with _ = ?u + ?w => assert (U0 : u = 0) by lra; assert (W0 : w = 0) by lra end.
    assert (RAD := bil_null m ell P c' z M c (fun i k => X.[i, k]) Pell W0).
    assert (PT : forall i, (i < M)%nat -> surface m ell P c' z T' a' ex' (fun k => X.[i, k]) = surface m ell M c (fun i k => X.[i, k]) TT a ex (fun k => X.[i, k])).
    { intros i Hi. assert (Q := fun H => sumf_nonneg_zero M _ H U0 i Hi). cbv beta in Q.
      specialize (Q ltac:(intros j Hj; apply Rmult_le_pos; [apply pow2_ge_0|left; apply Rinv_0_lt_compat; auto])).
      apply Rmult_integral in Q. destruct Q as [Q|Q]; [|assert (Q' := Rinv_neq_0_compat (nu i)); specialize (POS i Hi); exfalso; apply Q'; lra].
      assert (Q' : forall t, t ^ 2 = 0 -> t = 0) by (intros t Ht; nra). apply Q' in Q. lra. }
    destruct (terms_collect N m L EL Hm T' a' ex' Hex') as (w' & Ew'). destruct (terms_collect N m L EL Hm TT a ex Hex) as (w & Ew).
    assert (HR' : full_rank M (length L) (fun r i => mono m (nth i L []) (fun j => X.[r, j]))).
    { destruct (polynomial_bases_ok X N M m HX Hm) as (L' & EL' & EB). rewrite EL in EL'. injection EL' as <-. exact (HR _ _ EB). }
    assert (RAD' : forall x, sumf P (fun j => c' j * exp (- sumf m (fun k => (x k - z j k) ^ 2 / ell k))) = sumf M (fun j => c j * exp (- sumf m (fun k => (x k - X.[j, k]) ^ 2 / ell k)))).
    { intros x. specialize (RAD x).
      rewrite (sumf_ext P _ (fun j => c' j * gauss m ell x (z j))) by (intros j Hj; now rewrite gauss_exp).
      rewrite RAD. apply sumf_ext; intros j Hj. now rewrite <- gauss_exp. }
    assert (WW : forall q, (q < length L)%nat -> w' q - w q = 0).
    { apply (HR' (fun q => w' q - w q)). intros i Hi. specialize (PT i Hi). unfold surface in PT. rewrite RAD', Ew, Ew' in PT.
      assert (PE : poly_eval m L w' (fun k => X.[i, k]) - poly_eval m L w (fun k => X.[i, k]) = 0) by lra.
      rewrite <- PE. unfold poly_eval. rewrite <- sumf_minus. apply sumf_ext; intros; ring. }
    intros x. unfold surface. rewrite RAD', Ew, Ew'. f_equal. apply poly_eval_w. intros q Hq. specialize (WW q Hq). lra.
Qed.
Print Assumptions C93_smoothest_fit.

(** weights lam on the values predict without bias: every polynomial of degree at most N is
    predicted exactly *)
Definition unbiased (N M m : nat) (X : nd R) (y : nat -> R) (lam : nat -> R) : Prop :=
  forall T a ex, (forall t, (t < T)%nat -> (nsum m (ex t) <= N)%nat) ->
  sumf M (fun i => lam i * terms_eval m T a ex (fun k => X.[i, k])) = terms_eval m T a ex y.
(** mean squared error of predicting a random field with covariance exp(-sum (x-y)^2/ell) at y by
    sum lam_i (value at X_i + noise of variance nu_i):
    Var = 1 - 2 sum lam_i Cov(X_i, y) + sum lam_i lam_j Cov(X_i, X_j) + sum lam_i^2 nu_i *)
Definition prediction_mse (M m : nat) (X : nd R) (ell nu : nat -> R) (y : nat -> R) (lam : nat -> R) : R :=
  1 - 2 * sumf M (fun i => lam i * exp (- sumf m (fun k => (X.[i, k] - y k) ^ 2 / ell k)))
  + sumf M (fun i => sumf M (fun j => lam i * lam j * exp (- sumf m (fun k => (X.[i, k] - X.[j, k]) ^ 2 / ell k))))
  + sumf M (fun i => lam i ^ 2 * nu i).

(** At every point the prediction is a fixed combination of the values, without bias and with
    the smallest mean squared error of all such combinations. *)
Theorem C93_best_linear_unbiased : forall N X v e M m l ell nu y,
  shape X = [M; m] -> (1 <= m)%nat -> wf_scales m e -> chosen (Rpower 10 l) e v M m ell nu -> (forall i, (i < M)%nat -> / 10 ^ 6 <= nu i) ->
  (forall B L, polynomial_bases X N = Ok (B, L) -> full_rank M (ncols B) (fun r i => B.[r, i])) ->
  exists lam, unbiased N M m X y lam /\
   (forall lam', unbiased N M m X y lam' -> prediction_mse M m X ell nu y lam <= prediction_mse M m X ell nu y lam' /\
      (prediction_mse M m X ell nu y lam' = prediction_mse M m X ell nu y lam -> forall i, (i < M)%nat -> lam' i = lam i)) /\
   (forall solve cholesky fminbound f s, solve_sound solve -> shape f = [M; 1%nat] ->
      fminbound (rbf_objective solve cholesky X f v N e) = Ok l -> rbf_train solve cholesky fminbound N X f v e = Ok s ->
      forall Y Q r, shape Y = [Q; m] -> (r < Q)%nat -> (forall k, (k < m)%nat -> Y.[r, k] = y k) ->
      exists F, rbf_predict s Y false = Ok (F, None) /\ F.[r, 0%nat] = sumf M (fun i => lam i * f.[i, 0%nat])).
Proof.
  intros N X v e M m l ell nu y HX Hm He Hch Hnu HR.
  assert (Pell := chosen_pos _ _ _ _ _ _ _ He Hch).
  destruct (polynomial_bases_ok X N M m HX Hm) as (L & EL & EB).
  assert (HR' : full_rank M (length L) (fun r i => mono m (nth i L []) (fun j => X.[r, j]))) by exact (HR _ _ EB).
  set (x := fun i k => X.[i, k]). set (p := length L) in *.
  set (K := fun i j => gauss m ell (x i) (x j) + kron_delta i j * nu i). set (B := fun r i => mono m (nth i L []) (x r)).
  set (C := mk2 (M + p) (M + p) (saddle M p K B)).
  set (rhs := mk2 (M + p) 1 (fun i _ => if Nat.ltb i M then gauss m ell (x i) y else mono m (nth (i - M) L []) y)).
  assert (NS : nonsingular (M + p) C).
  { intros w Hw. apply (saddle_nonsingular M p K B); auto. intros c Hc. exact (reg_pd M m x ell nu Pell Hnu c Hc). }
  destruct (solve_ref_contract (M + p)%nat 1%nat C rhs eq_refl eq_refl NS) as (V & _ & SV & EV).
  set (lam := fun i => V.[i, 0%nat]). set (mu := fun c => V.[(M + c)%nat, 0%nat]).
  assert (TOP : forall i, (i < M)%nat -> sumf M (fun j => K i j * lam j) + sumf p (fun c => B i c * mu c) = gauss m ell (x i) y).
  { intros i Hi. assert (Q := EV i 0%nat ltac:(lia) ltac:(lia)).
    change (sumf (M + p) (fun k => saddle M p K B i k * V.[k, 0%nat]) = (if Nat.ltb i M then gauss m ell (x i) y else mono m (nth (i - M) L []) y)) in Q.
    rewrite saddle_row1 in Q by auto. destruct (Nat.ltb_spec i M); [|lia]. exact Q. }
  assert (BOT : forall c, (c < p)%nat -> sumf M (fun j => B j c * lam j) = mono m (nth c L []) y).
  { intros c Hc. assert (Q := EV (M + c)%nat 0%nat ltac:(lia) ltac:(lia)).
    change (sumf (M + p) (fun k => saddle M p K B (M + c) k * V.[k, 0%nat]) = (if Nat.ltb (M + c) M then gauss m ell (x (M + c)%nat) y else mono m (nth (M + c - M) L []) y)) in Q.
    rewrite saddle_row2 in Q by auto. destruct (Nat.ltb_spec (M + c) M); [lia|]. replace (M + c - M)%nat with c in Q by lia. exact Q. }
  assert (UB : forall lam', unbiased N M m X y lam' <-> forall c, (c < p)%nat -> sumf M (fun j => B j c * lam' j) = mono m (nth c L []) y).
  { intros lam'. split.
    - intros U c Hc. destruct (poly_terms N m L (fun q => kron_delta q c) Hm EL) as (T & a & ex & H1 & H2). specialize (U T a ex H1). rewrite H2 in U.
      assert (PK : forall z, poly_eval m L (fun q => kron_delta q c) z = mono m (nth c L []) z) by (intros z; apply (sumf_kd_r p c (fun q => mono m (nth q L []) z) Hc)).
      rewrite PK in U. rewrite <- U. apply sumf_ext; intros i Hi. rewrite H2, PK. unfold B, x. ring.
    - intros U T a ex H1. destruct (terms_collect N m L EL Hm T a ex H1) as (w & Ew). rewrite Ew. unfold poly_eval at 1.
      rewrite (sumf_ext M _ (fun i => sumf p (fun c => B i c * lam' i * w c))).
      + rewrite sumf_swap. apply sumf_ext; intros c Hc. rewrite sumf_scal_r, U by auto. reflexivity.
      + intros i Hi. rewrite Ew. unfold poly_eval. fold p. rewrite <- sumf_scal_l. apply sumf_ext; intros c Hc. unfold B, x. ring. }
  (* error of any other weights *)
  assert (MSE : forall lam', unbiased N M m X y lam' ->
     prediction_mse M m X ell nu y lam' - prediction_mse M m X ell nu y lam = sumf M (fun i => sumf M (fun j => (lam' i - lam i) * (lam' j - lam j) * K i j))).
  { intros lam' U. rewrite UB in U.
    assert (PM : forall lm, prediction_mse M m X ell nu y lm = 1 - 2 * sumf M (fun i => lm i * gauss m ell (x i) y) + sumf M (fun i => lm i * sumf M (fun j => K i j * lm j))).
    { intros lm. unfold prediction_mse.
      rewrite (sumf_ext M (fun i => lm i * exp _) (fun i => lm i * gauss m ell (x i) y)) by (intros i Hi; now rewrite <- gauss_exp).
      rewrite Rplus_assoc. f_equal. rewrite <- sumf_plus. apply sumf_ext; intros i Hi.
      rewrite <- sumf_scal_l. rewrite (sumf_ext M (fun j => lm i * (K i j * lm j)) (fun j => lm i * lm j * gauss m ell (x i) (x j) + kron_delta i j * (lm i * lm j * nu i))) by (intros j Hj; unfold K; ring).
      rewrite sumf_plus, (sumf_kd_l M i (fun j => lm i * lm j * nu i) Hi). f_equal; [|ring].
      apply sumf_ext; intros j Hj. now rewrite <- gauss_exp. }
    assert (KS : forall i j, K i j = K j i).
    { intros i j. unfold K. rewrite (gauss_sym m ell (x i) (x j)). unfold kron_delta. rewrite (Nat.eqb_sym i j). destruct (Nat.eqb_spec j i); [subst; ring|ring]. }
    set (d := fun i => lam' i - lam i).
    assert (CR : sumf M (fun i => d i * (sumf M (fun j => K i j * lam j) - gauss m ell (x i) y)) = 0).
    { rewrite (sumf_ext M _ (fun i => - (sumf p (fun c => B i c * d i * mu c)))).
      - rewrite sumf_opp, sumf_swap. rewrite sumf_zero; [ring|]. intros c Hc. rewrite sumf_scal_r.
        rewrite (sumf_ext M _ (fun i => B i c * lam' i - B i c * lam i)) by (intros; unfold d; ring).
        rewrite sumf_minus, U, BOT by auto. ring.
      - intros i Hi. rewrite <- (TOP i Hi). rewrite (sumf_ext p (fun c => B i c * d i * mu c) (fun c => d i * (B i c * mu c))) by (intros; ring). rewrite sumf_scal_l. ring. }
    assert (QF : forall u w, sumf M (fun i => u i * sumf M (fun j => K i j * w j)) = sumf M (fun i => w i * sumf M (fun j => K i j * u j))).
    { intros u w. rewrite (sumf_ext M _ (fun i => sumf M (fun j => u i * (K i j * w j)))) by (intros; now rewrite sumf_scal_l).
      rewrite sumf_swap. apply sumf_ext; intros j Hj. rewrite <- sumf_scal_l. apply sumf_ext; intros i Hi. rewrite (KS i j). ring. }
    rewrite !PM.
    transitivity (sumf M (fun i => d i * sumf M (fun j => K i j * d j))).
    2:{ apply sumf_ext; intros i Hi. rewrite <- sumf_scal_l. apply sumf_ext; intros j Hj. unfold d. ring. }
    assert (E1 : sumf M (fun i => d i * sumf M (fun j => K i j * d j)) =
       sumf M (fun i => lam' i * sumf M (fun j => K i j * lam' j)) - 2 * sumf M (fun i => lam' i * sumf M (fun j => K i j * lam j)) + sumf M (fun i => lam i * sumf M (fun j => K i j * lam j))).
    { transitivity (sumf M (fun i => lam' i * sumf M (fun j => K i j * lam' j)) - sumf M (fun i => lam' i * sumf M (fun j => K i j * lam j)) - (sumf M (fun i => lam i * sumf M (fun j => K i j * lam' j)) - sumf M (fun i => lam i * sumf M (fun j => K i j * lam j)))).
      - rewrite <- !sumf_minus. apply sumf_ext; intros i Hi.
        rewrite (sumf_ext M (fun j => K i j * d j) (fun j => K i j * lam' j - K i j * lam j)) by (intros; unfold d; ring). rewrite sumf_minus. unfold d. ring.
      - rewrite (QF lam lam'). ring. }
    assert (E2 : sumf M (fun i => d i * (sumf M (fun j => K i j * lam j) - gauss m ell (x i) y)) =
       sumf M (fun i => lam' i * sumf M (fun j => K i j * lam j)) - sumf M (fun i => lam i * sumf M (fun j => K i j * lam j)) - sumf M (fun i => lam' i * gauss m ell (x i) y) + sumf M (fun i => lam i * gauss m ell (x i) y)).
    { rewrite <- !sumf_minus, <- sumf_plus. apply sumf_ext; intros i Hi. unfold d. ring. }
    rewrite CR in E2. rewrite E1. lra. }
  exists lam. split; [apply UB; exact BOT|]. split.
  - intros lam' U. specialize (MSE lam' U).
    destruct (all_zero_or M (fun i => lam' i - lam i)) as [Z|Z].
    + split; [|intros _ i Hi; specialize (Z i Hi); lra].
      rewrite sumf_zero in MSE; [lra|]. intros i Hi. apply sumf_zero. intros j Hj. rewrite Z by auto. ring.
    + assert (PD := reg_pd M m x ell nu Pell Hnu _ Z). fold K in PD. change (0 < sumf M (fun i => sumf M (fun j => (lam' i - lam i) * (lam' j - lam j) * K i j))) in PD.
      split; [lra|]. intros E. exfalso. lra.
  - intros solve cholesky fminbound f s HS Hf Efm Hs Y Q r HY Hr Hy.
    destruct (rbf_train_inv solve cholesky fminbound N X f v e M m s HS HX Hf Hm Hs) as (L' & l' & nu' & EL' & HLM & El' & Hch' & Hnu' & T).
    rewrite EL in EL'. injection EL' as <-. rewrite Efm in El'. injection El' as <-.
    assert (EE : (forall k, (k < m)%nat -> (rb_ell s).[k, 0%nat] = ell k) /\ forall i, (i < M)%nat -> nu' i = nu i).
    { unfold chosen in Hch, Hch'. destruct e as [e|]; destruct Hch as (A1 & A2); destruct Hch' as (A1' & A2');
      (split; [intros k Hk; now rewrite A1, A1' by auto|]); destruct v as [v|]; intros i Hi; now rewrite A2, A2' by auto. }
    destruct EE as (EE & EN).
    assert (GE : forall u w, gauss m (fun k => (rb_ell s).[k, 0%nat]) u w = gauss m ell u w).
    { intros u w. unfold gauss. f_equal. apply sumf_ext; intros k Hk. now rewrite EE. }
    destruct (rbf_predict_ok s Y Q m M false HY Hm (r_shape _ _ _ _ _ _ _ _ T)) as (L' & F & EL' & E1 & E2 & D & E3 & _).
    rewrite (r_N _ _ _ _ _ _ _ _ T), EL in EL'. injection EL' as <-. exists F. split; [exact E3|]. rewrite E2 by auto.
    unfold rbf_eval. rewrite (r_X _ _ _ _ _ _ _ _ T).
    set (c := fun i => (rb_rw s).[i, 0%nat]). set (pw := fun q => (rb_pw s).[q, 0%nat]).
    assert (FI : forall i, (i < M)%nat -> f.[i, 0%nat] = sumf M (fun j => K i j * c j) + sumf p (fun q => B i q * pw q)).
    { intros i Hi. rewrite <- (r_top _ _ _ _ _ _ _ _ T i Hi). f_equal. apply sumf_ext; intros j Hj. rewrite GE, EN by auto. reflexivity. }
    assert (ORT : forall q, (q < p)%nat -> sumf M (fun j => B j q * c j) = 0) by (intros q Hq; exact (r_bot _ _ _ _ _ _ _ _ T q Hq)).
    assert (GY : forall i, gauss m (fun k => (rb_ell s).[k, 0%nat]) (fun k => Y.[r, k]) (x i) = gauss m ell (x i) y).
    { intros i. rewrite GE, gauss_sym. unfold gauss. f_equal. apply sumf_ext; intros k Hk. now rewrite Hy. }
    rewrite (sumf_ext M _ (fun i => c i * (sumf M (fun j => K i j * lam j) + sumf p (fun q => B i q * mu q)))).
    2:{ intros i Hi. rewrite TOP by auto. fold (x i). change (fun k => X.[i, k]) with (x i). rewrite GY. unfold c. ring. }
    replace (poly_eval m L pw (fun k => Y.[r, k])) with (poly_eval m L pw y)
      by (unfold poly_eval; apply sumf_ext; intros q Hq; f_equal; apply prodf_ext; intros k Hk; now rewrite Hy).
    rewrite (sumf_ext M (fun i => lam i * f.[i, 0%nat]) (fun i => lam i * sumf M (fun j => K i j * c j) + lam i * sumf p (fun q => B i q * pw q))) by (intros i Hi; rewrite FI by auto; ring).
    rewrite sumf_plus.
    rewrite (sumf_ext M (fun i => c i * _) (fun i => c i * sumf M (fun j => K i j * lam j) + c i * sumf p (fun q => B i q * mu q))) by (intros; ring).
    rewrite sumf_plus.
    assert (KS : forall i j, K i j = K j i).
    { intros i j. unfold K. rewrite (gauss_sym m ell (x i) (x j)). unfold kron_delta. rewrite (Nat.eqb_sym i j). destruct (Nat.eqb_spec j i); [subst; ring|ring]. }
    assert (Q1 : sumf M (fun i => c i * sumf M (fun j => K i j * lam j)) = sumf M (fun i => lam i * sumf M (fun j => K i j * c j))).
    { rewrite (sumf_ext M _ (fun i => sumf M (fun j => c i * (K i j * lam j)))) by (intros; now rewrite sumf_scal_l).
      rewrite sumf_swap. apply sumf_ext; intros j Hj. rewrite <- sumf_scal_l. apply sumf_ext; intros i Hi. rewrite (KS i j). ring. }
    assert (SW : forall u w, sumf M (fun i => u i * sumf p (fun q => B i q * w q)) = sumf p (fun q => sumf M (fun i => B i q * u i) * w q)).
    { intros u w. rewrite (sumf_ext M _ (fun i => sumf p (fun q => B i q * u i * w q))) by (intros; rewrite <- sumf_scal_l; apply sumf_ext; intros; ring).
      rewrite sumf_swap. apply sumf_ext; intros q Hq. now rewrite sumf_scal_r. }
    rewrite Q1, !SW. rewrite (sumf_zero p (fun q => sumf M (fun i => B i q * c i) * mu q)) by (intros q Hq; rewrite ORT by auto; ring).
    unfold poly_eval. fold p. rewrite (sumf_ext p (fun q => sumf M (fun i => B i q * lam i) * pw q) (fun q => mono m (nth q L []) y * pw q)) by (intros q Hq; now rewrite BOT by auto).
    ring.
Qed.
Print Assumptions C93_best_linear_unbiased.

(** three samples of a curve in one variable, linear trend: against the surface 0, and the weights
    that predict the value at 1/2 *)
Example C93_case : exists s l lam, rbf_train solve_ref cholesky_ref fmin_ref 1 X40 f76 None None = Ok s /\
  fmin_ref (rbf_objective solve_ref cholesky_ref X40 f76 None 1 None) = Ok l /\
  (exists c T a ex, smooth_cost 3 1 X40 f76 (fun _ => Rpower 10 l) (fun _ => / 10 ^ 6) 3 c (fun i k => X40.[i, k]) T a ex <= 10 ^ 6 * (f76.[0%nat, 0%nat] ^ 2 + f76.[1%nat, 0%nat] ^ 2 + f76.[2%nat, 0%nat] ^ 2)) /\
  sumf 3 lam = 1 /\ sumf 3 (fun i => lam i * X40.[i, 0%nat]) = 1 / 2 /\
  exists F, rbf_predict s (mat_of [[1 / 2]]) false = Ok (F, None) /\ F.[0%nat, 0%nat] = sumf 3 (fun i => lam i * f76.[i, 0%nat]).
Proof.
  destruct (C78_training_returns_partial solve_ref cholesky_ref fmin_ref 1 X40 f76 None None 3 1 solve_ref_contract cholesky_ref_contract fmin_ref_ok) as (s & Hs).
  1-2: reflexivity. lia. cbn; lia. exact rank40. exact I. exact I. left. exact I.
  destruct (C93_smoothest_fit solve_ref cholesky_ref fmin_ref 1 X40 f76 None None 3 1 s solve_ref_sound eq_refl eq_refl (le_n 1) I Hs)
    as (l & ell & nu & c & T & a & ex & El & (Hl & Hn) & _ & _ & _ & _ & BEST & _).
  destruct (C93_best_linear_unbiased 1 X40 None None 3 1 l (fun _ => Rpower 10 l) (fun _ => / 10 ^ 6) (fun _ => 1 / 2) eq_refl (le_n 1) I)
    as (lam & U & _ & PR).
  { split; auto. } { intros. apply Rle_refl. } { exact rank40. }
  exists s, l, lam. split; [exact Hs|]. split; [exact El|]. split; [|split; [|split]].
  - exists c, T, a, ex. specialize (BEST 0%nat (fun _ => 0) (fun _ _ => 0) 0%nat (fun _ => 0) (fun _ _ => 0%nat) ltac:(intros; lia)).
    assert (EC : forall P c z T a ex, smooth_cost 3 1 X40 f76 ell nu P c z T a ex = smooth_cost 3 1 X40 f76 (fun _ => Rpower 10 l) (fun _ => / 10 ^ 6) P c z T a ex).
    { intros. assert (GE : forall x y, exp (- sumf 1 (fun k => (x k - y k) ^ 2 / ell k)) = exp (- sumf 1 (fun k => (x k - y k) ^ 2 / Rpower 10 l))) by (intros; cbn [sumf]; now rewrite Hl by lia).
      unfold smooth_cost, roughness, surface. f_equal.
      - apply sumf_ext; intros i Hi. rewrite Hn by auto. do 4 f_equal. apply sumf_ext; intros j Hj. now rewrite (GE (fun k => X40.[i, k]) (z j)).
      - apply sumf_ext; intros i Hi. apply sumf_ext; intros j Hj. now rewrite (GE (z i) (z j)). }
    rewrite !EC in BEST. eapply Rle_trans; [exact BEST|]. right. unfold smooth_cost, roughness, surface, terms_eval. cbn [sumf]. field.
  - specialize (U 1%nat (fun _ => 1) (fun _ _ => 0%nat) ltac:(intros; cbn; lia)). unfold terms_eval in U. cbn [sumf prodf pow] in U. cbn [sumf]. lra.
  - specialize (U 1%nat (fun _ => 1) (fun _ _ => 1%nat) ltac:(intros; cbn; lia)). unfold terms_eval in U. cbn [sumf prodf pow] in U. cbn [sumf]. lra.
  - apply (PR solve_ref cholesky_ref fmin_ref f76 s solve_ref_sound eq_refl El Hs (mat_of [[1 / 2]]) 1%nat 0%nat eq_refl ltac:(lia)).
    intros k Hk. replace k with 0%nat by lia. reflexivity.
Qed.
