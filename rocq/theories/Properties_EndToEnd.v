(** C67, C68: from gradients to predictions and means, for ridge functions. *)
From Coq Require Import String Reals Lra Lia List Arith ZArith Bool FunctionalExtensionality.
From Verif Require Import Prelude Py NumArr LinAlg Lsq Sorting Spectral Det EighRef Toy M_Misc M_RespSurf M_Gradients M_Subspaces M_SimRunners M_Quadrature M_QP M_Domains M_Designs M_ASRS M_Integrals
  P_Misc P_IndexSet P_Poly P_PolyFacts P_PolyTrain P_LocalLinear P_Subspaces P_Estimators P_Partition P_Bootstrap P_SubsState P_SubsLive P_Rbf Deriv P_Domains Properties_Subspaces Properties_SubsState Properties_RespSurf GaussRules Tridiag P_Quadrature Properties_Quadrature Properties_QP Properties_Domains Properties_ASRS Properties_Integrals Properties_Integrate.
Import ListNotations.
Open Scope R_scope.

(** polynomials with many roots *)
Definition pol (n : nat) (c : nat -> R) (t : R) : R := sumf n (fun q => c q * t ^ q).
Lemma pol_S : forall n c t, pol (S n) c t = c 0%nat + t * pol n (fun q => c (S q)) t.
Proof.
  intros n c t. unfold pol. rewrite sumf_shift. simpl. rewrite <- sumf_scal_l. f_equal; [lra |]. apply sumf_ext. intros; ring.
Qed.
Lemma pol_divide : forall n c z, exists r, (forall t, pol (S n) c t = (t - z) * pol n r t + pol (S n) c z) /\
  ((forall q, (q < n)%nat -> r q = 0) -> forall q, (q < n)%nat -> c (S q) = 0).
Proof.
  induction n as [|n IH]; intros c z.
  - exists (fun _ => 0). split; [intros t; unfold pol; simpl; ring | intros _ q Hq; lia].
  - destruct (IH (fun q => c (S q)) z) as (r & H1 & H2).
    exists (fun q => match q with O => pol (S n) (fun q => c (S q)) z | S q => r q end). split.
    + intros t. rewrite (pol_S (S n) c t), (pol_S (S n) c z), (H1 t). rewrite (pol_S n (fun q => match q with O => _ | S q => r q end) t). cbn beta iota. change (pol n (fun q : nat => r q) t) with (pol n r t). ring.
    + intros H q Hq. assert (Z0 := H 0%nat ltac:(lia)). cbn beta iota in Z0.
      assert (H3 : forall q, (q < n)%nat -> c (S (S q)) = 0).
      { apply (H2 (fun q Hq => H (S q) ltac:(lia))). }
      destruct q as [|q]; [|apply H3; lia]. rewrite pol_S in Z0.
      replace (pol n (fun q => c (S (S q))) z) with 0 in Z0; [lra |]. unfold pol. symmetry. apply sumf_zero. intros i Hi. rewrite H3 by lia. ring.
Qed.
Lemma pol_roots : forall n c x, (forall i j, (i < j)%nat -> (j < n)%nat -> x i <> x j) ->
  (forall i, (i < n)%nat -> pol n c (x i) = 0) -> forall q, (q < n)%nat -> c q = 0.
Proof.
  induction n as [|n IH]; intros c x HX HZ q Hq; [lia |].
  destruct (pol_divide n c (x n)) as (r & H1 & H2).
  assert (R0 : forall q, (q < n)%nat -> r q = 0).
  { apply (IH r x). - intros i j Hi Hj. apply HX; lia.
    - intros i Hi. assert (E := HZ i ltac:(lia)). rewrite H1, (HZ n) in E by lia.
      assert (N := HX i n Hi ltac:(lia)). apply Rmult_eq_reg_l with (x i - x n); lra. }
  specialize (H2 R0). destruct q as [|q]; [|apply H2; lia].
  assert (E := HZ 0%nat ltac:(lia)). rewrite pol_S in E. replace (pol n (fun q => c (S q)) (x 0%nat)) with 0 in E; [lra |].
  unfold pol. symmetry. apply sumf_zero. intros i Hi. rewrite H2 by lia. ring.
Qed.

(** sums over an enumeration of 0, .., n-1 *)
Lemma sumf_reindex : forall n (s : nat -> nat) (f g : nat -> R), (forall i, (i < n)%nat -> (s i < n)%nat) ->
  (forall i j, (i < n)%nat -> (j < n)%nat -> s i = s j -> i = j) ->
  sumf n (fun i => f i * g (s i)) = sumf n (fun q => sumf n (fun i => if Nat.eqb (s i) q then f i else 0) * g q).
Proof.
  intros n s f g Hs Hi. transitivity (sumf n (fun q => sumf n (fun i => (if Nat.eqb (s i) q then f i else 0) * g q))).
  - rewrite sumf_swap. apply sumf_ext. intros i Hi'. symmetry. rewrite (sumf_single n (s i)); [rewrite Nat.eqb_refl; reflexivity | auto |].
    intros q _ Hq. destruct (Nat.eqb_spec (s i) q); [congruence | ring].
  - apply sumf_ext. intros q _. rewrite sumf_scal_r. reflexivity.
Qed.

(** the monomial basis in one variable has full rank on N+1 different points *)
Lemma basis_full_rank : forall N M Y (sg : nat -> nat), shape Y = [M; 1%nat] ->
  (forall q, (q <= N)%nat -> (sg q < M)%nat) -> (forall p q, (p < q)%nat -> (q <= N)%nat -> Y.[sg p, 0%nat] <> Y.[sg q, 0%nat]) ->
  forall B L, polynomial_bases Y N = Ok (B, L) -> full_rank M (ncols B) (fun r i => B.[r, i]).
Proof.
  intros N M Y sg HY Hs Hd B L EB. destruct (polynomial_bases_ok Y N M 1 HY (le_n 1)) as (L' & HL & EB'). rewrite EB' in EB. inversion EB; subst L'. clear EB EB'.
  assert (LEN : length L = S N) by (rewrite (index_set_length N 1 (le_n 1) L HL), binom_1; lia).
  change (ncols (mk2 M (length L) (fun r i : nat => mono 1 (nth i L []) (fun j : nat => Y.[r, j])))) with (length L).
  assert (ROW : forall i, (i < S N)%nat -> length (nth i L []) = 1%nat /\ (list_sum (nth i L []) <= N)%nat).
  { intros i Hi. apply (index_set_In N 1 (le_n 1) L _ HL). apply nth_In. lia. }
  set (ex := fun i => nth 0 (nth i L []) 0%nat).
  assert (EX : forall i, (i < S N)%nat -> nth i L [] = [ex i] /\ (ex i < S N)%nat).
  { intros i Hi. destruct (ROW i Hi) as [H1 H2]. unfold ex. destruct (nth i L []) as [|u [|? ?]]; simpl in *; try discriminate. split; [reflexivity | lia]. }
  assert (INJ : forall i j, (i < S N)%nat -> (j < S N)%nat -> ex i = ex j -> i = j).
  { intros i j Hi Hj E. apply (proj1 (NoDup_nth L []) (index_set_NoDup N 1 (le_n 1) L HL)); try lia.
    rewrite (proj1 (EX i Hi)), (proj1 (EX j Hj)), E. reflexivity. }
  intros x Hx j Hj. rewrite LEN in *.
  set (c := fun q => sumf (S N) (fun i => if Nat.eqb (ex i) q then x i else 0)).
  assert (C0 : forall q, (q < S N)%nat -> c q = 0).
  { apply (pol_roots (S N) c (fun q => Y.[sg q, 0%nat])).
    - intros p q Hp Hq. apply Hd; lia.
    - intros q Hq. specialize (Hx (sg q) (Hs q ltac:(lia))). unfold pol, c.
      rewrite <- (sumf_reindex (S N) ex x (fun k => Y.[sg q, 0%nat] ^ k)); [| intros i Hi; apply EX; auto | exact INJ].
      rewrite <- Hx. apply sumf_ext. intros i Hi. rewrite at_mk2. unfold mono. rewrite (proj1 (EX i Hi)). simpl. ring. }
  specialize (C0 (ex j) (proj2 (EX j Hj))). unfold c in C0.
  rewrite (sumf_single (S N) j) in C0; [rewrite Nat.eqb_refl in C0; exact C0 | auto |].
  intros i Hi Hij. destruct (Nat.eqb_spec (ex i) (ex j)) as [E|E]; [destruct (Hij (INJ i j Hi Hj E)) | reflexivity].
Qed.

Definition along (m : nat) (a : nat -> R) (X : nd R) (s : nat) : R := sumf m (fun i => a i * X.[s, i]).

(** Gradients that are multiples of one vector a: compute finds one active
    direction, a normalised. *)
Theorem C67_one_direction : forall eigh argsort lstsq norm2 det (G : gen) (U : Type) M m (df : nd R) (a b : nat -> R)
    (ws : world G U (nd R) * subspaces),
  eigh_contract eigh -> argsort_contract argsort -> eigh_total eigh -> norm2_contract norm2 -> det_contract det ->
  (2 <= m)%nat -> shape df = [M; m] ->
  (forall s i, (s < M)%nat -> (i < m)%nat -> df.[s, i] = b s * a i) ->
  (exists s, (s < M)%nat /\ b s <> 0) -> (exists i, (i < m)%nat /\ a i <> 0) ->
  exists ws', ss_compute eigh argsort lstsq norm2 det None None (Some df) None "AS" "EVG" 0 ws = (Ok tt, ws') /\ fst ws' = fst ws /\
    exists V W1 W2, frame (snd ws') m 1 V W1 W2 /\
    exists u, u * u * sumf m (fun i => a i * a i) = 1 /\ (forall i, (i < m)%nat -> W1.[i, 0%nat] = u * a i) /\
      0 <= u * a 0%nat.
Proof.
  intros eigh argsort lstsq norm2 det G U M m df a b ws Ce Ca Te Cn Cd Hm HD Hdf (s0 & Hs0 & Hb0) (i0 & Hi0 & Ha0).
  destruct (C53_gradient_method_returns eigh argsort lstsq norm2 det G U M m df None "EVG" 0 ws Ce Ca Te Cn Cd ltac:(lia) Hm HD I (or_introl eq_refl)) as (ws' & E).
  exists ws'. split; [exact E |].
  destruct (ss_compute_ok eigh argsort lstsq norm2 det Ce Ca _ _ _ _ _ _ _ _ _ _ E) as (M' & m' & e & V & w1 & br & n & A & B & k & HS & HSS & Hbr & HC & SP & Hn & HK & ES).
  rewrite HD in HS. inversion HS; subst M' m'. clear HS.
  destruct (ssmethod_ok eigh argsort lstsq Ce Ca _ _ _ _ _ _ _ _ _ HSS) as (k' & C & lam & HK' & ESO).
  unfold ssmethod in HSS. rewrite (eq_refl : String.eqb "AS" "AS" = true) in HSS. unfold mlift in HSS.
  destruct (active_subspace eigh argsort df (wdefault M None)) as [[e' V']|] eqn:EA; [|discriminate]. inversion HSS; subst e' V' w1. clear HSS.
  simpl in Hbr. destruct Hbr as [-> Hw]. split; [exact Hw |].
  set (wt := wdefault M None) in *. assert (HW : shape wt = [M; 1%nat]) by reflexivity.
  assert (WP : forall s, (s < M)%nat -> 0 < wt.[s, 0%nat]).
  { intros s Hs. unfold wt, wdefault. rewrite at_mk2. apply Rinv_0_lt_compat, lt_0_INR. lia. }
  assert (WN : forall s, (s < M)%nat -> 0 <= wt.[s, 0%nat]) by (intros s Hs; left; auto).
  assert (R1 : forall s i, (s < M)%nat -> 0 < wt.[s, 0%nat] -> (i < m)%nat -> df.[s, i] = sumf 1 (fun q => b s * a i)).
  { intros s i Hs _ Hi. simpl. rewrite Hdf by auto. ring. }
  destruct (C13_ridge_functions_recovered eigh argsort M m df wt e V 1 (fun _ => a) (fun s _ => b s) Ce Ca HD HW WN R1 EA) as [E0 EU].
  destruct (C12_first_k_eigenvectors_capture_most eigh argsort M m df wt e V Ce Ca HD HW WN EA 0 ltac:(lia)) as (_ & _ & _ & TOT).
  cbn [sumf Nat.add] in TOT. rewrite Rminus_0_r, Nat.sub_0_r in TOT.
  rewrite (sumf_single m 0 (fun j => e.[j, 0%nat])) in TOT; [|lia|intros j Hj Hj0; apply E0; lia].
  assert (AP : 0 < sumf m (fun i => a i * a i)).
  { apply (sumf_pos m _ i0); [intros i _; apply Rle_0_sqr | auto |]. apply Rlt_0_sqr. exact Ha0. }
  assert (EP : 0 < e.[0%nat, 0%nat]).
  { rewrite <- TOT. apply (sumf_pos M _ s0); auto.
    - intros s Hs. apply Rmult_le_pos; [apply WN; auto | apply sumf_nonneg; intros; apply Rle_0_sqr].
    - apply Rmult_lt_0_compat; [apply WP; auto |]. apply (sumf_pos m _ i0); [intros; apply Rle_0_sqr | auto |].
      rewrite Hdf by auto. apply Rlt_0_sqr. apply Rmult_integral_contrapositive. auto. }
  destruct (C11_eigenvalues_are_mean_squared_slopes eigh argsort M m df wt e V Ce Ca HD HW WN EA) as (SE & SV & _ & ENN & _).
  assert (k' = m) by (pose proof (es_V _ _ _ _ _ ESO) as Q; rewrite SV in Q; inversion Q; reflexivity). subst k'.
  assert (k = m) by (destruct SP as [Q _]; rewrite SV in Q; inversion Q; reflexivity). subst k.
  (* the largest gap is the first *)
  assert (N1 : Z.to_nat n = 1%nat).
  { unfold choose_dim in HC. rewrite (eq_refl : String.eqb "EVG" "EVG" = true) in HC.
    destruct (C16_first_largest_gap m e SE Hm) as (n' & ed & EP' & H1 & H2 & H3 & H4 & _). cbv zeta in *. rewrite EP' in HC. simpl in HC. inversion HC; subst n.
    rewrite Nat2Z.id. destruct (Nat.eq_dec n' 1) as [->|NE]; [reflexivity |]. exfalso.
    specialize (H3 1%nat ltac:(lia) ltac:(lia)). simpl in H3. rewrite (E0 1%nat), (E0 (n' - 1)%nat), (E0 n') in H3 by lia.
    rewrite Rminus_0_r, Rminus_0_r, Rabs_R0 in H3. pose proof (Rle_abs (e.[0%nat, 0%nat])). lra. }
  rewrite N1 in SP. destruct SP as (_ & _ & SA & SB & CA & CB).
  destruct (EU 0%nat ltac:(lia) ltac:(lra)) as (u & Hu). simpl in Hu.
  assert (OR : forall p q, (p < m)%nat -> (q < m)%nat -> sumf m (fun i => V.[i, p] * V.[i, q]) = if Nat.eqb p q then 1 else 0).
  { apply (C12_first_k_eigenvectors_capture_most eigh argsort M m df wt e V Ce Ca HD HW WN EA m ltac:(lia)). }
  exists V, A, B. split.
  { rewrite ES. constructor; auto; try lia. }
  assert (U2 : u 0%nat * u 0%nat * sumf m (fun i => a i * a i) = 1).
  { transitivity (sumf m (fun i => V.[i, 0%nat] * V.[i, 0%nat])); [|apply (OR 0%nat 0%nat); lia]. rewrite <- sumf_scal_l. apply sumf_ext. intros i Hi. rewrite !Hu by auto. ring. }
  exists (u 0%nat). split; [exact U2 |]. split.
  - intros i Hi. rewrite CA, Hu by lia. ring.
  - replace (u 0%nat * a 0%nat) with (V.[0%nat, 0%nat]) by (rewrite Hu by lia; ring). apply (es_row0 _ _ _ _ _ ESO). lia.
Qed.
Print Assumptions C67_one_direction.

(** A surface of degree N on that direction, trained with the values of a
    polynomial ridge function at points with N+1 different values of a.x,
    predicts the function and its gradient everywhere. *)
Theorem C67_ridge_predictions : forall solve cholesky fminbound lstsq kind d m V W1 W2 (a : nat -> R) u N (c : nat -> R) (g' : R -> R) M X f (sg : nat -> nat) v,
  lstsq_contract lstsq -> lstsq_total lstsq -> solve_sound solve ->
  frame (d_subs d) m 1 V W1 W2 -> u <> 0 -> (forall i, (i < m)%nat -> W1.[i, 0%nat] = u * a i) ->
  (1 <= N)%nat -> (N < M)%nat ->
  let g := fun t => sumf (S N) (fun q => c q * t ^ q) in
  (forall t, derivable_pt_lim g t (g' t)) ->
  shape X = [M; m] -> shape f = [M; 1%nat] -> (forall s, (s < M)%nat -> f.[s, 0%nat] = g (along m a X s)) ->
  (forall q, (q <= N)%nat -> (sg q < M)%nat) -> (forall p q, (p < q)%nat -> (q <= N)%nat -> along m a X (sg p) <> along m a X (sg q)) ->
  exists s', train_with_data solve cholesky fminbound lstsq (ASRS (RSPoly N None) (AVM kind d)) X f v = Ok s' /\
    forall Z P, shape Z = [P; m] -> exists F D, asrs_predict s' Z true = Ok (F, Some D) /\ asrs_gradient s' Z = Ok (Some D) /\
      shape F = [P; 1%nat] /\ shape D = [P; m] /\
      (forall r, (r < P)%nat -> F.[r, 0%nat] = g (along m a Z r)) /\
      (forall r k, (r < P)%nat -> (k < m)%nat -> D.[r, k] = g' (along m a Z r) * a k).
Proof.
  intros solve cholesky fminbound lstsq kind d m V W1 W2 a u N c g' M X f sg v Cl Tl Cs FR Hu HW HN HM g Hg HX Hf Hfv Hs Hd.
  set (s := ASRS (RSPoly N None) (AVM kind d)).
  destruct (C21_forward (AVM kind d) m 1 V W1 W2 X M FR HX) as (Y & Zz & EF & SY & _ & YV & _).
  assert (AL : forall X M, shape X = [M; m] -> forall r, (r < M)%nat -> sumf m (fun i => X.[r, i] * W1.[i, 0%nat]) = u * along m a X r).
  { intros X' M' HX' r Hr. unfold along. rewrite <- sumf_scal_l. apply sumf_ext. intros i Hi. rewrite HW by auto. ring. }
  assert (YA : forall r, (r < M)%nat -> Y.[r, 0%nat] = u * along m a X r).
  { intros r Hr. rewrite YV by (auto; lia). apply (AL X M); auto. }
  destruct (C38_training_returns lstsq N Y f None M 1 Cl Tl SY Hf (le_n 1) HN I) as (st & ET). { rewrite binom_1. lia. }
  assert (TR : train_with_data solve cholesky fminbound lstsq s X f v = Ok (ASRS (RSPoly N (Some st)) (AVM kind d))).
  { unfold train_with_data, s. cbn [as_map]. rewrite EF. cbn [rbind]. unfold asrs_train. cbn [as_rs rs_train]. rewrite ET. reflexivity. }
  exists (ASRS (RSPoly N (Some st)) (AVM kind d)). split; [exact TR |].
  (* the polynomial in the active variable *)
  assert (PV : forall Y' P, shape Y' = [P; 1%nat] -> exists F, poly_predict st Y' false = Ok (F, None) /\ shape F = [P; 1%nat] /\
    forall r, (r < P)%nat -> F.[r, 0%nat] = g (Y'.[r, 0%nat] / u)).
  { intros Y' P HY'.
    destruct (C38_reproduces_polynomials lstsq N Y f None M 1 st (S N) (fun q => c q * (/ u) ^ q) (fun q _ => q) Cl SY Hf (le_n 1) HN I ET) with (Y := Y') (P := P) as (F & H1 & H2 & H3); auto.
    - apply (basis_full_rank N M Y sg SY Hs). intros p q Hp Hq E. rewrite !YA in E by (apply Hs; lia). apply (Hd p q Hp Hq). apply Rmult_eq_reg_l with u; auto.
    - intros t Ht. unfold nsum. simpl. lia.
    - intros r Hr. rewrite Hfv by auto. unfold g, terms_eval. apply sumf_ext. intros q Hq. simpl. rewrite YA by auto.
      rewrite Rmult_1_l, Rmult_assoc, <- Rpow_mult_distr. f_equal. f_equal. field. exact Hu.
    - exists F. split; [exact H1 |]. split; [exact H2 |]. intros r Hr. rewrite H3 by auto. unfold g, terms_eval. apply sumf_ext. intros q Hq. simpl.
      rewrite Rmult_1_l, Rmult_assoc, <- Rpow_mult_distr. f_equal. f_equal. field. exact Hu. }
  destruct (C41_trained_surface solve cholesky fminbound lstsq s _ m 1 V W1 W2 X f v M Cs Cl FR (le_n 1) HN HX Hf TR) as (_ & TG & _).
  assert (VAL : forall Z P, shape Z = [P; m] -> exists F, asrs_predict (ASRS (RSPoly N (Some st)) (AVM kind d)) Z false = Ok (F, None) /\
     forall r, (r < P)%nat -> F.[r, 0%nat] = g (along m a Z r)).
  { intros Z P HZ. destruct (C41_predict (ASRS (RSPoly N (Some st)) (AVM kind d)) m 1 V W1 W2 Z P FR HZ) as (Y' & SY' & YV' & EP & _).
    destruct (PV Y' P SY') as (F & EF' & SF & HF). exists F. rewrite EP. unfold predict_av. cbn [as_rs rs_predict]. rewrite EF'. split; [reflexivity |].
    intros r Hr. rewrite HF by auto. f_equal. rewrite YV', (AL Z P) by auto. field. exact Hu. }
  intros Z P HZ. destruct (TG Z P HZ) as (F & D & F' & E1 & E2 & SF & SD & EQ & DER).
  exists F, D. split; [exact E1 |]. split. { unfold asrs_gradient. rewrite E1. reflexivity. } split; [exact SF |]. split; [exact SD |]. split.
  - intros r Hr. destruct (VAL Z P HZ) as (F2 & EV & HV). rewrite EV in E2. inversion E2; subst F2. rewrite <- HV by auto.
    symmetry. destruct EQ as [Q1 Q2]. apply Q2. rewrite Q1, SF. repeat constructor; auto.
  - intros r k Hr Hk. specialize (DER r (fun j => kron_delta j k) Hr).
    cbv beta in DER. rewrite sumf_kd_r in DER by auto.
    assert (DG : derivable_pt_lim (fun t => g (along m a Z r + t * a k)) 0 (g' (along m a Z r) * a k)).
    { refine (D_comp (fun t => along m a Z r + t * a k) g 0 (a k) (g' (along m a Z r)) _ _).
      - eapply D_eq. { apply D_plus; [apply D_const |]. apply D_mult; [apply D_id | apply D_const]. } cbv beta. ring.
      - replace (along m a Z r + 0 * a k) with (along m a Z r) by ring. apply Hg. }
    eapply uniqueness_limite; [exact DER |]. eapply D_ext; [exact DG |]. intros t. cbv beta.
    destruct (VAL (nudge Z P m r (fun j => kron_delta j k) t) P eq_refl) as (F2 & EV & HV). rewrite EV. unfold value_at. rewrite HV by auto. f_equal.
    unfold along, nudge. transitivity (sumf m (fun i => a i * Z.[r, i] + t * (a i * kron_delta i k))).
    { apply sumf_ext. intros i Hi. rewrite at_mk2, Nat.eqb_refl. ring. }
    rewrite sumf_plus, sumf_scal_l, sumf_kd_r by auto. reflexivity.
Qed.
Print Assumptions C67_ridge_predictions.

(** The two together: gradients and values of a polynomial ridge function at M
    points give the function. *)
Theorem C67_end_to_end : forall eigh argsort lstsq norm2 det solve cholesky fminbound (G : gen) (U : Type)
    m M N (a c : nat -> R) (g' : R -> R) (X f df : nd R) (sg : nat -> nat) v (ws : world G U (nd R) * subspaces),
  eigh_contract eigh -> argsort_contract argsort -> eigh_total eigh -> norm2_contract norm2 -> det_contract det ->
  lstsq_contract lstsq -> lstsq_total lstsq -> solve_sound solve ->
  (2 <= m)%nat -> (1 <= N)%nat -> (N < M)%nat -> shape X = [M; m] -> shape f = [M; 1%nat] -> shape df = [M; m] ->
  let g := fun t => sumf (S N) (fun q => c q * t ^ q) in
  (forall t, derivable_pt_lim g t (g' t)) ->
  (* values and gradients of x -> g(a.x), not all zero *)
  (forall s, (s < M)%nat -> f.[s, 0%nat] = g (along m a X s)) ->
  (forall s i, (s < M)%nat -> (i < m)%nat -> df.[s, i] = g' (along m a X s) * a i) ->
  (exists s i, (s < M)%nat /\ (i < m)%nat /\ df.[s, i] <> 0) ->
  (* N+1 of the points have different a.x *)
  (forall q, (q <= N)%nat -> (sg q < M)%nat) -> (forall p q, (p < q)%nat -> (q <= N)%nat -> along m a X (sg p) <> along m a X (sg q)) ->
  exists ws' d s',
    ss_compute eigh argsort lstsq norm2 det None None (Some df) None "AS" "EVG" 0 ws = (Ok tt, ws') /\
    unbounded_domain (IsA (snd ws')) = Ok d /\ d_n d = 1%nat /\
    train_with_data solve cholesky fminbound lstsq (ASRS (RSPoly N None) (AVM MUnbounded d)) X f v = Ok s' /\
    forall Z P, shape Z = [P; m] -> exists F D, asrs_predict s' Z true = Ok (F, Some D) /\ asrs_gradient s' Z = Ok (Some D) /\
      shape F = [P; 1%nat] /\ shape D = [P; m] /\
      (forall r, (r < P)%nat -> F.[r, 0%nat] = g (along m a Z r)) /\
      (forall r k, (r < P)%nat -> (k < m)%nat -> D.[r, k] = g' (along m a Z r) * a k).
Proof.
  intros eigh argsort lstsq norm2 det solve cholesky fminbound G U m M N a c g' X f df sg v ws Ce Ca Te Cn Cd Cl Tl Cs Hm HN HM HX Hf HD g Hg Hfv Hdf (s0 & i0 & Hs0 & Hi0 & NZ) Hs Hd.
  rewrite Hdf in NZ by auto.
  destruct (C67_one_direction eigh argsort lstsq norm2 det G U M m df a (fun s => g' (along m a X s)) ws Ce Ca Te Cn Cd Hm HD Hdf) as (ws' & E & _ & V & W1 & W2 & FR & u & U2 & HU & _).
  - exists s0. split; auto. intros E. rewrite E in NZ. apply NZ. ring.
  - exists i0. split; auto. intros E. rewrite E in NZ. apply NZ. ring.
  - set (d := AVD DUnbounded (snd ws') m 1 None None None None).
    assert (ED : unbounded_domain (IsA (snd ws')) = Ok d).
    { unfold unbounded_domain. rewrite (fr_1 _ _ _ _ _ _ FR). unfold shape2. rewrite (fr_s1 _ _ _ _ _ _ FR). reflexivity. }
    destruct (C67_ridge_predictions solve cholesky fminbound lstsq MUnbounded d m V W1 W2 a u N c g' M X f sg v Cl Tl Cs FR) as (s' & ET & HP); auto.
    { intros ->. rewrite Rmult_0_l, Rmult_0_l in U2. lra. }
    exists ws', d, s'. auto.
Qed.
Print Assumptions C67_end_to_end.

(** (x0 + x1)^2 from three points *)
Definition X67 : nd R := mk2 3 2 (fun i _ => INR i).
Definition g67 (t : R) : R := 2 * t.
Example C67_case : exists ws' d s',
    ss_compute eigh_ref argsort_ref lstsq_ref norm2_ref det_ref None None (Some (mk2 3 2 (fun i _ => 2 * (2 * INR i)))) None "AS" "EVG" 0
      (toy_world (L := nd R) tt, subs_new) = (Ok tt, ws') /\
    unbounded_domain (IsA (snd ws')) = Ok d /\ d_n d = 1%nat /\
    train_with_data (fun _ _ => Err ValueError) (fun _ => Err ValueError) (fun _ => Err ValueError) lstsq_ref (ASRS (RSPoly 2 None) (AVM MUnbounded d))
      X67 (mk2 3 1 (fun i _ => 2 * INR i * (2 * INR i))) None = Ok s' /\
    exists F D, asrs_predict s' (mk2 1 2 (fun _ j => INR j * 5)) true = Ok (F, Some D) /\ F.[0%nat, 0%nat] = 25 /\ D.[0%nat, 1%nat] = 10.
Proof.
  set (c := fun q => if Nat.eqb q 2 then 1 else 0).
  assert (AL : forall s, along 2 (fun _ => 1) X67 s = 2 * INR s) by (intros s; unfold along, X67; simpl; ring).
  destruct (C67_end_to_end eigh_ref argsort_ref lstsq_ref norm2_ref det_ref (fun _ _ => Err ValueError) (fun _ => Err ValueError) (fun _ => Err ValueError)
    toy_gen unit 2 3 2 (fun _ => 1) c g67 X67 (mk2 3 1 (fun i _ => 2 * INR i * (2 * INR i))) (mk2 3 2 (fun i _ => 2 * (2 * INR i))) (fun q => q) None (toy_world (L := nd R) tt, subs_new)
    eigh_ref_contract argsort_ref_contract eigh_ref_total norm2_ref_contract det_ref_contract lstsq_ref_contract lstsq_ref_total) as (ws' & d & s' & E1 & E2 & E3 & E4 & HP); try reflexivity; try lia.
  - intros p q A B V0 _ _ H. discriminate.
  - intros t. unfold g67. refine (D_ext (fun t => t ^ 2) _ _ _ _ _). { eapply D_eq. { apply D_pow, D_id. } simpl. ring. } intros y. unfold c. simpl. ring.
  - intros s _. rewrite AL, at_mk2. unfold c. simpl. ring.
  - intros s i _ _. rewrite AL, at_mk2. unfold g67. ring.
  - exists 1%nat, 0%nat. split; [lia |]. split; [lia |]. rewrite at_mk2. simpl. lra.
  - intros p q Hp Hq. rewrite !AL. apply lt_INR in Hp. lra.
  - exists ws', d, s'. split; [exact E1 |]. split; [exact E2 |]. split; [exact E3 |]. split; [exact E4 |].
    destruct (HP (mk2 1 2 (fun _ j => INR j * 5)) 1%nat eq_refl) as (F & D & P1 & _ & _ & _ & P2 & P3). exists F, D. split; [exact P1 |].
    rewrite P2, P3 by lia. unfold along, g67, c. rewrite !at_mk2 || idtac. simpl. split; ring.
Qed.

(** C68: the mean of a polynomial ridge function from its gradients. *)
Fixpoint scale_from (k : nat) (s : R) (c : list R) : list R := match c with [] => [] | x :: t => x * s ^ k :: scale_from (S k) s t end.
Lemma scale_length : forall c k s, List.length (scale_from k s c) = List.length c.
Proof. induction c as [|x c IH]; intros k s; simpl; [reflexivity | rewrite IH; reflexivity]. Qed.
Lemma scale_peval : forall c k s t, peval (scale_from k s c) t = s ^ k * peval c (s * t).
Proof. induction c as [|x c IH]; intros k s t; simpl; [ring |]. rewrite IH. simpl. ring. Qed.

Theorem C68_mean_end_to_end : forall eigh argsort lstsq norm2 det B ch eig del (G : gen) (U : Type)
    m M (a b : nat -> R) (df : nd R) (c : list R) (fn : ufun (U := U) (nd R) (nd R)) N NMC (ws : world G U (nd R) * subspaces),
  eigh_contract eigh -> argsort_contract argsort -> eigh_total eigh -> norm2_contract norm2 -> det_contract det -> eig_contract eig -> eig_total eig ->
  (2 <= m)%nat -> shape df = [M; m] ->
  (* gradients, not all zero, of some function of a.x *)
  (forall s i, (s < M)%nat -> (i < m)%nat -> df.[s, i] = b s * a i) -> (exists s i, (s < M)%nat /\ (i < m)%nat /\ df.[s, i] <> 0) ->
  (* a user function that evaluates the polynomial with coefficients c at a.x *)
  (forall x u, shape x = [1%nat; m] -> exists v u', fn x u = (Ok v, u') /\ size v = 1%nat /\
     flat v 0 = peval c (sumf m (fun i => a i * x.[0%nat, i]))) ->
  (1 <= N <= 10 ^ 24)%Z -> (List.length c <= 2 * Z.to_nat N)%nat -> (1 <= NMC)%Z ->
  exists ws' d w' sigma mu,
    ss_compute eigh argsort lstsq norm2 det None None (Some df) None "AS" "EVG" 0 ws = (Ok tt, ws') /\
    unbounded_domain (IsA (snd ws')) = Ok d /\
    integrate B ch eig argsort del (IsA fn) (IsA (AVM MUnbounded d)) (IsA N) (IsA NMC) (fst ws') = (Ok (mu, mu, mu), w') /\
    (* a.x is Gaussian with variance sigma^2 when x is standard Gaussian *)
    sigma * sigma = sumf m (fun i => a i * a i) /\ gaussian_mean (fun t => peval c (sigma * t)) mu.
Proof.
  intros eigh argsort lstsq norm2 det B ch eig del G U m M a b df c fn N NMC ws Ce Ca Te Cn Cd Cg Tg Hm HD Hdf (s0 & i0 & Hs0 & Hi0 & NZ) Hfn HN HL HMC.
  rewrite Hdf in NZ by auto.
  destruct (C67_one_direction eigh argsort lstsq norm2 det G U M m df a b ws Ce Ca Te Cn Cd Hm HD Hdf) as (ws' & E & _ & V & W1 & W2 & FR & u & U2 & HU & _).
  { exists s0. split; auto. intros E. rewrite E in NZ. apply NZ. ring. }
  { exists i0. split; auto. intros E. rewrite E in NZ. apply NZ. ring. }
  assert (U0 : u <> 0). { intros ->. rewrite Rmult_0_l, Rmult_0_l in U2. lra. }
  set (d := AVD DUnbounded (snd ws') m 1 None None None None).
  assert (ED : unbounded_domain (IsA (snd ws')) = Ok d).
  { unfold unbounded_domain. rewrite (fr_1 _ _ _ _ _ _ FR). unfold shape2. rewrite (fr_s1 _ _ _ _ _ _ FR). reflexivity. }
  destruct (C46_unbounded_exact G U B ch eig argsort del fn (AVM MUnbounded d) N NMC m 1 V W1 W2 N 1 (fun _ _ => scale_from 0 (/ u) c) (fst ws')
    FR (le_n 1) eq_refl eq_refl Cg Tg Ca HN) as (mean & w' & HG & HI).
  - change (Z.of_nat 1) with 1%Z. rewrite !Z.pow_1_r. lia.
  - exact HMC.
  - intros t k _ _. rewrite scale_length. exact HL.
  - intros x us Hx. destruct (Hfn x us Hx) as (v & u' & H1 & H2 & H3). exists v, u'. split; [exact H1 |]. split; [exact H2 |]. rewrite H3.
    cbn [sumf prodf]. rewrite scale_peval. simpl pow. rewrite Rplus_0_l, !Rmult_1_l. f_equal. rewrite <- sumf_scal_l. apply sumf_ext. intros i Hi. rewrite HU by auto. field. exact U0.
  - exists ws', d, w', (/ u), (mean 0%nat 0%nat). split; [exact E |]. split; [exact ED |]. split.
    + cbv zeta in HI. cbn [sumf prodf] in HI. rewrite Rplus_0_l, Rmult_1_l in HI. exact HI.
    + split. { apply Rmult_eq_reg_l with (u * u); [|apply Rmult_integral_contrapositive; auto]. rewrite U2. field. exact U0. }
      specialize (HG 0%nat 0%nat ltac:(lia) ltac:(lia)). cbv beta in HG.
      replace (fun t => peval c (/ u * t)) with (peval (scale_from 0 (/ u) c)); [exact HG |].
      apply functional_extensionality. intros t. rewrite scale_peval. simpl. ring.
Qed.
Print Assumptions C68_mean_end_to_end.

(** (x_0 + x_1)^2 has mean 2 under the standard Gaussian in two variables *)
Example C68_case : exists ws' d w',
    ss_compute eigh_ref argsort_ref lstsq_ref norm2_ref det_ref None None (Some (mk2 3 2 (fun i _ => 2 * (2 * INR i)))) None "AS" "EVG" 0
      (toy_world (L := nd R) tt, subs_new) = (Ok tt, ws') /\
    unbounded_domain (IsA (snd ws')) = Ok d /\
    integrate backend_ref (fun _ => Err ValueError) eigh_ref argsort_ref (fun _ => Err ValueError)
      (IsA (pure (fun x => (x.[0%nat, 0%nat] + x.[0%nat, 1%nat]) ^ 2))) (IsA (AVM MUnbounded d)) (IsA 4%Z) (IsA 7%Z) (fst ws') = (Ok (2, 2, 2), w').
Proof.
  destruct (C68_mean_end_to_end eigh_ref argsort_ref lstsq_ref norm2_ref det_ref backend_ref (fun _ => Err ValueError) eigh_ref (fun _ => Err ValueError)
    toy_gen unit 2 3 (fun _ => 1) (fun s => 4 * INR s) (mk2 3 2 (fun i _ => 2 * (2 * INR i))) [0; 0; 1] (pure (fun x => (x.[0%nat, 0%nat] + x.[0%nat, 1%nat]) ^ 2)) 4 7
    (toy_world (L := nd R) tt, subs_new) eigh_ref_contract argsort_ref_contract eigh_ref_total norm2_ref_contract det_ref_contract eig_ref_contract eig_ref_total)
    as (ws' & d & w' & sigma & mu & E1 & E2 & E3 & S2 & HG); try reflexivity; try lia.
  - intros s i _ _. rewrite at_mk2. ring.
  - exists 1%nat, 0%nat. split; [lia |]. split; [lia |]. rewrite at_mk2. simpl. lra.
  - intros x u Sx. do 2 eexists. split; [reflexivity|]. split; [reflexivity|]. unfold flat. cbn [at_ shape unravel]. cbn [sumf peval]. ring.
  - simpl. lia.
  - exists ws', d, w'. split; [exact E1 |]. split; [exact E2 |]. cbn [sumf] in S2.
    assert (A := hermite_mean [0; 0; 2]). simpl List.length in A. unfold sumf, nth in A.
    assert (T2 : Tpow sh 2 0 = 1). { assert (Q1 := sh_sq 1). simpl INR in Q1. simpl. unfold Tap, kron_delta. simpl. nra. }
    rewrite T2 in A. match type of A with gaussian_mean _ ?v => assert (EV : v = 2) by ring end. rewrite EV in A.
    replace (fun t => peval [0; 0; 1] (sigma * t)) with (peval [0; 0; 2]) in HG.
    + rewrite (gaussian_mean_unique _ _ _ HG A) in E3. exact E3.
    + apply functional_extensionality. intros t. cbn [peval]. replace 2 with (sigma * sigma) by lra. ring.
Qed.
