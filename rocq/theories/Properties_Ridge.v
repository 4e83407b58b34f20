(** C80: functions of several linear combinations of the inputs, from gradients to predictions. *)
From Coq Require Import String Reals Lra Lia List Arith ZArith Bool FunctionalExtensionality.
From Verif Require Import Prelude Py NumArr LinAlg Lsq Sorting Spectral Det EighRef Toy M_Misc M_RespSurf M_Gradients M_Subspaces M_SimRunners M_Quadrature M_QP M_Domains M_Designs M_ASRS
  P_Misc P_IndexSet P_Poly P_PolyFacts P_PolyTrain P_LocalLinear P_Subspaces P_Estimators P_Partition P_Bootstrap P_SubsState P_SubsLive P_Rbf Deriv P_Domains PolySub
  Properties_Subspaces Properties_SubsState Properties_RespSurf Properties_QP Properties_Domains Properties_ASRS Properties_EndToEnd.
Import ListNotations.
Open Scope R_scope.

Lemma is_poly_dep : forall n N p x y, is_poly n N p -> (forall a, (a < n)%nat -> x a = y a) -> p x = p y.
Proof.
  intros n N p x y (T & a & e & _ & E) H. rewrite !E. unfold terms_eval. apply sumf_ext. intros t _. f_equal. apply prodf_ext. intros j Hj. now rewrite H.
Qed.
Lemma pick_rows : forall n (P : nat -> (nat -> R) -> Prop), (forall q, (q < n)%nat -> exists c, P q c) -> exists K : nat -> nat -> R, forall q, (q < n)%nat -> P q (K q).
Proof.
  induction n; intros P H; [exists (fun _ _ => 0); intros; lia|].
  destruct (IHn P ltac:(auto)) as (K & HK). destruct (H n ltac:(lia)) as (c & Hc).
  exists (fun q => if Nat.eqb q n then c else K q). intros q Hq. destruct (Nat.eqb_spec q n) as [->|]; [exact Hc | apply HK; lia].
Qed.

(** the coordinates b_1.x, .., b_n.x of row s of X *)
Definition dirs (m : nat) (b : nat -> nat -> R) (X : nd R) (s : nat) : nat -> R := fun a => along m (b a) X s.
(** only the zero polynomial of degree <= N in n variables is zero at all M points *)
Definition unisolvent (n N M : nat) (t : nat -> nat -> R) : Prop :=
  forall p, is_poly n N p -> (forall s, (s < M)%nat -> p (t s) = 0) -> forall x, p x = 0.

(** a linear change of variables keeps a set of points unisolvent *)
Lemma unisolvent_linear : forall n N M t y (K : nat -> nat -> R), (1 <= N)%nat -> unisolvent n N M t ->
  (forall s a, (s < M)%nat -> (a < n)%nat -> t s a = sumf n (fun q => K a q * y s q)) -> unisolvent n N M y.
Proof.
  intros n N M t y K HN HU HT p HP HZ x.
  assert (IK : indep n n K).
  { intros c Hc a Ha.
    assert (L : is_poly n N (fun t => sumf n (fun a => c a * t a))) by (apply is_poly_le with 1%nat; [lia | apply is_poly_linear]).
    assert (Z := HU _ L). cbv beta in Z. specialize (Z ltac:(
      intros s Hs; transitivity (sumf n (fun q => sumf n (fun a => c a * K a q) * y s q));
      [ rewrite (sumf_ext n _ (fun a => sumf n (fun q => c a * K a q * y s q))) by (intros a' Ha'; rewrite HT by auto; rewrite <- sumf_scal_l; apply sumf_ext; intros; ring);
        rewrite sumf_swap; apply sumf_ext; intros q _; now rewrite sumf_scal_r
      | apply sumf_zero; intros q Hq; rewrite Hc by auto; ring ]) (fun j => kron_delta j a)).
    cbv beta in Z. rewrite sumf_kd_r in Z by auto. exact Z. }
  destruct (pick_rows n (fun q c => forall j, (j < n)%nat -> kron_delta q j = sumf n (fun a => c a * K a j))) as (Q & HQ).
  { intros q _. apply (indep_span n K IK (kron_delta q)). }
  set (p' := fun t => p (fun q => sumf n (fun a => Q q a * t a))).
  assert (BACK : forall z, p' (fun a => sumf n (fun q => K a q * z q)) = p z).
  { intros z. unfold p'. apply (is_poly_dep n N p _ _ HP). intros q Hq.
    transitivity (sumf n (fun j => kron_delta q j * z j)).
    - rewrite (sumf_ext n _ (fun a => sumf n (fun j => Q q a * K a j * z j))) by (intros a Ha; rewrite <- sumf_scal_l; apply sumf_ext; intros; ring).
      rewrite sumf_swap. apply sumf_ext. intros j Hj. rewrite HQ by auto. now rewrite sumf_scal_r.
    - now apply sumf_kd_l. }
  rewrite <- BACK. apply HU; [exact (is_poly_comp n n N p Q HP)|]. intros s Hs. rewrite <- (HZ s Hs), <- (BACK (y s)). unfold p'.
  apply (is_poly_dep n N p _ _ HP). intros q Hq. apply sumf_ext. intros a Ha. now rewrite HT.
Qed.

(** on unisolvent points the monomial basis has full rank, so there are enough points *)
Lemma unisolvent_rank : forall n N M Y, (1 <= n)%nat -> shape Y = [M; n] -> unisolvent n N M (fun s j => Y.[s, j]) ->
  (forall B L, polynomial_bases Y N = Ok (B, L) -> full_rank M (ncols B) (fun r i => B.[r, i])) /\ (binom (N + n) n <= M)%nat.
Proof.
  intros n N M Y Hn HY HU. destruct (polynomial_bases_ok Y N M n HY Hn) as (L & HL & EB).
  assert (FR : full_rank M (length L) (fun r i => mono n (nth i L []) (fun j => Y.[r, j]))).
  { intros w Hw. apply (poly_eval_zero N n L w Hn HL). apply (HU _ (is_poly_eval N n L w Hn HL)). intros s Hs. rewrite <- (Hw s Hs). reflexivity. }
  split.
  - intros B L' E. rewrite EB in E. injection E as <- <-. cbn [ncols]. exact FR.
  - rewrite <- (index_set_length N n Hn L HL). destruct (Nat.le_gt_cases (length L) M) as [|G]; auto. exfalso.
    destruct (lin_dep M (length L) (fun i r => mono n (nth i L []) (fun j => Y.[r, j])) G) as (c & (i & Hi & Hc) & E). apply Hc. apply (FR c); auto.
    intros r Hr. rewrite <- (E r Hr). apply sumf_ext. intros; ring.
Qed.

(** Gradients that are combinations of n vectors b, and whose span contains them:
    after compute and partition(n), the columns of W1 span the same space. *)
Theorem C80_active_directions : forall eigh argsort lstsq norm2 det (G : gen) (U : Type) M m n (df : nd R) (b h c : nat -> nat -> R)
    (ws : world G U (nd R) * subspaces),
  eigh_contract eigh -> argsort_contract argsort -> eigh_total eigh -> norm2_contract norm2 -> det_contract det ->
  (1 <= M)%nat -> (2 <= m)%nat -> (1 <= n <= m)%nat -> shape df = [M; m] ->
  (forall s i, (s < M)%nat -> (i < m)%nat -> df.[s, i] = sumf n (fun a => h s a * b a i)) ->
  (forall a i, (a < n)%nat -> (i < m)%nat -> b a i = sumf M (fun s => c a s * df.[s, i])) ->
  exists ws1 ws', ss_compute eigh argsort lstsq norm2 det None None (Some df) None "AS" "EVG" 0 ws = (Ok tt, ws1) /\
    ss_partition (IsA (Z.of_nat n)) ws1 = (Ok tt, ws') /\
    exists e V W1 W2, s_eigenvals (snd ws') = Some e /\ (forall j, (n <= j < m)%nat -> e.[j, 0%nat] = 0) /\ frame (snd ws') m n V W1 W2 /\
    exists K, forall a i, (a < n)%nat -> (i < m)%nat -> b a i = sumf n (fun q => K a q * W1.[i, q]).
Proof.
  intros eigh argsort lstsq norm2 det G U M m n df b h c ws Ce Ca Te Cn Cd HM Hm Hn HD Hdf Hb.
  destruct (C53_gradient_method_returns eigh argsort lstsq norm2 det G U M m df None "EVG" 0 ws Ce Ca Te Cn Cd HM Hm HD I (or_introl eq_refl)) as (ws1 & E).
  exists ws1.
  destruct (ss_compute_ok eigh argsort lstsq norm2 det Ce Ca _ _ _ _ _ _ _ _ _ _ E) as (M' & m' & e & V & w1 & br & n1 & A1 & B1 & k & HS & HSS & Hbr & HC & SP & Hn1 & HK & ES).
  rewrite HD in HS. inversion HS; subst M' m'. clear HS.
  unfold ssmethod in HSS. rewrite (eq_refl : String.eqb "AS" "AS" = true) in HSS. unfold mlift in HSS.
  destruct (active_subspace eigh argsort df (wdefault M None)) as [[e' V']|] eqn:EA; [|discriminate]. inversion HSS; subst e' V' w1. clear HSS.
  set (wt := wdefault M None) in *. assert (HW : shape wt = [M; 1%nat]) by reflexivity.
  assert (WP : forall s, (s < M)%nat -> 0 < wt.[s, 0%nat]).
  { intros s Hs. unfold wt, wdefault. rewrite at_mk2. apply Rinv_0_lt_compat, lt_0_INR. lia. }
  assert (WN : forall s, (s < M)%nat -> 0 <= wt.[s, 0%nat]) by (intros s Hs; left; auto).
  destruct (C13_ridge_functions_recovered eigh argsort M m df wt e V n b h Ce Ca HD HW WN (fun s i Hs _ Hi => Hdf s i Hs Hi) EA) as [E0 _].
  destruct (C11_eigenvalues_are_mean_squared_slopes eigh argsort M m df wt e V Ce Ca HD HW WN EA) as (SE & SV & _ & _ & _ & EZ).
  assert (OR : forall p q, (p < m)%nat -> (q < m)%nat -> sumf m (fun i => V.[i, p] * V.[i, q]) = if Nat.eqb p q then 1 else 0).
  { apply (C12_first_k_eigenvectors_capture_most eigh argsort M m df wt e V Ce Ca HD HW WN EA m ltac:(lia)). }
  assert (NR : nrows V = m) by (unfold nrows; rewrite SV; reflexivity).
  destruct (proj2 (ss_partition_iff (IsA (Z.of_nat n)) ws1)) as (ws' & EP).
  { exists (Z.of_nat n), V. split; [reflexivity|]. split; [rewrite ES; reflexivity|]. lia. }
  exists ws'. split; [exact E|]. split; [exact EP|].
  destruct (ss_partition_ok _ _ _ _ EP) as (n' & V' & A & B & Q1 & Q2 & _ & Q4 & Q5 & Q6). injection Q1 as <-.
  rewrite ES in Q2, Q4. cbn [s_eigenvecs] in Q2. injection Q2 as <-.
  destruct (Q6 m SV) as (_ & _ & SA & SB & CA & CB). rewrite Nat2Z.id in *.
  exists e, V, A, B. split; [rewrite Q4; reflexivity|]. split; [intros j Hj; apply E0; lia|]. split.
  { rewrite Q4. constructor; auto; lia. }
  exists (fun a q => sumf m (fun i => b a i * V.[i, q])). intros a i Ha Hi.
  assert (PERP : forall j, (n <= j < m)%nat -> sumf m (fun i => b a i * V.[i, j]) = 0).
  { intros j Hj. pose proof (proj1 (EZ j ltac:(lia)) (E0 j ltac:(lia) ltac:(lia))) as SL.
    rewrite (sumf_ext m _ (fun i => sumf M (fun s => c a s * (df.[s, i] * V.[i, j])))) by (intros i' Hi'; rewrite Hb by auto; rewrite <- sumf_scal_r; apply sumf_ext; intros; ring).
    rewrite sumf_swap. apply sumf_zero. intros s Hs. rewrite sumf_scal_l. specialize (SL s Hs (WP s Hs)). unfold slope in SL. rewrite SL. ring. }
  assert (OV : orthonormal m m (fun i j => V.[i, j])) by (intros p q Hp Hq; apply OR; auto).
  rewrite (ortho_expand m _ OV (b a) i Hi) at 1. cbv beta.
  replace m with (n + (m - n))%nat at 1 by lia. rewrite (sumf_split n). rewrite (sumf_zero (m - n)).
  - rewrite Rplus_0_r. apply sumf_ext. intros q Hq. rewrite CA by auto. f_equal. apply sumf_ext. intros; ring.
  - intros q Hq. rewrite (sumf_ext m _ (fun i => b a i * V.[i, (n + q)%nat])) by (intros; ring). rewrite PERP by lia. ring.
Qed.
Print Assumptions C80_active_directions.

(** A surface of degree N on n active variables whose span contains b_1, .., b_n,
    trained with the values of x -> g(b_1.x, .., b_n.x), g a polynomial of degree
    <= N, at points that no other polynomial of that degree fits, predicts the
    function and its gradient everywhere. *)
Theorem C80_ridge_predictions : forall solve cholesky fminbound lstsq kind d m n V W1 W2 (b K : nat -> nat -> R) N g (g' : nat -> (nat -> R) -> R) M X f v,
  lstsq_contract lstsq -> lstsq_total lstsq -> solve_sound solve ->
  frame (d_subs d) m n V W1 W2 -> (1 <= n)%nat -> (forall a i, (a < n)%nat -> (i < m)%nat -> b a i = sumf n (fun q => K a q * W1.[i, q])) ->
  (1 <= N)%nat -> is_poly n N g -> (forall t h, derivable_pt_lim (fun u => g (fun a => t a + u * h a)) 0 (sumf n (fun a => g' a t * h a))) ->
  shape X = [M; m] -> shape f = [M; 1%nat] -> (forall s, (s < M)%nat -> f.[s, 0%nat] = g (dirs m b X s)) ->
  unisolvent n N M (dirs m b X) ->
  exists s', train_with_data solve cholesky fminbound lstsq (ASRS (RSPoly N None) (AVM kind d)) X f v = Ok s' /\
    forall Z P, shape Z = [P; m] -> exists F D, asrs_predict s' Z true = Ok (F, Some D) /\ asrs_gradient s' Z = Ok (Some D) /\
      shape F = [P; 1%nat] /\ shape D = [P; m] /\
      (forall r, (r < P)%nat -> F.[r, 0%nat] = g (dirs m b Z r)) /\
      (forall r k, (r < P)%nat -> (k < m)%nat -> D.[r, k] = sumf n (fun a => g' a (dirs m b Z r) * b a k)).
Proof.
  intros solve cholesky fminbound lstsq kind d m n V W1 W2 b K N g g' M X f v Cl Tl Cs FR Hn HB HN HG Hg HX Hf Hfv HU.
  set (s := ASRS (RSPoly N None) (AVM kind d)).
  destruct (C21_forward (AVM kind d) m n V W1 W2 X M FR HX) as (Y & Zz & EF & SY & _ & YV & _).
  assert (AL : forall Z r a, (a < n)%nat -> dirs m b Z r a = sumf n (fun q => K a q * sumf m (fun i => Z.[r, i] * W1.[i, q]))).
  { intros Z r a Ha. unfold dirs, along.
    rewrite (sumf_ext m _ (fun i => sumf n (fun q => K a q * (Z.[r, i] * W1.[i, q])))) by (intros i Hi; rewrite HB by auto; rewrite <- sumf_scal_r; apply sumf_ext; intros; ring).
    rewrite sumf_swap. apply sumf_ext. intros q _. now rewrite sumf_scal_l. }
  assert (YA : forall r a, (r < M)%nat -> (a < n)%nat -> dirs m b X r a = sumf n (fun q => K a q * Y.[r, q])).
  { intros r a Hr Ha. rewrite AL by auto. apply sumf_ext. intros q Hq. now rewrite YV. }
  assert (UY : unisolvent n N M (fun s j => Y.[s, j])) by (apply (unisolvent_linear n N M (dirs m b X) _ K); auto).
  destruct (unisolvent_rank n N M Y Hn SY UY) as [RK CNT].
  destruct (C38_training_returns lstsq N Y f None M n Cl Tl SY Hf Hn HN I CNT) as (st & ET).
  assert (TR : train_with_data solve cholesky fminbound lstsq s X f v = Ok (ASRS (RSPoly N (Some st)) (AVM kind d))).
  { unfold train_with_data, s. cbn [as_map]. rewrite EF. cbn [rbind]. unfold asrs_train. cbn [as_rs rs_train]. rewrite ET. reflexivity. }
  exists (ASRS (RSPoly N (Some st)) (AVM kind d)). split; [exact TR |].
  destruct (is_poly_comp n n N g K HG) as (T & ca & ex & DEG & EV).
  assert (PV : forall Y' P, shape Y' = [P; n] -> exists F, poly_predict st Y' false = Ok (F, None) /\ shape F = [P; 1%nat] /\
    forall r, (r < P)%nat -> F.[r, 0%nat] = g (fun a => sumf n (fun q => K a q * Y'.[r, q]))).
  { intros Y' P HY'.
    destruct (C38_reproduces_polynomials lstsq N Y f None M n st T ca ex Cl SY Hf Hn HN I ET) with (Y := Y') (P := P) as (F & H1 & H2 & H3); auto.
    - intros r Hr. rewrite <- EV, Hfv by auto. apply (is_poly_dep n N g _ _ HG). auto.
    - exists F. split; [exact H1 |]. split; [exact H2 |]. intros r Hr. rewrite H3 by auto. now rewrite <- EV. }
  destruct (C41_trained_surface solve cholesky fminbound lstsq s _ m n V W1 W2 X f v M Cs Cl FR Hn HN HX Hf TR) as (_ & TG & _).
  assert (VAL : forall Z P, shape Z = [P; m] -> exists F, asrs_predict (ASRS (RSPoly N (Some st)) (AVM kind d)) Z false = Ok (F, None) /\
     forall r, (r < P)%nat -> F.[r, 0%nat] = g (dirs m b Z r)).
  { intros Z P HZ. destruct (C41_predict (ASRS (RSPoly N (Some st)) (AVM kind d)) m n V W1 W2 Z P FR HZ) as (Y' & SY' & YV' & EP & _).
    destruct (PV Y' P SY') as (F & EF' & SF & HF). exists F. rewrite EP. unfold predict_av. cbn [as_rs rs_predict]. rewrite EF'. split; [reflexivity |].
    intros r Hr. rewrite HF by auto. apply (is_poly_dep n N g _ _ HG). intros a Ha. rewrite AL by auto. apply sumf_ext. intros q _. now rewrite YV'. }
  intros Z P HZ. destruct (TG Z P HZ) as (F & D & F' & E1 & E2 & SF & SD & EQ & DER).
  exists F, D. split; [exact E1 |]. split. { unfold asrs_gradient. rewrite E1. reflexivity. } split; [exact SF |]. split; [exact SD |]. split.
  - intros r Hr. destruct (VAL Z P HZ) as (F2 & EV2 & HV). rewrite EV2 in E2. inversion E2; subst F2. rewrite <- HV by auto.
    symmetry. destruct EQ as [Q1 Q2]. apply Q2. rewrite Q1, SF. repeat constructor; auto.
  - intros r k Hr Hk. specialize (DER r (fun j => kron_delta j k) Hr).
    cbv beta in DER. rewrite sumf_kd_r in DER by auto.
    assert (DG := Hg (dirs m b Z r) (fun a => b a k)). cbv beta in DG.
    eapply uniqueness_limite; [exact DER |]. eapply D_ext; [exact DG |]. intros t. cbv beta.
    destruct (VAL (nudge Z P m r (fun j => kron_delta j k) t) P eq_refl) as (F2 & EV2 & HV). rewrite EV2. unfold value_at. rewrite HV by auto.
    apply (is_poly_dep n N g _ _ HG). intros a Ha.
    unfold dirs, along, nudge. transitivity (sumf m (fun i => b a i * Z.[r, i] + t * (b a i * kron_delta i k))).
    { apply sumf_ext. intros i Hi. rewrite at_mk2, Nat.eqb_refl. ring. }
    rewrite sumf_plus, sumf_scal_l, sumf_kd_r by auto. reflexivity.
Qed.
Print Assumptions C80_ridge_predictions.

(** The two together. *)
Theorem C80_end_to_end : forall eigh argsort lstsq norm2 det solve cholesky fminbound (G : gen) (U : Type)
    m n M N (b c : nat -> nat -> R) g (g' : nat -> (nat -> R) -> R) (X f df : nd R) v (ws : world G U (nd R) * subspaces),
  eigh_contract eigh -> argsort_contract argsort -> eigh_total eigh -> norm2_contract norm2 -> det_contract det ->
  lstsq_contract lstsq -> lstsq_total lstsq -> solve_sound solve ->
  (2 <= m)%nat -> (1 <= n <= m)%nat -> (1 <= M)%nat -> (1 <= N)%nat -> shape X = [M; m] -> shape f = [M; 1%nat] -> shape df = [M; m] ->
  is_poly n N g -> (forall t h, derivable_pt_lim (fun u => g (fun a => t a + u * h a)) 0 (sumf n (fun a => g' a t * h a))) ->
  (* values and gradients of x -> g(b_1.x, .., b_n.x) *)
  (forall s, (s < M)%nat -> f.[s, 0%nat] = g (dirs m b X s)) ->
  (forall s i, (s < M)%nat -> (i < m)%nat -> df.[s, i] = sumf n (fun a => g' a (dirs m b X s) * b a i)) ->
  (* the gradients span the b's, and only one polynomial of degree <= N fits the values *)
  (forall a i, (a < n)%nat -> (i < m)%nat -> b a i = sumf M (fun s => c a s * df.[s, i])) ->
  unisolvent n N M (dirs m b X) ->
  exists ws1 ws' d s',
    ss_compute eigh argsort lstsq norm2 det None None (Some df) None "AS" "EVG" 0 ws = (Ok tt, ws1) /\
    ss_partition (IsA (Z.of_nat n)) ws1 = (Ok tt, ws') /\
    unbounded_domain (IsA (snd ws')) = Ok d /\ d_n d = n /\
    train_with_data solve cholesky fminbound lstsq (ASRS (RSPoly N None) (AVM MUnbounded d)) X f v = Ok s' /\
    forall Z P, shape Z = [P; m] -> exists F D, asrs_predict s' Z true = Ok (F, Some D) /\ asrs_gradient s' Z = Ok (Some D) /\
      shape F = [P; 1%nat] /\ shape D = [P; m] /\
      (forall r, (r < P)%nat -> F.[r, 0%nat] = g (dirs m b Z r)) /\
      (forall r k, (r < P)%nat -> (k < m)%nat -> D.[r, k] = sumf n (fun a => g' a (dirs m b Z r) * b a k)).
Proof.
  intros eigh argsort lstsq norm2 det solve cholesky fminbound G U m n M N b c g g' X f df v ws Ce Ca Te Cn Cd Cl Tl Cs Hm Hn HM HN HX Hf HD HG Hg Hfv Hdf Hb HU.
  destruct (C80_active_directions eigh argsort lstsq norm2 det G U M m n df b (fun s a => g' a (dirs m b X s)) c ws Ce Ca Te Cn Cd HM Hm Hn HD Hdf Hb)
    as (ws1 & ws' & E1 & E2 & e & V & W1 & W2 & _ & _ & FR & K & HK).
  set (d := AVD DUnbounded (snd ws') m n None None None None).
  assert (ED : unbounded_domain (IsA (snd ws')) = Ok d).
  { unfold unbounded_domain. rewrite (fr_1 _ _ _ _ _ _ FR). unfold shape2. rewrite (fr_s1 _ _ _ _ _ _ FR). reflexivity. }
  destruct (C80_ridge_predictions solve cholesky fminbound lstsq MUnbounded d m n V W1 W2 b K N g g' M X f v Cl Tl Cs FR ltac:(lia) HK HN HG Hg HX Hf Hfv HU) as (s' & ET & HP).
  exists ws1, ws', d, s'. auto 10.
Qed.
Print Assumptions C80_end_to_end.

(** (x0 + x2) x1, from its values and gradients at six points *)
Definition b80 (a i : nat) : R := match a, i with O, O => 1 | O, 2%nat => 1 | 1%nat, 1%nat => 1 | _, _ => 0 end.
Definition X80 : nd R := mat_of [[0; 0; 0]; [1; 0; 0]; [2; 0; 0]; [0; 1; 0]; [1; 1; 0]; [0; 2; 0]].
Definition f80 : nd R := mat_of [[0]; [0]; [0]; [0]; [1]; [0]].
Definition df80 : nd R := mat_of [[0; 0; 0]; [0; 1; 0]; [0; 2; 0]; [1; 0; 1]; [1; 1; 1]; [2; 0; 2]].
Definition g80 (t : nat -> R) : R := t 0%nat * t 1%nat.
Definition dg80 (a : nat) (t : nat -> R) : R := match a with O => t 1%nat | _ => t 0%nat end.

Lemma uni80 : unisolvent 2 2 6 (dirs 3 b80 X80).
Proof.
  intros p (T & a & e & D & E) H x.
  assert (HL : index_set 2 2 = Ok [[0; 0]; [1; 0]; [0; 1]; [2; 0]; [1; 1]; [0; 2]]%nat) by reflexivity.
  destruct (terms_collect 2 2 _ HL ltac:(lia) T a e D) as (w & Hw).
  assert (Q : forall s, (s < 6)%nat -> poly_eval 2 [[0; 0]; [1; 0]; [0; 1]; [2; 0]; [1; 1]; [0; 2]]%nat w (dirs 3 b80 X80 s) = 0).
  { intros s Hs. rewrite <- Hw, <- E. apply H. exact Hs. }
  pose proof (Q 0%nat ltac:(lia)) as Q0. pose proof (Q 1%nat ltac:(lia)) as Q1. pose proof (Q 2%nat ltac:(lia)) as Q2.
  pose proof (Q 3%nat ltac:(lia)) as Q3. pose proof (Q 4%nat ltac:(lia)) as Q4. pose proof (Q 5%nat ltac:(lia)) as Q5.
  unfold poly_eval, mono, dirs, along, X80, b80 in *. cbn in Q0, Q1, Q2, Q3, Q4, Q5.
  rewrite E, Hw. unfold poly_eval, mono. cbn. 
  assert (w 0%nat = 0) by lra. assert (w 1%nat = 0) by lra. assert (w 2%nat = 0) by lra. assert (w 3%nat = 0) by lra. assert (w 4%nat = 0) by lra. assert (w 5%nat = 0) by lra.
  replace (w 0%nat) with 0. replace (w 1%nat) with 0. replace (w 2%nat) with 0. replace (w 3%nat) with 0. replace (w 4%nat) with 0. replace (w 5%nat) with 0. ring.
Qed.

Example C80_case : exists ws1 ws' d s',
    ss_compute eigh_ref argsort_ref lstsq_ref norm2_ref det_ref None None (Some df80) None "AS" "EVG" 0 (toy_world (L := nd R) tt, subs_new) = (Ok tt, ws1) /\
    ss_partition (IsA 2%Z) ws1 = (Ok tt, ws') /\
    unbounded_domain (IsA (snd ws')) = Ok d /\ d_n d = 2%nat /\
    train_with_data (fun _ _ => Err ValueError) (fun _ => Err ValueError) (fun _ => Err ValueError) lstsq_ref (ASRS (RSPoly 2 None) (AVM MUnbounded d)) X80 f80 None = Ok s' /\
    exists F D, asrs_predict s' (mat_of [[2; 3; 5]]) true = Ok (F, Some D) /\ F.[0%nat, 0%nat] = 21 /\
      D.[0%nat, 0%nat] = 3 /\ D.[0%nat, 1%nat] = 7 /\ D.[0%nat, 2%nat] = 3.
Proof.
  destruct (C80_end_to_end eigh_ref argsort_ref lstsq_ref norm2_ref det_ref (fun _ _ => Err ValueError) (fun _ => Err ValueError) (fun _ => Err ValueError)
    toy_gen unit 3 2 6 2 b80 (fun a s => match a, s with O, 3%nat => 1 | 1%nat, 1%nat => 1 | _, _ => 0 end) g80 dg80 X80 f80 df80 None (toy_world (L := nd R) tt, subs_new)
    eigh_ref_contract argsort_ref_contract eigh_ref_total norm2_ref_contract det_ref_contract lstsq_ref_contract lstsq_ref_total) as (ws1 & ws' & d & s' & E1 & E2 & E3 & E4 & E5 & HP); try reflexivity; try lia.
  - intros p q A B V0 _ _ H. discriminate.
  - apply (is_poly_mult 2 1 1); apply is_poly_var; lia.
  - intros t h. unfold g80, dg80. cbn [sumf]. eapply D_eq.
    { apply D_mult; (apply D_plus; [apply D_const|]; apply D_mult; [apply D_id | apply D_const]). } cbv beta. ring.
  - intros s Hs. do 6 (destruct s as [|s]; [unfold g80, dirs, along, X80, b80, f80; cbn; ring|]). lia.
  - intros s i Hs Hi. do 6 (destruct s as [|s]; [do 3 (destruct i as [|i]; [unfold dg80, dirs, along, X80, b80, df80; cbn; ring|]); lia|]). lia.
  - intros a i Ha Hi. do 2 (destruct a as [|a]; [do 3 (destruct i as [|i]; [unfold b80, df80; cbn; ring|]); lia|]). lia.
  - exact uni80.
  - exists ws1, ws', d, s'. split; [exact E1|]. split; [exact E2|]. split; [exact E3|]. split; [exact E4|]. split; [exact E5|].
    destruct (HP (mat_of [[2; 3; 5]]) 1%nat eq_refl) as (F & D & P1 & _ & _ & _ & P2 & P3). exists F, D. split; [exact P1|].
    rewrite P2, !P3 by lia. unfold g80, dg80, dirs, along, b80. cbn. repeat split; ring.
Qed.
