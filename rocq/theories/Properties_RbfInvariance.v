(** C90: the radial basis surface does not depend on how the samples are numbered, nor on where
    the origin and the axes of the input space are
    (utils/response_surfaces.py 199-388, RadialBasisApproximation) *)
From Coq Require Import String Reals Lra Lia List Arith ZArith Bool FinFun FunctionalExtensionality.
From Verif Require Import Prelude Py NumArr LinAlg Lsq Det M_Misc M_RespSurf P_Misc P_IndexSet P_Poly P_PolyTrain P_PolyFacts PolySub GaussPD Cholesky SolveRef P_Rbf P_RbfObj P_RbfInvariance GaussSPD Toy Properties_RespSurf Properties_Ridge Properties_PolyInvariance Properties_RbfObj.
Import ListNotations.
Open Scope R_scope.

(** the metric of the kernel: plain distance without eigenvalues, coordinates weighted by the
    eigenvalues with them *)
Definition metric (e : option (nd R)) (k : nat) : R := match e with None => 1 | Some e => e.[k, 0%nat] end.
(** x -> A x + b *)
Definition affine_map (m : nat) (A : nat -> nat -> R) (b x : nat -> R) (i : nat) : R := sumf m (fun j => A i j * x j) + b i.
Definition isometry (m : nat) (e : option (nd R)) (A : nat -> nat -> R) (b : nat -> R) : Prop :=
  forall x y, sumf m (fun k => metric e k * (affine_map m A b x k - affine_map m A b y k) ^ 2) = sumf m (fun k => metric e k * (x k - y k) ^ 2).
Definition noise_moved (M : nat) (sg : nat -> nat) (v v' : option (nd R)) : Prop :=
  match v, v' with
  | None, None => True
  | Some v, Some v' => size v = M /\ size v' = M /\ forall r, (r < M)%nat -> flat v' r = flat v (sg r)
  | _, _ => False
  end.

Lemma isometry_0 : forall m e A b x, isometry m e A b ->
  sumf m (fun k => metric e k * sumf m (fun j => A k j * x j) ^ 2) = sumf m (fun k => metric e k * x k ^ 2).
Proof.
  intros m e A b x H. specialize (H x (fun _ => 0)). unfold affine_map in H.
  rewrite (sumf_ext m (fun k => metric e k * (x k - 0) ^ 2) (fun k => metric e k * x k ^ 2)) in H by (intros; ring). rewrite <- H.
  apply sumf_ext. intros k Hk. rewrite (sumf_zero m (fun j => A k j * 0)) by (intros; ring). ring.
Qed.

(** an isometry is invertible *)
Lemma isometry_inverse : forall solve m e A b, solve_contract solve -> (forall k, (k < m)%nat -> 0 < metric e k) -> isometry m e A b ->
  exists A', (forall i k, (i < m)%nat -> (k < m)%nat -> sumf m (fun j => A' i j * A j k) = if Nat.eqb i k then 1 else 0) /\
    (forall i k, (i < m)%nat -> (k < m)%nat -> sumf m (fun j => A i j * A' j k) = if Nat.eqb i k then 1 else 0).
Proof.
  intros solve m e A b HS Hp HI.
  assert (NS : nonsingular m (mk2 m m A)).
  { intros x Hx i Hi. assert (Q := isometry_0 m e A b x HI).
    rewrite (sumf_zero m (fun k => metric e k * sumf m (fun j => A k j * x j) ^ 2)) in Q by (intros k Hk; assert (Hxk := Hx k Hk); change (sumf m (fun j => A k j * x j) = 0) in Hxk; rewrite Hxk; ring).
    destruct (Req_dec (x i) 0); auto. exfalso.
    assert (Z := sumf_term_le m (fun k => metric e k * x k ^ 2) i ltac:(intros k Hk; apply Rmult_le_pos; [left; auto|apply pow2_ge_0]) Hi). cbv beta in Z.
    assert (0 < metric e i * x i ^ 2) by (apply Rmult_lt_0_compat; auto; rewrite <- Rsqr_pow2; now apply Rsqr_pos_lt). lra. }
  destruct (HS m m (mk2 m m A) (mk2 m m kron_delta) eq_refl eq_refl NS) as (V & _ & _ & E).
  assert (RI : forall i k, (i < m)%nat -> (k < m)%nat -> sumf m (fun j => A i j * V.[j, k]) = if Nat.eqb i k then 1 else 0).
  { intros i k Hi Hk. exact (E i k Hi Hk). }
  exists (fun i j => V.[i, j]). split; [|exact RI].
  intros i k Hi Hk. assert (Q : (fun i => sumf m (fun j => V.[i, j] * A j k) - (if Nat.eqb i k then 1 else 0)) i = 0); [|cbv beta in Q; lra].
  apply (NS (fun i => sumf m (fun j => V.[i, j] * A j k) - (if Nat.eqb i k then 1 else 0))); auto. intros r Hr. cbv beta.
  rewrite (sumf_ext m _ (fun a => sumf m (fun j => A r a * V.[a, j] * A j k) - (if Nat.eqb a k then 1 else 0) * A r a)).
  2: { intros a Ha. rewrite at_mk2. rewrite (sumf_ext m (fun j => A r a * V.[a, j] * A j k) (fun j => A r a * (V.[a, j] * A j k))) by (intros; ring). rewrite sumf_scal_l. ring. }
  rewrite sumf_minus, (GaussPoincare.sumf_ite m k (fun a => A r a) Hk), sumf_swap.
  rewrite (sumf_ext m _ (fun j => (if Nat.eqb j r then 1 else 0) * A j k)).
  2: { intros j Hj. rewrite sumf_scal_r, RI by auto. now rewrite Nat.eqb_sym. }
  rewrite (GaussPoincare.sumf_ite m r (fun j => A j k) Hr). ring.
Qed.

Lemma affine_back : forall m A A' b, (forall i k, (i < m)%nat -> (k < m)%nat -> sumf m (fun j => A' i j * A j k) = if Nat.eqb i k then 1 else 0) ->
  forall x i, (i < m)%nat -> affine_map m A' (fun i => - sumf m (fun j => A' i j * b j)) (affine_map m A b x) i = x i.
Proof.
  intros m A A' b I1 x i Hi. unfold affine_map.
  rewrite (sumf_ext m (fun j => A' i j * (sumf m (fun j0 => A j j0 * x j0) + b j)) (fun j => sumf m (fun k => A' i j * A j k * x k) + A' i j * b j)).
  2: { intros j Hj. rewrite (sumf_ext m (fun k => A' i j * A j k * x k) (fun k => A' i j * (A j k * x k))) by (intros; ring). rewrite sumf_scal_l. ring. }
  rewrite sumf_plus, (sumf_swap m m (fun j k => A' i j * A j k * x k)).
  rewrite (sumf_ext m (fun k => sumf m (fun j => A' i j * A j k * x k)) (fun k => (if Nat.eqb k i then 1 else 0) * x k)).
  2: { intros k Hk. rewrite sumf_scal_r, I1 by auto. now rewrite Nat.eqb_sym. }
  rewrite (GaussPoincare.sumf_ite m i x Hi). ring.
Qed.
Lemma affine_forth : forall m A A' b, (forall i k, (i < m)%nat -> (k < m)%nat -> sumf m (fun j => A i j * A' j k) = if Nat.eqb i k then 1 else 0) ->
  forall x i, (i < m)%nat -> affine_map m A b (affine_map m A' (fun i => - sumf m (fun j => A' i j * b j)) x) i = x i.
Proof.
  intros m A A' b I2 x i Hi. unfold affine_map.
  rewrite (sumf_ext m _ (fun j => sumf m (fun k => A i j * A' j k * (x k - b k)))).
  2: { intros j Hj. rewrite (sumf_ext m (fun k => A i j * A' j k * (x k - b k)) (fun k => A i j * (A' j k * x k - A' j k * b k))) by (intros; ring). rewrite sumf_scal_l, sumf_minus. ring. }
  rewrite sumf_swap. rewrite (sumf_ext m _ (fun k => (if Nat.eqb k i then 1 else 0) * (x k - b k))).
  2: { intros k Hk. rewrite sumf_scal_r, I2 by auto. now rewrite Nat.eqb_sym. }
  rewrite (GaussPoincare.sumf_ite m i (fun k => x k - b k) Hi). ring.
Qed.

(** the kernel sees only distances *)
Lemma gauss_isometry : forall m e A b ell c, isometry m e A b -> (forall k, (k < m)%nat -> -1 / ell k = c * metric e k) ->
  forall x y, gauss m ell (affine_map m A b x) (affine_map m A b y) = gauss m ell x y.
Proof.
  intros m e A b ell c HI Hl x y. unfold gauss. f_equal. specialize (HI x y).
  rewrite (sumf_ext m _ (fun k => c * (metric e k * (affine_map m A b x k - affine_map m A b y k) ^ 2))) by (intros k Hk; rewrite Hl by auto; ring).
  rewrite sumf_scal_l, HI, <- sumf_scal_l. apply sumf_ext. intros k Hk. rewrite Hl by auto. ring.
Qed.
Lemma gauss_dep : forall m ell x y x' y', (forall k, (k < m)%nat -> x' k = x k) -> (forall k, (k < m)%nat -> y' k = y k) -> gauss m ell x' y' = gauss m ell x y.
Proof. intros. unfold gauss. f_equal. apply sumf_ext. intros k Hk. rewrite H, H0 by auto. reflexivity. Qed.
Lemma gauss_ell : forall m ell ell' x y, (forall k, (k < m)%nat -> ell' k = ell k) -> gauss m ell' x y = gauss m ell x y.
Proof. intros. unfold gauss. f_equal. apply sumf_ext. intros k Hk. rewrite H by auto. reflexivity. Qed.

Section Moved.
  Variables (solve : nd R -> nd R -> res (nd R)) (N : nat) (X X' : nd R) (M m : nat) (e : option (nd R)) (sg : nat -> nat) (A A' : nat -> nat -> R) (b : nat -> R).
  Hypotheses (HSC : solve_contract solve) (Hm : (1 <= m)%nat) (HSG : renumbering M sg) (HI : isometry m e A b)
    (I1 : forall i k, (i < m)%nat -> (k < m)%nat -> sumf m (fun j => A' i j * A j k) = if Nat.eqb i k then 1 else 0)
    (I2 : forall i k, (i < m)%nat -> (k < m)%nat -> sumf m (fun j => A i j * A' j k) = if Nat.eqb i k then 1 else 0)
    (HX' : forall r i, (r < M)%nat -> (i < m)%nat -> X'.[r, i] = affine_map m A b (fun k => X.[sg r, k]) i).
  Let back := affine_map m A' (fun i => - sumf m (fun j => A' i j * b j)).
  Let to := affine_map m A b.

  Lemma poly_there : forall q, is_poly m N q -> is_poly m N (fun x => q (to x)).
  Proof. intros q Hq. exact (is_poly_affine m m N q A b Hq). Qed.
  Lemma poly_back : forall q, is_poly m N q -> is_poly m N (fun x => q (back x)).
  Proof. intros q Hq. exact (is_poly_affine m m N q A' (fun i => - sumf m (fun j => A' i j * b j)) Hq). Qed.
  Lemma poly_round : forall q, is_poly m N q -> forall x, q (back (to x)) = q x.
  Proof. intros q Hq x. apply (is_poly_dep m N q _ _ Hq). intros i Hi. exact (affine_back m A A' b I1 x i Hi). Qed.
  Lemma poly_round' : forall q, is_poly m N q -> forall x, q (to (back x)) = q x.
  Proof. intros q Hq x. apply (is_poly_dep m N q _ _ Hq). intros i Hi. exact (affine_forth m A A' b I2 x i Hi). Qed.
  Lemma poly_sample : forall q r, is_poly m N q -> (r < M)%nat -> q (fun k => X'.[r, k]) = q (to (fun k => X.[sg r, k])).
  Proof. intros q r Hq Hr. apply (is_poly_dep m N q _ _ Hq). intros i Hi. now rewrite HX'. Qed.
  Lemma poly_sample' : forall q r, is_poly m N q -> (r < M)%nat -> q (back (fun k => X'.[r, k])) = q (fun k => X.[sg r, k]).
  Proof.
    intros q r Hq Hr. rewrite <- (poly_round q Hq (fun k => X.[sg r, k])). exact (poly_sample (fun x => q (back x)) r (poly_back q Hq) Hr).
  Qed.

  Lemma moved_rank : forall I, index_set N m = Ok I -> full_rank M (length I) (fun r i => mono m (nth i I []) (fun j => X.[r, j])) ->
    full_rank M (length I) (fun r i => mono m (nth i I []) (fun j => X'.[r, j])).
  Proof.
    intros I EI HR w Hw. assert (Pw := is_poly_eval N m I w Hm EI).
    destruct (poly_there _ Pw) as (T & a & ex & D & E). destruct (terms_collect N m I EI Hm T a ex D) as (w' & Ew').
    assert (Z : forall c, (c < length I)%nat -> w' c = 0).
    { apply HR. intros i Hi. destruct (proj1 (bInjective_bSurjective (proj1 HSG)) (proj2 HSG) i Hi) as (r & Hr & <-).
      change (poly_eval m I w' (fun j => X.[sg r, j]) = 0). rewrite <- Ew', <- E. cbv beta. rewrite <- (poly_sample _ r Pw Hr). apply Hw. auto. }
    apply HR. intros i Hi. change (poly_eval m I w (fun j => X.[i, j]) = 0). rewrite <- (poly_round' _ Pw).
    rewrite E, Ew'. unfold poly_eval. apply sumf_zero. intros c Hc. rewrite Z by auto. ring.
  Qed.

  Section Scales.
    Variables (ell nu nu' : nat -> R) (c : R).
    Hypotheses (Hl : forall k, (k < m)%nat -> -1 / ell k = c * metric e k) (Hnu : forall i, (i < M)%nat -> nu' i = nu (sg i)).

    Lemma kern_moved : forall i j, (i < M)%nat -> (j < M)%nat -> kern m ell nu' X' i j = kern m ell nu X (sg i) (sg j).
    Proof.
      intros i j Hi Hj. unfold kern. f_equal.
      - rewrite <- (gauss_isometry m e A b ell c HI Hl (fun k => X.[sg i, k]) (fun k => X.[sg j, k])). apply gauss_dep; intros k Hk; now rewrite HX'.
      - rewrite Hnu by auto. f_equal. unfold kron_delta. destruct (Nat.eqb_spec i j) as [->|Nij]; [now rewrite Nat.eqb_refl|].
        destruct (Nat.eqb_spec (sg i) (sg j)) as [Q|]; auto. exfalso. apply Nij. now apply HSG.
    Qed.

    Lemma pd_moved : posdef M (kern m ell nu X) <-> posdef M (kern m ell nu' X').
    Proof.
      assert (Q : forall x, sumf M (fun i => sumf M (fun j => x (sg i) * x (sg j) * kern m ell nu' X' i j)) = sumf M (fun i => sumf M (fun j => x i * x j * kern m ell nu X i j))).
      { intros x. rewrite <- (sumf_renumber M sg (fun i => sumf M (fun j => x i * x j * kern m ell nu X i j)) HSG). apply sumf_ext. intros i Hi.
        rewrite <- (sumf_renumber M sg (fun j => x (sg i) * x j * kern m ell nu X (sg i) j) HSG). apply sumf_ext. intros j Hj. now rewrite kern_moved. }
      destruct (bSurjective_bBijective (proj1 HSG) (proj1 (bInjective_bSurjective (proj1 HSG)) (proj2 HSG))) as (tau & TF & TG).
      split; intros PD x (i & Hi & Nx).
      - assert (E := Q (fun i => x (tau i))). assert (E' : sumf M (fun i => sumf M (fun j => x i * x j * kern m ell nu' X' i j)) = sumf M (fun i => sumf M (fun j => x (tau (sg i)) * x (tau (sg j)) * kern m ell nu' X' i j))).
        { apply sumf_ext. intros a Ha. apply sumf_ext. intros a' Ha'. rewrite (proj1 (TG a Ha)), (proj1 (TG a' Ha')). reflexivity. }
        rewrite E', E. apply (PD (fun i => x (tau i))). exists (sg i). split; [now apply HSG|]. now rewrite (proj1 (TG i Hi)).
      - rewrite <- Q. apply (PD (fun i => x (sg i))). exists (tau i). split; [auto|]. now rewrite (proj2 (TG i Hi)).
    Qed.

    Lemma kern_sum : forall u i, (i < M)%nat -> sumf M (fun j => kern m ell nu' X' i j * u (sg j)) = sumf M (fun j => kern m ell nu X (sg i) j * u j).
    Proof.
      intros u i Hi. rewrite <- (sumf_renumber M sg (fun j => kern m ell nu X (sg i) j * u j) HSG). apply sumf_ext. intros j Hj. now rewrite kern_moved.
    Qed.

    Lemma value_moved : forall f f' L q L' q', posdef M (kern m ell nu X) -> (forall i, (i < M)%nat -> f' i = f (sg i)) ->
      objective_value M m N ell nu X f L q -> objective_value M m N ell nu' X' f' L' q' ->
      sumf M (fun i => ln (L'.[i, i])) = sumf M (fun i => ln (L.[i, i])) /\ q' = q.
    Proof.
      intros f f' L q L' q' PD Hf (CF & LO & HIq) (CF' & LO' & HIq'). split.
      - apply (chol_logdet M (mk2 M M (noisy m ell nu X)) L (mk2 M M (noisy m ell nu' X')) L' sg CF CF' (proj1 HSG) (proj2 HSG)).
        intros i j Hi Hj. exact (kern_moved i j Hi Hj).
      - assert (SO : forall r : nat -> R, exists u, forall i, (i < M)%nat -> sumf M (fun j => kern m ell nu X i j * u j) = r i).
        { intros r. destruct (HSC M 1%nat (mk2 M M (kern m ell nu X)) (mk2 M 1 (fun i _ => r i)) eq_refl eq_refl) as (V & _ & _ & Q); [apply pd_nonsingular; exact PD|].
          exists (fun j => V.[j, 0%nat]). intros i Hi. exact (Q i 0%nat Hi ltac:(lia)). }
        (* z with L z = r from u with K u = r *)
        assert (ZO : forall K0 L0 u (r : nat -> R), chol_factor M K0 L0 -> (forall i, (i < M)%nat -> sumf M (fun j => K0.[i, j] * u j) = r i) ->
           forall i, (i < M)%nat -> sumf M (fun k => L0.[i, k] * sumf M (fun j => L0.[j, k] * u j)) = r i).
        { intros K0 L0 u r (_ & _ & _ & E0) HU i Hi. rewrite <- HU by auto.
          rewrite (sumf_ext M _ (fun k => sumf M (fun j => L0.[i, k] * L0.[j, k] * u j))) by (intros; rewrite <- sumf_scal_l; apply sumf_ext; intros; ring).
          rewrite sumf_swap. apply sumf_ext. intros j Hj. rewrite sumf_scal_r, E0 by auto. reflexivity. }
        (* equal lengths *)
        assert (LE : forall u r z z', (forall i, (i < M)%nat -> sumf M (fun j => kern m ell nu X i j * u j) = r i) ->
           (forall i, (i < M)%nat -> sumf M (fun k => L.[i, k] * z k) = r i) -> (forall i, (i < M)%nat -> sumf M (fun k => L'.[i, k] * z' k) = r (sg i)) ->
           sumf M (fun k => z' k * z' k) = sumf M (fun k => z k * z k)).
        { intros u r z z' HU HZ HZ'. rewrite <- (whiten M _ L u r z CF HU HZ).
          rewrite <- (whiten M _ L' (fun i => u (sg i)) (fun i => r (sg i)) z' CF'); auto.
          - exact (sumf_renumber M sg (fun i => r i * u i) HSG).
          - intros i Hi. rewrite <- HU by (now apply HSG). exact (kern_sum u i Hi). }
        apply Rle_antisym.
        + destruct HIq as (T & a & ex & z & D & Z & ->).
          assert (Pp : is_poly m N (terms_eval m T a ex)) by (exists T, a, ex; auto).
          destruct (poly_back _ Pp) as (T1 & a1 & ex1 & D1 & E1).
          set (r := fun i => f i - terms_eval m T a ex (fun k => X.[i, k])). destruct (SO r) as (u & HU).
          assert (HU' : forall i, (i < M)%nat -> sumf M (fun j => kern m ell nu' X' i j * u (sg j)) = r (sg i)) by (intros i Hi; rewrite kern_sum by auto; apply HU; now apply HSG).
          assert (HZ' := ZO _ L' (fun j => u (sg j)) (fun i => r (sg i)) CF' HU'). cbv beta in HZ'.
          rewrite <- (LE u r z _ HU Z HZ'). apply (LO' T1 a1 ex1); auto. intros i Hi. rewrite HZ' by auto. unfold r. rewrite Hf by auto. f_equal.
          rewrite <- E1. symmetry. exact (poly_sample' _ i Pp Hi).
        + destruct HIq' as (T & a & ex & z & D & Z & ->).
          assert (Pp : is_poly m N (terms_eval m T a ex)) by (exists T, a, ex; auto).
          destruct (poly_there _ Pp) as (T1 & a1 & ex1 & D1 & E1).
          set (r := fun i => f i - terms_eval m T1 a1 ex1 (fun k => X.[i, k])). destruct (SO r) as (u & HU).
          assert (HZ := ZO _ L u r CF HU). cbv beta in HZ.
          rewrite (LE u r _ z HU HZ); [apply (LO T1 a1 ex1); auto|].
          intros i Hi. rewrite Z by auto. unfold r. rewrite Hf by auto. f_equal. rewrite <- E1. exact (poly_sample _ i Pp Hi).
    Qed.
  End Scales.

  (** the fitted surface follows the samples *)
  Lemma fit_moved : forall f f' I nu nu' s s' c, index_set N m = Ok I -> full_rank M (length I) (fun r i => mono m (nth i I []) (fun j => X.[r, j])) ->
    rtrained N X f M m I nu s -> rtrained N X' f' M m I nu' s' ->
    (forall k, (k < m)%nat -> 0 < (rb_ell s).[k, 0%nat]) -> (forall k, (k < m)%nat -> (rb_ell s').[k, 0%nat] = (rb_ell s).[k, 0%nat]) ->
    (forall k, (k < m)%nat -> -1 / (rb_ell s).[k, 0%nat] = c * metric e k) ->
    (forall i, (i < M)%nat -> / 10 ^ 6 <= nu i) -> (forall i, (i < M)%nat -> nu' i = nu (sg i)) -> (forall i, (i < M)%nat -> f'.[i, 0%nat] = f.[sg i, 0%nat]) ->
    (forall i, (i < M)%nat -> (rb_rw s').[i, 0%nat] = (rb_rw s).[sg i, 0%nat]) /\
    (forall x, poly_eval m I (fun c => (rb_pw s').[c, 0%nat]) (to x) = poly_eval m I (fun c => (rb_pw s).[c, 0%nat]) x) /\
    forall x, rbf_value s' m (to x) = rbf_value s m x.
  Proof.
    intros f f' I nu nu' s s' c EI HR T T' Pl El Hl Pn En Ef.
    set (ell := fun k => (rb_ell s).[k, 0%nat]) in *.
    assert (G' : forall x y, gauss m (fun k => (rb_ell s').[k, 0%nat]) x y = gauss m ell x y) by (intros; now apply gauss_ell).
    assert (Pp := is_poly_eval N m I (fun c => (rb_pw s).[c, 0%nat]) Hm EI).
    destruct (poly_back _ Pp) as (TT & a & ex & D & E). destruct (terms_collect N m I EI Hm TT a ex D) as (w & Ew).
    assert (W : forall x, poly_eval m I w x = poly_eval m I (fun c => (rb_pw s).[c, 0%nat]) (back x)) by (intros x; rewrite <- Ew, <- E; reflexivity).
    set (K := kern m ell nu' X'). set (B := fun r i => mono m (nth i I []) (fun j => X'.[r, j])).
    set (u := fun i => if Nat.ltb i M then (rb_rw s').[i, 0%nat] - (rb_rw s).[sg i, 0%nat] else (rb_pw s').[(i - M)%nat, 0%nat] - w (i - M)%nat).
    assert (U1 : forall i, (i < M)%nat -> u i = (rb_rw s').[i, 0%nat] - (rb_rw s).[sg i, 0%nat]) by (intros i Hi; unfold u; destruct (Nat.ltb_spec i M); [auto|lia]).
    assert (U2 : forall c, u (M + c)%nat = (rb_pw s').[c, 0%nat] - w c).
    { intros k. unfold u. destruct (Nat.ltb_spec (M + k) M); [lia|]. now replace (M + k - M)%nat with k by lia. }
    assert (Z : forall i, (i < M + length I)%nat -> u i = 0).
    { apply (saddle_nonsingular M (length I) K B).
      - intros d Hd. apply (reg_pd M m (fun i k => X'.[i, k]) ell nu' Pl); auto. intros i Hi. rewrite En by auto. apply Pn. now apply HSG.
      - exact (moved_rank I EI HR).
      - intros i Hi. destruct (lt_dec i M) as [Hi'|Hi'].
        + rewrite saddle_row1 by auto.
          rewrite (sumf_ext M _ (fun j => K i j * (rb_rw s').[j, 0%nat] - K i j * (rb_rw s).[sg j, 0%nat])) by (intros j Hj; rewrite U1 by auto; ring).
          rewrite (sumf_ext (length I) _ (fun c => B i c * (rb_pw s').[c, 0%nat] - B i c * w c)) by (intros k Hk; rewrite U2; ring).
          rewrite !sumf_minus.
          assert (Q := r_top _ _ _ _ _ _ _ _ T i). assert (Q' := r_top _ _ _ _ _ _ _ _ T' i Hi').
          assert (QS := r_top _ _ _ _ _ _ _ _ T (sg i) ltac:(now apply HSG)).
          rewrite (sumf_ext M _ (fun j => K i j * (rb_rw s').[j, 0%nat])) in Q' by (intros j Hj; unfold K, kern; now rewrite G').
          change (sumf M (fun j => kern m ell nu X (sg i) j * (rb_rw s).[j, 0%nat]) + poly_eval m I (fun c => (rb_pw s).[c, 0%nat]) (fun k => X.[sg i, k]) = f.[sg i, 0%nat]) in QS.
          assert (KS := kern_sum ell nu nu' c Hl En (fun j => (rb_rw s).[j, 0%nat]) i Hi'). cbv beta in KS. rewrite <- KS in QS. fold K in QS.
          assert (WS : sumf (length I) (fun c => B i c * w c) = poly_eval m I (fun c => (rb_pw s).[c, 0%nat]) (fun k => X.[sg i, k])).
          { change (poly_eval m I w (fun k => X'.[i, k]) = poly_eval m I (fun c => (rb_pw s).[c, 0%nat]) (fun k => X.[sg i, k])). rewrite W. exact (poly_sample' _ i Pp Hi'). }
          rewrite WS. rewrite Ef in Q' by auto. unfold poly_eval at 1 in Q'. fold (B i) in Q'. change (fun i0 : nat => mono m (nth i0 I []) (fun k : nat => X'.[i, k]) * (rb_pw s').[i0, 0%nat]) with (fun i0 => B i i0 * (rb_pw s').[i0, 0%nat]) in Q'. lra.
        + replace i with (M + (i - M))%nat by lia. rewrite saddle_row2 by lia. set (k := (i - M)%nat). assert (Hk : (k < length I)%nat) by (unfold k; lia).
          rewrite (sumf_ext M _ (fun j => B j k * (rb_rw s').[j, 0%nat] - B j k * (rb_rw s).[sg j, 0%nat])) by (intros j Hj; rewrite U1 by auto; ring).
          rewrite sumf_minus. assert (Q' := r_bot _ _ _ _ _ _ _ _ T' k Hk). unfold B at 1. rewrite Q'.
          assert (Pk : is_poly m N (mono m (nth k I []))).
          { exists 1%nat, (fun _ => 1), (fun _ j => nth j (nth k I []) 0%nat). split.
            - intros t Ht. destruct (proj1 (index_set_In N m Hm I (nth k I []) EI) (nth_In I [] Hk)) as [A0 B0]. rewrite nsum_list by auto. exact B0.
            - intros x. unfold terms_eval, mono. cbn [sumf]. ring. }
          rewrite (sumf_ext M _ (fun j => (fun q => mono m (nth k I []) (to (fun l => X.[q, l])) * (rb_rw s).[q, 0%nat]) (sg j))).
          2: { intros j Hj. unfold B. now rewrite (poly_sample _ j Pk Hj). }
          rewrite (sumf_renumber M sg (fun q => mono m (nth k I []) (to (fun l => X.[q, l])) * (rb_rw s).[q, 0%nat]) HSG).
          destruct (poly_there _ Pk) as (T2 & a2 & ex2 & D2 & E2). destruct (terms_collect N m I EI Hm T2 a2 ex2 D2) as (w2 & Ew2).
          rewrite (sumf_ext M _ (fun q => poly_eval m I w2 (fun l => X.[q, l]) * (rb_rw s).[q, 0%nat])) by (intros q Hq; rewrite <- Ew2, <- E2; reflexivity).
          rewrite (rtrained_orthogonal N X f M m I nu s T w2). ring. }
    assert (ZR : forall i, (i < M)%nat -> (rb_rw s').[i, 0%nat] = (rb_rw s).[sg i, 0%nat]) by (intros i Hi; specialize (Z i ltac:(lia)); rewrite U1 in Z by auto; lra).
    assert (ZP : forall x, poly_eval m I (fun c => (rb_pw s').[c, 0%nat]) (to x) = poly_eval m I (fun c => (rb_pw s).[c, 0%nat]) x).
    { intros x. rewrite <- (poly_round _ Pp x). rewrite <- W. apply poly_eval_w. intros k Hk. specialize (Z (M + k)%nat ltac:(lia)). rewrite U2 in Z. lra. }
    split; [exact ZR|]. split; [exact ZP|]. intros x.
    rewrite (rtrained_value N X f M m I nu s Hm EI T), (rtrained_value N X' f' M m I nu' s' Hm EI T'). unfold rbf_eval. rewrite (r_X _ _ _ _ _ _ _ _ T), (r_X _ _ _ _ _ _ _ _ T').
    match goal with |- ?a + ?b = ?c + ?d => assert (HB : b = d) by exact (ZP x); assert (HA : a = c); [|rewrite HA, HB; reflexivity] end.
    rewrite <- (sumf_renumber M sg (fun j => gauss m (fun k => (rb_ell s).[k, 0%nat]) x (fun k => X.[j, k]) * (rb_rw s).[j, 0%nat]) HSG).
    apply sumf_ext. intros j Hj. rewrite ZR by auto. f_equal. rewrite G'. change (gauss m (fun k => (rb_ell s).[k, 0%nat]) x (fun k => X.[sg j, k])) with (gauss m ell x (fun k => X.[sg j, k])). rewrite <- (gauss_isometry m e A b ell c HI Hl x (fun k => X.[sg j, k])). apply gauss_dep; intros k Hk; [reflexivity|now rewrite HX'].
  Qed.
End Moved.

(** the objective that chooses the length scale is the same function *)
Theorem C90_objective : forall solve cholesky N X f v X' f' v' e M m sg A b,
  solve_contract solve -> cholesky_contract cholesky -> shape X = [M; m] -> shape f = [M; 1%nat] -> shape X' = [M; m] -> shape f' = [M; 1%nat] -> (1 <= m)%nat -> eigs_ok m e ->
  (forall B I, polynomial_bases X N = Ok (B, I) -> full_rank M (ncols B) (fun r i => B.[r, i])) ->
  renumbering M sg -> isometry m e A b -> noise_moved M sg v v' ->
  (forall r i, (r < M)%nat -> (i < m)%nat -> X'.[r, i] = affine_map m A b (fun k => X.[sg r, k]) i) ->
  (forall r, (r < M)%nat -> f'.[r, 0%nat] = f.[sg r, 0%nat]) ->
  (forall B I, polynomial_bases X' N = Ok (B, I) -> full_rank M (ncols B) (fun r i => B.[r, i])) /\
  forall lg, rbf_objective solve cholesky X' f' v' N e lg = rbf_objective solve cholesky X f v N e lg.
Proof.
  intros solve cholesky N X f v X' f' v' e M m sg A b HS HC HX Hf HX' Hf' Hm He HR HSG HI HV EX Ef.
  assert (MP : forall k, (k < m)%nat -> 0 < metric e k) by (intros k Hk; unfold metric; destruct e; [now apply He|lra]).
  destruct (isometry_inverse solve m e A b HS MP HI) as (A' & I1 & I2).
  assert (HR' : forall B I, polynomial_bases X' N = Ok (B, I) -> full_rank M (ncols B) (fun r i => B.[r, i])).
  { destruct (polynomial_bases_ok X N M m HX Hm) as (I0 & EI & EB). destruct (polynomial_bases_ok X' N M m HX' Hm) as (I0' & EI' & EB'). rewrite EI in EI'. injection EI' as <-.
    intros B I E. rewrite EB' in E. injection E as <- <-. exact (moved_rank N X X' M m sg A A' b Hm HSG I2 EX I0 EI (HR _ _ EB)). }
  split; [exact HR'|]. intros lg.
  assert (HE : match e with None => True | Some e => (m <= nrows e)%nat end) by (destruct e; [apply He|exact I]).
  assert (Hv : match v with None => True | Some v => size v = M end) by (unfold noise_moved in HV; destruct v, v'; tauto).
  assert (Hv' : match v' with None => True | Some v => size v = M end) by (unfold noise_moved in HV; destruct v, v'; tauto).
  set (g := Rpower 10 lg). assert (Pg : 0 < g) by (unfold g, Rpower; apply exp_pos).
  set (ell := fun k => match e with None => g | Some e => g * sumf (nrows e) (fun j => e.[j, 0%nat]) / e.[k, 0%nat] end).
  set (nz := fun (v : option (nd R)) (i : nat) => match v with Some v => flat v i | None => match e with None => / 10 ^ 6 | Some e => g * sumf (nrows e - m) (fun k => e.[(m + k)%nat, 0%nat]) end end).
  assert (RS : raw_scales g e v M m ell (nz v)) by (split; intros; reflexivity).
  assert (RS' : raw_scales g e v' M m ell (nz v')) by (split; intros; reflexivity).
  assert (EN : forall i, (i < M)%nat -> nz v' i = nz v (sg i)).
  { intros i Hi. unfold nz. unfold noise_moved in HV. destruct v, v'; try tauto. now apply HV. }
  assert (CL : exists c, forall k, (k < m)%nat -> -1 / ell k = c * metric e k).
  { unfold ell, metric. destruct e as [e|].
    - destruct He as (He1 & He2 & He0). assert (PS : 0 < sumf (nrows e) (fun j => e.[j, 0%nat])).
      { eapply Rlt_le_trans with (e.[0%nat, 0%nat]); [apply He1; lia|]. apply (sumf_term_le (nrows e) (fun j => e.[j, 0%nat]) 0%nat); auto. lia. }
      exists (-1 / (g * sumf (nrows e) (fun j => e.[j, 0%nat]))). intros k Hk. specialize (He1 k Hk). field. repeat split; lra.
    - exists (-1 / g). intros; ring. }
  destruct CL as (c & CL).
  destruct (pd_dec M (kern m ell (nz v) X)) as [PD|PD].
  - assert (PD' := proj1 (pd_moved X X' M m e sg A b HSG HI EX ell (nz v) (nz v') c CL EN) PD).
    destruct (C76_objective solve cholesky N X f v e M m lg ell (nz v) HS HC HX Hf Hm HR Hv HE RS PD) as (L & q & V & E).
    destruct (C76_objective solve cholesky N X' f' v' e M m lg ell (nz v') HS HC HX' Hf' Hm HR' Hv' HE RS' PD') as (L' & q' & V' & E').
    destruct (value_moved solve N X X' M m e sg A A' b HS Hm HSG HI I1 EX ell (nz v) (nz v') c CL EN (fun i => f.[i, 0%nat]) (fun i => f'.[i, 0%nat]) L q L' q' PD Ef V V') as [QL ->].
    now rewrite E, E', QL.
  - assert (PD' : ~ posdef M (kern m ell (nz v') X')) by (intros P; apply PD; apply (pd_moved X X' M m e sg A b HSG HI EX ell (nz v) (nz v') c CL EN); exact P).
    rewrite (objective_not_pd solve cholesky N X f v e M m lg ell (nz v) HC HX Hf Hv HE RS PD).
    apply (objective_not_pd solve cholesky N X' f' v' e M m lg ell (nz v') HC HX' Hf' Hv' HE RS' PD').
Qed.
Print Assumptions C90_objective.

(** so training on renumbered samples, in other axes, gives the same surface and the same R^2 *)
Theorem C90_training : forall solve cholesky fminbound N X f v X' f' v' e M m sg A b s,
  solve_contract solve -> solve_sound solve -> cholesky_contract cholesky ->
  shape X = [M; m] -> shape f = [M; 1%nat] -> shape X' = [M; m] -> shape f' = [M; 1%nat] -> (1 <= m)%nat -> eigs_ok m e ->
  (forall B I, polynomial_bases X N = Ok (B, I) -> full_rank M (ncols B) (fun r i => B.[r, i])) ->
  renumbering M sg -> isometry m e A b -> noise_moved M sg v v' ->
  (forall r i, (r < M)%nat -> (i < m)%nat -> X'.[r, i] = affine_map m A b (fun k => X.[sg r, k]) i) ->
  (forall r, (r < M)%nat -> f'.[r, 0%nat] = f.[sg r, 0%nat]) ->
  rbf_train solve cholesky fminbound N X f v e = Ok s ->
  exists s', rbf_train solve cholesky fminbound N X' f' v' e = Ok s' /\ rb_Rsqr s' = rb_Rsqr s /\
    forall Y Y' P, shape Y = [P; m] -> shape Y' = [P; m] -> (forall r i, (r < P)%nat -> (i < m)%nat -> Y'.[r, i] = affine_map m A b (fun k => Y.[r, k]) i) ->
    exists F F', rbf_predict s Y false = Ok (F, None) /\ rbf_predict s' Y' false = Ok (F', None) /\ shape F = [P; 1%nat] /\ shape F' = [P; 1%nat] /\
      forall r, (r < P)%nat -> F'.[r, 0%nat] = F.[r, 0%nat].
Proof.
  intros solve cholesky fminbound N X f v X' f' v' e M m sg A b s HS HSS HC HX Hf HX' Hf' Hm He HR HSG HI HV EX Ef RUN.
  assert (MP : forall k, (k < m)%nat -> 0 < metric e k) by (intros k Hk; unfold metric; destruct e; [now apply He|lra]).
  destruct (isometry_inverse solve m e A b HS MP HI) as (A' & I1 & I2).
  destruct (C90_objective solve cholesky N X f v X' f' v' e M m sg A b HS HC HX Hf HX' Hf' Hm He HR HSG HI HV EX Ef) as [HR' OB].
  assert (OB' : rbf_objective solve cholesky X' f' v' N e = rbf_objective solve cholesky X f v N e) by (apply functional_extensionality; exact OB).
  destruct (rbf_train_inv solve cholesky fminbound N X f v e M m s HSS HX Hf Hm RUN) as (I & l & nu & EI & HLM & El & Hch & Hnu & T).
  assert (Pell := chosen_pos _ _ _ _ _ _ _ He Hch). cbv beta in Pell.
  destruct (rbf_R2_value solve cholesky fminbound N X f v e M m s HSS HX Hf Hm RUN Pell) as (I0 & l0 & nu0 & y & EI0 & _ & El0 & Hch0 & Hnu0 & T0 & Hy & RQ).
  rewrite EI in EI0. injection EI0 as <-. rewrite El in El0. injection El0 as <-. clear T Hch Hnu nu. rename T0 into T, Hch0 into Hch, Hnu0 into Hnu, nu0 into nu.
  destruct (C40_training_returns solve cholesky fminbound N X' f' v' e M m l HS HX' Hf' Hm) as (s' & RUN').
  { rewrite <- (index_set_length N m Hm I EI). exact HLM. }
  { exact HR'. }
  { unfold noise_moved in HV. destruct v, v'; tauto. }
  { destruct e; [destruct He as (? & ? & ?); auto|exact Logic.I]. }
  { now rewrite OB'. }
  exists s'. split; [exact RUN'|].
  destruct (rbf_train_inv solve cholesky fminbound N X' f' v' e M m s' HSS HX' Hf' Hm RUN') as (I3 & l3 & nu3 & EI3 & _ & El3 & Hch3 & _ & _).
  assert (Pell' := chosen_pos _ _ _ _ _ _ _ He Hch3). cbv beta in Pell'. clear I3 l3 nu3 EI3 El3 Hch3.
  destruct (rbf_R2_value solve cholesky fminbound N X' f' v' e M m s' HSS HX' Hf' Hm RUN' Pell') as (I' & l' & nu' & y' & EI' & _ & El' & Hch' & Hnu' & T' & Hy' & RQ').
  rewrite EI in EI'. injection EI' as <-. rewrite OB', El in El'. injection El' as <-.
  assert (EN : forall i, (i < M)%nat -> nu' i = nu (sg i)).
  { intros i Hi. assert (Hs : (sg i < M)%nat) by (now apply HSG). unfold chosen in Hch, Hch'. unfold noise_moved in HV.
    destruct e as [e|], v as [v|], v' as [v'|]; try tauto; destruct Hch as [_ Hch], Hch' as [_ Hch']; rewrite Hch, Hch' by auto; try reflexivity; f_equal; now apply HV. }
  assert (EE : forall k, (k < m)%nat -> (rb_ell s').[k, 0%nat] = (rb_ell s).[k, 0%nat]).
  { intros k Hk. unfold chosen in Hch, Hch'. destruct e as [e|]; destruct Hch as [Hch _], Hch' as [Hch' _]; rewrite Hch, Hch' by auto; reflexivity. }
  assert (CL : exists c, forall k, (k < m)%nat -> -1 / (rb_ell s).[k, 0%nat] = c * metric e k).
  { assert (Pg : 0 < Rpower 10 l) by (unfold Rpower; apply exp_pos). unfold chosen in Hch. unfold metric. destruct e as [e|]; destruct Hch as [Hch _].
    - destruct He as (He1 & He2 & He0). assert (PS : 0 < sumf (nrows e) (fun j => e.[j, 0%nat])).
      { eapply Rlt_le_trans with (e.[0%nat, 0%nat]); [apply He1; lia|]. apply (sumf_term_le (nrows e) (fun j => e.[j, 0%nat]) 0%nat); auto. lia. }
      exists (-1 / (Rpower 10 l * sumf (nrows e) (fun j => e.[j, 0%nat]))). intros k Hk. specialize (He1 k Hk). rewrite Hch by auto. field. repeat split; lra.
    - exists (-1 / Rpower 10 l). intros k Hk. rewrite Hch by auto. ring. }
  destruct CL as (c & CL).
  assert (RK : full_rank M (length I) (fun r i => mono m (nth i I []) (fun j => X.[r, j]))).
  { destruct (polynomial_bases_ok X N M m HX Hm) as (L' & EL' & EB). rewrite EI in EL'. injection EL' as <-. exact (HR _ _ EB). }
  destruct (fit_moved N X X' M m e sg A A' b Hm HSG HI I1 I2 EX f f' I nu nu' s s' c EI RK T T' Pell EE CL Hnu EN Ef) as (ZR & ZP & ZV).
  split.
  - rewrite RQ, RQ'. f_equal. f_equal; f_equal.
    + rewrite <- (sumf_renumber M sg (fun i => (f.[i, 0%nat] - poly_eval m I (fun c => (rb_pw s).[c, 0%nat]) (fun k => X.[i, k])) * (rb_rw s).[i, 0%nat]) HSG).
      apply sumf_ext. intros i Hi. rewrite ZR, Ef by auto. do 2 f_equal. rewrite <- ZP. apply (is_poly_dep m N _ _ _ (is_poly_eval N m I _ Hm EI)). intros k Hk. now rewrite EX.
    + assert (YY : forall i, (i < M)%nat -> y' i = y (sg i)).
      { assert (Z : forall i, (i < M)%nat -> (fun i => y' i - y (sg i)) i = 0).
        { apply (pd_nonsingular M (mk2 M M (kern m (fun k => (rb_ell s).[k, 0%nat]) nu' X'))).
          - apply (kern_pd M m (fun k => (rb_ell s).[k, 0%nat]) nu' X' Pell). intros i Hi. specialize (Hnu' i Hi). assert (0 < / 10 ^ 6) by (apply Rinv_0_lt_compat, pow_lt; lra). lra.
          - intros i Hi. rewrite (sumf_ext M _ (fun j => kern m (fun k => (rb_ell s).[k, 0%nat]) nu' X' i j * y' j - kern m (fun k => (rb_ell s).[k, 0%nat]) nu' X' i j * y (sg j))) by (intros; rewrite at_mk2; ring).
            rewrite sumf_minus, (kern_sum X X' M m e sg A b HSG HI EX _ nu nu' c CL EN y i Hi), Hy by (now apply HSG).
            rewrite <- Ef by auto. rewrite <- (Hy' i Hi).
            rewrite (sumf_ext M (fun j => kern m (fun k => (rb_ell s').[k, 0%nat]) nu' X' i j * y' j) (fun j => kern m (fun k => (rb_ell s).[k, 0%nat]) nu' X' i j * y' j)); [ring|].
            intros j Hj. unfold kern. now rewrite (gauss_ell m (fun k => (rb_ell s).[k, 0%nat]) (fun k => (rb_ell s').[k, 0%nat])). }
        intros i Hi. specialize (Z i Hi). cbv beta in Z. lra. }
      rewrite <- (sumf_renumber M sg (fun i => f.[i, 0%nat] * y i) HSG). apply sumf_ext. intros i Hi. now rewrite YY, Ef.
  - intros Y Y' P HY HY' EY.
    destruct (rbf_predict_ok s Y P m M false HY Hm (r_shape _ _ _ _ _ _ _ _ T)) as (J1 & F1 & D1 & S1 & P1 & G1 & Q1 & _).
    destruct (rbf_predict_ok s' Y' P m M false HY' Hm (r_shape _ _ _ _ _ _ _ _ T')) as (J2 & F2 & D2 & S2 & P2 & G2 & Q2 & _).
    rewrite (r_N _ _ _ _ _ _ _ _ T), EI in D1. rewrite (r_N _ _ _ _ _ _ _ _ T'), EI in D2. injection D1 as <-. injection D2 as <-.
    exists F1, F2. split; [exact Q1|]. split; [exact Q2|]. split; [exact S1|]. split; [exact S2|]. intros r Hr. rewrite P1, P2 by auto.
    rewrite <- (rtrained_value N X f M m I nu s Hm EI T), <- ZV, (rtrained_value N X' f' M m I nu' s' Hm EI T'). unfold rbf_eval. f_equal.
    + apply sumf_ext. intros a Ha. f_equal. apply gauss_dep; intros k Hk; [now rewrite EY|reflexivity].
    + apply (is_poly_dep m N _ _ _ (is_poly_eval N m I _ Hm EI)). intros k Hk. now rewrite EY.
Qed.
Print Assumptions C90_training.

(** data 1, 5, 2 at 0, 1, 3; the same data in another order, the axis turned around and moved:
    2, 1, 5 at 7, 10, 9 *)
Definition X90 : nd R := mat_of [[7]; [10]; [9]].
Definition f90 : nd R := mat_of [[2]; [1]; [5]].
Definition sg90 (r : nat) : nat := match r with O => 2%nat | S O => 0%nat | _ => 1%nat end.
Example C90_case : exists s s', rbf_train solve_ref cholesky_ref fmin_ref 1 X40 f76 None None = Ok s /\ rbf_train solve_ref cholesky_ref fmin_ref 1 X90 f90 None None = Ok s' /\
  rb_Rsqr s' = rb_Rsqr s /\
  forall x, exists F F', rbf_predict s (mat_of [[x]]) false = Ok (F, None) /\ rbf_predict s' (mat_of [[10 - x]]) false = Ok (F', None) /\ F'.[0%nat, 0%nat] = F.[0%nat, 0%nat].
Proof.
  destruct (C78_training_returns_partial solve_ref cholesky_ref fmin_ref 1 X40 f76 None None 3 1 solve_ref_contract cholesky_ref_contract fmin_ref_ok) as (s & Hs).
  1-2: reflexivity. lia. cbn; lia. exact rank40. exact I. exact I. left. exact I.
  destruct (C90_training solve_ref cholesky_ref fmin_ref 1 X40 f76 None X90 f90 None None 3 1 sg90 (fun _ _ => -1) (fun _ => 10) s solve_ref_contract solve_ref_sound cholesky_ref_contract) as (s' & Hs' & RQ & Q).
  1-4: reflexivity. lia. exact I. exact rank40.
  - split.
    + intros r Hr. destruct r as [|[|[|r]]]; cbn; lia.
    + intros r r' Hr Hr'. destruct r as [|[|[|r]]]; try lia; destruct r' as [|[|[|r']]]; try lia; cbn; lia.
  - intros x y. unfold affine_map, metric. cbn [sumf]. ring.
  - exact I.
  - intros r i Hr Hi. replace i with 0%nat by lia. unfold affine_map. destruct r as [|[|[|r]]]; try lia; cbn; lra.
  - intros r Hr. destruct r as [|[|[|r]]]; try lia; reflexivity.
  - exact Hs.
  - exists s, s'. split; [exact Hs|]. split; [exact Hs'|]. split; [exact RQ|]. intros x.
    destruct (Q (mat_of [[x]]) (mat_of [[10 - x]]) 1%nat eq_refl eq_refl) as (F & F' & QF & QF' & _ & _ & E).
    + intros r i Hr Hi. replace i with 0%nat by lia. replace r with 0%nat by lia. unfold affine_map. cbn. lra.
    + exists F, F'. split; [exact QF|]. split; [exact QF'|]. apply E. lia.
Qed.
