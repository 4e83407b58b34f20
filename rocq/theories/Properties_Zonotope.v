(** C24-C26: zonotope_vertices, nzv, the stored constraints *)
From Coq Require Import String Reals Lra Lia List Arith ZArith Bool Classical.
From Verif Require Import Prelude Py NumArr LinAlg Toy M_Misc M_RespSurf M_Gradients M_Subspaces M_QP M_Domains P_IndexSet P_Domains P_DomSample Properties_Domains Properties_DomSample P_Zonotope.
Import ListNotations.
Open Scope R_scope.

(** ** C25 *)

(** the sign vector s (true for plus) is that of W z, nowhere zero *)
Definition signs_of (m n : nat) (W : nat -> nat -> R) (z : nat -> R) (s : list bool) : Prop :=
  List.length s = m /\ forall i, (i < m)%nat ->
    if nth i s true then 0 < sumf n (fun j => z j * W i j) else sumf n (fun j => z j * W i j) < 0.

Lemma half_count : forall m n (W : nat -> nat -> R) (F : list (list bool)), NoDup F ->
  (forall f, In f F -> exists z, signs_of (S m) n W z (true :: f)) -> (List.length F <= phi m n)%nat.
Proof.
  intros m n W F ND H. destruct (Nat.le_gt_cases (List.length F) (phi m n)) as [|C]; auto. exfalso.
  destruct (sauer m n F ND) as (I & LI & NI & BI & SI); auto.
  { intros f Hf. destruct (H f Hf) as (z & Hz & _). simpl in Hz. lia. }
  (* rows I and row 0: n+1 vectors of R^n *)
  destruct (lin_dep_S n (fun k j => match k with O => W 0%nat j | S k => W (S (nth k I 0%nat)) j end)) as (c & (k0 & Hk0 & Hc) & E).
  assert (K : forall c, (exists i, (i <= n)%nat /\ c i <> 0) -> 0 <= c 0%nat ->
     (forall j, (j < n)%nat -> sumf (S n) (fun i => c i * match i with O => W 0%nat j | S k => W (S (nth k I 0%nat)) j end) = 0) -> False).
  { clear c k0 Hk0 Hc E. intros c (k0 & Hk0 & Hc) C0 E.
    (* the pattern following the signs of the coefficients *)
    destruct (SI (fun i => if Rle_dec 0 (c (S (match find (fun k => Nat.eqb (nth k I 0%nat) i) (seq 0 n) with Some k => k | None => 0%nat end))) then true else false)) as (f & Hf & Q).
    destruct (H f Hf) as (z & Lz & Z).
    set (d := fun k => match k with O => sumf n (fun j => z j * W 0%nat j) | S k => sumf n (fun j => z j * W (S (nth k I 0%nat)) j) end).
    assert (D0 : 0 < d 0%nat) by (apply (Z 0%nat ltac:(lia))).
    assert (DS : forall k, (k < n)%nat -> if Rle_dec 0 (c (S k)) then 0 < d (S k) else d (S k) < 0).
    { intros k Hk. assert (Hi : In (nth k I 0%nat) I) by (apply nth_In; lia). specialize (Q _ Hi).
      assert (Fk : find (fun k' => Nat.eqb (nth k' I 0%nat) (nth k I 0%nat)) (seq 0 n) = Some k).
      { destruct (find _ _) as [k'|] eqn:EF.
        - apply find_some in EF as [E1 E2]. apply in_seq in E1. apply Nat.eqb_eq in E2. f_equal. apply (proj1 (NoDup_nth I 0%nat) NI); lia.
        - exfalso. pose proof (find_none _ _ EF k ltac:(apply in_seq; lia)) as E2. cbv beta in E2. now rewrite Nat.eqb_refl in E2. }
      rewrite Fk in Q. specialize (Z (S (nth k I 0%nat)) ltac:(specialize (BI _ Hi); lia)). cbn [nth] in Z. rewrite Q in Z. destruct (Rle_dec 0 (c (S k))); exact Z. }
    assert (Zr : sumf (S n) (fun k => c k * d k) = 0).
    { transitivity (sumf n (fun j => z j * sumf (S n) (fun k => c k * match k with O => W 0%nat j | S k => W (S (nth k I 0%nat)) j end))).
      - rewrite (sumf_ext n _ (fun j => sumf (S n) (fun k => z j * (c k * match k with O => W 0%nat j | S k => W (S (nth k I 0%nat)) j end)))) by (intros; now rewrite sumf_scal_l).
        rewrite sumf_swap. apply sumf_ext. intros [|k] _; unfold d; rewrite <- sumf_scal_l; apply sumf_ext; intros; ring.
      - apply sumf_zero. intros j Hj. rewrite E by auto. ring. }
    assert (NN : forall k, (k < S n)%nat -> 0 <= c k * d k).
    { intros [|k] Hk; [apply Rmult_le_pos; lra|]. specialize (DS k ltac:(lia)). destruct (Rle_dec 0 (c (S k))); [apply Rmult_le_pos; lra|]. nra. }
    pose proof (sumf_nonneg_eq0 _ _ NN Zr k0 ltac:(lia)) as P. cbv beta in P.
    destruct k0 as [|k0]; [nra|]. specialize (DS k0 ltac:(lia)). destruct (Rle_dec 0 (c (S k0))); nra. }
  destruct (Rle_lt_dec 0 (c 0%nat)) as [C0|C0].
  - apply (K c); eauto.
  - apply (K (fun i => - c i)); [exists k0; split; [auto|lra]|lra|].
    intros j Hj. rewrite (sumf_ext (S n) _ (fun i => - (c i * match i with O => W 0%nat j | S k => W (S (nth k I 0%nat)) j end))) by (intros; ring).
    rewrite sumf_opp, E by auto. ring.
Qed.

(** the number of nowhere-zero sign vectors of an m-by-n matrix is at most
    nzv(m, n) = 2 (C(m-1,0) + ... + C(m-1,n-1)) *)
Theorem C25_sign_vector_count : forall m n (W : nat -> nat -> R) (S : list (list bool)), (1 <= m)%nat -> NoDup S ->
  (forall s, In s S -> exists z, signs_of m n W z s) ->
  exists c, nzv (IsA (Z.of_nat m)) (IsA (Z.of_nat n)) = Ok c /\
            c = (2 * Z.of_nat (list_sum (map (fun i => binom (m - 1) i) (seq 0 n))))%Z /\ (Z.of_nat (List.length S) <= c)%Z.
Proof.
  intros m n W F Hm ND H. exists (Z.of_nat (2 * phi (m - 1) n)). split; [now apply nzv_phi|]. split; [rewrite Nat2Z.inj_mul; reflexivity|].
  destruct m as [|m]; [lia|]. replace (S m - 1)%nat with m by lia.
  assert (HL : forall f, In f F -> List.length f = S m) by (intros f Hf; now destruct (H f Hf) as (z & E & _)).
  rewrite (tails_length m F HL).
  assert (H1 : (List.length (tails true F) <= phi m n)%nat).
  { apply (half_count m n W); [now apply tails_NoDup|]. intros f Hf. apply H. now apply tails_In. }
  assert (H0 : (List.length (tails false F) <= phi m n)%nat).
  { rewrite <- (map_length (map negb)). apply (half_count m n W).
    - apply FinFun.Injective_map_NoDup; [|now apply tails_NoDup]. intros a b E.
      assert (N : forall l, map negb (map negb l) = l) by (intros l; rewrite map_map; rewrite <- (map_id l) at 2; apply map_ext; apply negb_involutive).
      rewrite <- (N a), <- (N b), E. reflexivity.
    - intros f Hf. apply in_map_iff in Hf as (g & <- & Hg). apply tails_In in Hg. destruct (H _ Hg) as (z & Lz & Z). exists (fun j => - z j). split; [simpl in *; now rewrite map_length|].
      intros i Hi. specialize (Z i Hi).
      assert (E : sumf n (fun j => - z j * W i j) = - sumf n (fun j => z j * W i j)) by (rewrite <- sumf_opp; apply sumf_ext; intros; ring).
      rewrite E. destruct i as [|i]; cbn [nth] in *; [lra|].
      rewrite (nth_indep _ true (negb true)) by (rewrite map_length; simpl in Lz; lia). rewrite map_nth.
      destruct (nth i g true); simpl; lra. }
  lia.
Qed.
Print Assumptions C25_sign_vector_count.
(** the bound is attained: the identity of R^2 has the four sign vectors *)
Example C25_case : exists S : list (list bool), NoDup S /\ List.length S = 4%nat /\ nzv (IsA 2%Z) (IsA 2%Z) = Ok 4%Z /\
  forall s, In s S -> exists z, signs_of 2 2 kron_delta z s.
Proof.
  exists [[true; true]; [true; false]; [false; true]; [false; false]]. split; [repeat constructor; simpl; intuition discriminate|]. split; [reflexivity|]. split; [reflexivity|].
  intros s Hs. exists (fun j => if nth j s true then 1 else -1).
  simpl in Hs. destruct Hs as [<-|[<-|[<-|[<-|[]]]]]; (split; [reflexivity|]); intros [|[|i]] Hi; try lia; unfold kron_delta; simpl; lra.
Qed.

(** ** C24 *)

(** W1 applied to a direction *)
Definition wdot (W1 : nd R) (n : nat) (z : nat -> R) (i : nat) : R := sumf n (fun j => z j * W1.[i, j]).
(** the k-th direction of a list of draws *)
Definition dir (n : nat) (l : list R) (k j : nat) : R := nth (k * n + j) l 0.

Lemma fval_fsign : forall x, fval (fsign x) = np_sign x.
Proof. intros x. unfold fsign, np_sign. destruct (Rlt_dec 0 x); [|destruct (Rlt_dec x 0)]; reflexivity. Qed.
Lemma fval_fneg : forall s, fval (fneg s) = - fval s.
Proof. intros []; simpl; lra. Qed.
Lemma np_sign_neg : forall x, np_sign (-1 * x) = - np_sign x.
Proof. intros x. unfold np_sign. destruct (Rlt_dec 0 (-1 * x)), (Rlt_dec (-1 * x) 0), (Rlt_dec 0 x), (Rlt_dec x 0); lra. Qed.
Lemma np_sign_1 : forall x, np_sign (1 * x) = np_sign x.
Proof. intros x. now rewrite Rmult_1_l. Qed.

(** byte rows and rows of numbers *)
Definition rrow (s : list fsgn) (i : nat) : R := fval (nth i s SZero).
Lemma rrow_sv : forall W1 m n l k i, (i < m)%nat -> rrow (sv W1 m n l k) i = np_sign (wdot W1 n (dir n l k) i).
Proof.
  intros W1 m n l k i Hi. unfold rrow, sv. rewrite (nth_indep _ SZero (fsign (proj W1 n l k 0))) by (rewrite map_length, seq_length; auto).
  rewrite (map_nth (fun i => fsign (proj W1 n l k i)) (seq 0 m) 0%nat i). rewrite seq_nth by auto. rewrite fval_fsign. reflexivity.
Qed.
Lemma rrow_neg : forall s i, rrow (map fneg s) i = - rrow s i.
Proof.
  intros s i. unfold rrow. destruct (Nat.lt_ge_cases i (List.length s)) as [H|H].
  - rewrite (nth_indep _ SZero (fneg SZero)) by (rewrite map_length; auto). rewrite map_nth. apply fval_fneg.
  - rewrite !nth_overflow by (rewrite ?map_length; auto). simpl. lra.
Qed.
Lemma rrow_inj : forall s t m, List.length s = m -> List.length t = m -> (forall i, (i < m)%nat -> rrow s i <> 0) ->
  (forall i, (i < m)%nat -> rrow s i = rrow t i) -> s = t.
Proof.
  intros s t m Ls Lt NZ E. apply (nth_ext s t SZero SZero); [congruence|]. intros i Hi. rewrite Ls in Hi. specialize (NZ i Hi). specialize (E i Hi). unfold rrow in *.
  destruct (nth i s SZero), (nth i t SZero); simpl in *; try reflexivity; lra.
Qed.

Lemma inv_row : forall W1 m n S l K s, inv W1 m n S l K -> In s S -> List.length s = m /\
  exists k sg, (k < K)%nat /\ (sg = 1 \/ sg = -1) /\ forall i, (i < m)%nat -> rrow s i = np_sign (sg * wdot W1 n (dir n l k) i).
Proof.
  intros W1 m n S l K s [_ H] Hs. apply H in Hs as (k & Hk & [->| ->]).
  - split; [unfold sv; now rewrite map_length, seq_length|]. exists k, 1. split; auto. split; auto. intros i Hi. now rewrite np_sign_1, rrow_sv.
  - split; [unfold sv; now rewrite !map_length, seq_length|]. exists k, (-1). split; auto. split; auto. intros i Hi. now rewrite np_sign_neg, rrow_neg, rrow_sv.
Qed.
Lemma inv_has : forall W1 m n S l K k sg, inv W1 m n S l K -> (k < K)%nat -> sg = 1 \/ sg = -1 ->
  exists s, In s S /\ forall i, (i < m)%nat -> rrow s i = np_sign (sg * wdot W1 n (dir n l k) i).
Proof.
  intros W1 m n S l K k sg [_ H] Hk [->| ->].
  - exists (sv W1 m n l k). split; [apply H; eauto|]. intros i Hi. now rewrite np_sign_1, rrow_sv.
  - exists (map fneg (sv W1 m n l k)). split; [apply H; eauto|]. intros i Hi. now rewrite np_sign_neg, rrow_neg, rrow_sv.
Qed.

(** x = sign(W1 d) maximises d . (W1^T x) over the cube, uniquely if nowhere 0 *)
Definition cube (m : nat) (x : nat -> R) : Prop := forall i, (i < m)%nat -> -1 <= x i <= 1.
Definition img (W1 : nd R) (m : nat) (x : nat -> R) (j : nat) : R := sumf m (fun i => x i * W1.[i, j]).
Lemma img_dot : forall W1 m n d x, sumf n (fun j => d j * img W1 m x j) = sumf m (fun i => x i * wdot W1 n d i).
Proof.
  intros W1 m n d x. unfold img, wdot.
  rewrite (sumf_ext n _ (fun j => sumf m (fun i => d j * (x i * W1.[i, j])))) by (intros; now rewrite sumf_scal_l).
  rewrite sumf_swap. apply sumf_ext. intros i Hi. rewrite <- sumf_scal_l. apply sumf_ext. intros; ring.
Qed.
Lemma sign_best : forall t x, -1 <= x <= 1 -> x * t <= np_sign t * t.
Proof. intros t x H. unfold np_sign. destruct (Rlt_dec 0 t); [nra|]. destruct (Rlt_dec t 0); nra. Qed.
Lemma sign_best_eq : forall t x, -1 <= x <= 1 -> np_sign t <> 0 -> x * t = np_sign t * t -> x = np_sign t.
Proof. intros t x H. unfold np_sign. destruct (Rlt_dec 0 t); [intros; nra|]. destruct (Rlt_dec t 0); [intros; nra|]. intros C; now elim C. Qed.
Lemma vertex_max : forall W1 m n d s, (forall i, (i < m)%nat -> s i = np_sign (wdot W1 n d i)) ->
  forall x, cube m x -> sumf n (fun j => d j * img W1 m x j) <= sumf n (fun j => d j * img W1 m s j) /\
    ((forall i, (i < m)%nat -> s i <> 0) -> sumf n (fun j => d j * img W1 m x j) = sumf n (fun j => d j * img W1 m s j) ->
     forall i, (i < m)%nat -> x i = s i).
Proof.
  intros W1 m n d s Hs x Hx. rewrite !img_dot. split.
  - apply sumf_le. intros i Hi. rewrite Hs by auto. apply sign_best. auto.
  - intros NZ E i Hi.
    assert (Q : sumf m (fun i => s i * wdot W1 n d i - x i * wdot W1 n d i) = 0) by (rewrite sumf_minus; lra).
    assert (NN : forall k, (k < m)%nat -> 0 <= s k * wdot W1 n d k - x k * wdot W1 n d k).
    { intros k Hk. rewrite Hs by auto. pose proof (sign_best (wdot W1 n d k) (x k) (Hx k Hk)). lra. }
    pose proof (sumf_nonneg_eq0 m _ NN Q i Hi) as P. cbv beta in P.
    rewrite Hs in P |- * by auto. apply sign_best_eq; auto; [|lra]. rewrite <- Hs by auto. auto.
Qed.
Lemma img_ext : forall W1 m x y j, (forall i, (i < m)%nat -> x i = y i) -> img W1 m x j = img W1 m y j.
Proof. intros. unfold img. apply sumf_ext. intros. now rewrite H. Qed.
Lemma np_sign_cube : forall x, -1 <= np_sign x <= 1.
Proof. intros x. destruct (np_sign_cases x) as [H|[H|[H _]]]; rewrite H; lra. Qed.

(** Every row is W1^T x for the sign vector x of plus or minus a drawn
    direction, and all drawn directions are used; it maximises a linear
    functional over the image of the cube, alone if no sign is 0; negated rows
    are rows; a row without zero sign occurs once.  After r extra rounds, at
    most maxcount + 1, the search has nzv(m, n) rows or has used up its
    rounds; before, it had fewer.

    Partial: that no row occurs twice is shown for rows without a zero sign
    only; see [C24_no_duplicates_refuted]. *)
Theorem C24_zonotope_vertices_partial : forall (G : gen) (U L : Type) W1 m n Ns maxcount (w : world G U L),
  shape W1 = [m; n] -> (1 <= m)%nat ->
  exists Y X V r,
    let total := (2 * list_sum (map (fun i => binom (m - 1) i) (seq 0 n)))%nat in
    let dr := normals ((1 + r) * (Ns * n)) (rng w) in
    zonotope_vertices W1 (Z.of_nat Ns) maxcount w = (Ok (Y, X), set_rng w (snd dr)) /\
    shape Y = [V; n] /\ shape X = [V; m] /\
    (forall v j, (v < V)%nat -> (j < n)%nat -> Y.[v, j] = sumf m (fun i => X.[v, i] * W1.[i, j])) /\
    (forall v, (v < V)%nat -> exists k sg, (k < (1 + r) * Ns)%nat /\ (sg = 1 \/ sg = -1) /\
       forall i, (i < m)%nat -> X.[v, i] = np_sign (sg * wdot W1 n (dir n (fst dr) k) i)) /\
    (forall k, (k < (1 + r) * Ns)%nat -> exists v, (v < V)%nat /\
       forall i, (i < m)%nat -> X.[v, i] = np_sign (wdot W1 n (dir n (fst dr) k) i)) /\
    (forall v, (v < V)%nat -> exists d, forall x, cube m x ->
       sumf n (fun j => d j * img W1 m x j) <= sumf n (fun j => d j * Y.[v, j]) /\
       ((forall i, (i < m)%nat -> X.[v, i] <> 0) -> sumf n (fun j => d j * img W1 m x j) = sumf n (fun j => d j * Y.[v, j]) ->
          forall j, (j < n)%nat -> img W1 m x j = Y.[v, j])) /\
    (forall v, (v < V)%nat -> exists v', (v' < V)%nat /\ (forall i, (i < m)%nat -> X.[v', i] = - X.[v, i]) /\ (forall j, (j < n)%nat -> Y.[v', j] = - Y.[v, j])) /\
    (forall v v', (v < V)%nat -> (v' < V)%nat -> v <> v' -> (forall i, (i < m)%nat -> X.[v, i] <> 0) ->
       (exists i, (i < m)%nat /\ X.[v, i] <> X.[v', i]) /\ (exists j, (j < n)%nat /\ Y.[v, j] <> Y.[v', j])) /\
    (Z.of_nat r <= Z.max 0 maxcount + 1)%Z /\
    ((Z.of_nat r < Z.max 0 maxcount + 1)%Z -> (total <= V)%nat) /\
    (forall q rows, (q < r)%nat -> NoDup rows ->
       (forall row, In row rows -> exists k sg, (k < (1 + q) * Ns)%nat /\ (sg = 1 \/ sg = -1) /\
          row = map (fun i => np_sign (sg * wdot W1 n (dir n (fst dr) k) i)) (seq 0 m)) -> (List.length rows < total)%nat).
Proof.
  intros G U L W1 m n Ns maxcount w SW Hm.
  destruct (zono_run G U L W1 m n Ns maxcount w SW Hm) as (r & S & E & I & Hr & HT & HQ). cbv zeta in E, I, HT, HQ.
  set (dr := normals ((1 + r) * (Ns * n)) (rng w)) in *.
  set (V := List.length S) in *. set (X := mk2 V m _) in E. set (Y := mk2 V n _) in E.
  exists Y, X, V, r. cbv zeta. fold dr.
  assert (EX : forall v i, X.[v, i] = rrow (nth v S []) i) by reflexivity.
  assert (EY : forall v j, (v < V)%nat -> (j < n)%nat -> Y.[v, j] = img W1 m (rrow (nth v S [])) j) by reflexivity.
  assert (RV : forall v, (v < V)%nat -> In (nth v S []) S) by (intros; now apply nth_In).
  assert (VR : forall s, In s S -> exists v, (v < V)%nat /\ nth v S [] = s) by (intros s Hs; destruct (In_nth S s [] Hs) as (v & A & B); exists v; auto).
  assert (VM : forall v, (v < V)%nat -> exists d, forall x, cube m x ->
     sumf n (fun j => d j * img W1 m x j) <= sumf n (fun j => d j * Y.[v, j]) /\
     ((forall i, (i < m)%nat -> X.[v, i] <> 0) -> sumf n (fun j => d j * img W1 m x j) = sumf n (fun j => d j * Y.[v, j]) ->
        forall i, (i < m)%nat -> x i = X.[v, i])).
  { intros v Hv. destruct (inv_row _ _ _ _ _ _ _ I (RV v Hv)) as (Ls & k & sg & Hk & Hsg & Es).
    exists (fun j => sg * dir n (fst dr) k j). intros x Hx.
    assert (Es' : forall i, (i < m)%nat -> rrow (nth v S []) i = np_sign (wdot W1 n (fun j => sg * dir n (fst dr) k j) i)).
    { intros i Hi. rewrite Es by auto. f_equal. unfold wdot. rewrite <- sumf_scal_l. apply sumf_ext. intros; ring. }
    apply (vertex_max W1 m n _ _ Es' x Hx). }
  split; [exact E|]. split; [reflexivity|]. split; [reflexivity|]. split; [reflexivity|].
  split. { intros v Hv. destruct (inv_row _ _ _ _ _ _ _ I (RV v Hv)) as (Ls & k & sg & Hk & Hsg & Es). exists k, sg. auto. }
  split. { intros k Hk. destruct (inv_has _ _ _ _ _ _ k 1 I Hk (or_introl eq_refl)) as (s & Hs & Es). destruct (VR s Hs) as (v & Hv & Ev).
    exists v. split; auto. intros i Hi. rewrite EX, Ev, Es by auto. apply np_sign_1. }
  split. { intros v Hv. destruct (VM v Hv) as (d & Hd). exists d. intros x Hx. destruct (Hd x Hx) as [H1 H2]. split; auto.
    intros NZ Q j Hj. rewrite EY by auto. apply img_ext. intros i Hi. rewrite <- EX. auto. }
  split. { intros v Hv. destruct I as [_ HI]. pose proof (RV v Hv) as H. apply HI in H as (k & Hk & Ek).
    assert (Hn : In (map fneg (nth v S [])) S).
    { apply HI. exists k. split; auto. destruct Ek as [->| ->]; auto. left. apply fneg_inv. }
    destruct (VR _ Hn) as (v' & Hv' & Ev'). exists v'. split; auto. split.
    - intros i Hi. rewrite !EX, Ev'. apply rrow_neg.
    - intros j Hj. rewrite !EY by auto. rewrite Ev'. unfold img. rewrite <- sumf_opp. apply sumf_ext. intros. rewrite rrow_neg. ring. }
  split. { intros v v' Hv Hv' NE NZ.
    assert (XX : exists i, (i < m)%nat /\ X.[v, i] <> X.[v', i]).
    { apply NNPP. intros C. apply NE. pose proof (proj1 I) as ND. apply (proj1 (NoDup_nth S []) ND); auto.
      destruct (inv_row _ _ _ _ _ _ _ I (RV v Hv)) as (Ls & _). destruct (inv_row _ _ _ _ _ _ _ I (RV v' Hv')) as (Ls' & _).
      apply (rrow_inj _ _ m Ls Ls'); [intros i Hi; rewrite <- EX; auto|]. intros i Hi. rewrite <- !EX. apply NNPP. intros D. apply C. exists i. auto. }
    split; auto. apply NNPP. intros C. destruct (VM v Hv) as (d & Hd).
    assert (CU : cube m (rrow (nth v' S []))).
    { intros i Hi. destruct (inv_row _ _ _ _ _ _ _ I (RV v' Hv')) as (_ & k & sg & _ & _ & Es). rewrite Es by auto. apply np_sign_cube. }
    destruct (Hd _ CU) as [_ H]. destruct XX as (i & Hi & D). apply D. symmetry. rewrite EX. apply H; auto.
    apply sumf_ext. intros j Hj. f_equal. rewrite <- EY by auto. apply NNPP. intros F. apply C. exists j. split; auto. }
  split; [lia|]. split; [intros H; apply HT; lia|].
  intros q rows Hq ND HR. destruct (HQ q Hq) as (Sq & Iq & Lq).
  eapply Nat.le_lt_trans; [|exact Lq]. rewrite <- (map_length (fun s => map (rrow s) (seq 0 m)) Sq).
  apply NoDup_incl_length; auto. intros row Hrow. destruct (HR row Hrow) as (k & sg & Hk & Hsg & ->).
  destruct (inv_has _ _ _ _ _ _ k sg Iq Hk Hsg) as (s & Hs & Es). apply in_map_iff. exists s. split; auto.
  apply map_ext_in. intros i Hi. apply in_seq in Hi. rewrite Es by lia. do 2 f_equal. unfold wdot. apply sumf_ext. intros j Hj. f_equal. unfold dir, dr.
  replace ((1 + r) * (Ns * n))%nat with ((1 + q) * (Ns * n) + (r - q) * (Ns * n))%nat by nia. rewrite normals_app. cbn [fst].
  rewrite app_nth1; auto. rewrite normals_length. nia.
Qed.
Print Assumptions C24_zonotope_vertices_partial.

Theorem C24_negative_samples : forall (G : gen) (U L : Type) W1 m n Ns maxcount (w : world G U L),
  shape W1 = [m; n] -> (Ns < 0)%Z -> zonotope_vertices W1 Ns maxcount w = (Err ValueError, w).
Proof.
  intros G U L W1 m n Ns maxcount w SW H. unfold zonotope_vertices. unfold mbind, mlift, shape2. rewrite SW. cbn [nzv]. unfold dimZ.
  destruct (Z.ltb_spec Ns 0); [|lia]. reflexivity.
Qed.
Print Assumptions C24_negative_samples.

(** a generator whose normal deviates follow a given stream *)
Program Definition stream_gen (f : nat -> R) : gen := {|
  gst := nat; g_seed := fun _ => 0%nat; g_normal := fun s => (f s, S s); g_unif := fun s => (0, s); g_randint := fun hi s => (0%nat, s) |}.
Next Obligation. lra. Qed.
Lemma stream_normals : forall f k (s : nat), normals (G := stream_gen f) k s = (map f (seq s k), (s + k)%nat).
Proof.
  intros f. induction k; intros s; cbn [normals].
  - simpl. now rewrite Nat.add_0_r.
  - cbn [g_normal stream_gen]. rewrite IHk. simpl. f_equal. lia.
Qed.
Lemma dir_stream : forall f n k j N, (k * n + j < N)%nat -> dir n (map f (seq 0 N)) k j = f (k * n + j)%nat.
Proof.
  intros f n k j N H. unfold dir. rewrite (nth_indep _ 0 (f 0%nat)) by (rewrite map_length, seq_length; auto). rewrite (map_nth f (seq 0 N) 0%nat). now rewrite seq_nth.
Qed.

(** W1 = (1, 0)^T and the draws 1, -1: the rows (1, 0) and (1, -0) differ as
    bytes but not as numbers, both are kept *)
Definition wzero : nd R := mat_of [[1]; [0]].
Theorem C24_no_duplicates_refuted :
  exists (G : gen) (w w' : world G unit unit) Y X V v v',
    zonotope_vertices wzero 2 100000 w = (Ok (Y, X), w') /\ shape X = [V; 2%nat] /\ shape Y = [V; 1%nat] /\
    (v < V)%nat /\ (v' < V)%nat /\ v <> v' /\ (forall i, (i < 2)%nat -> X.[v, i] = X.[v', i]) /\ Y.[v, 0%nat] = Y.[v', 0%nat].
Proof.
  set (f := fun i => if Nat.even i then 1 else -1). pose (GG := stream_gen f). pose (w := World (0%nat : gst GG) tt [] 0 : world GG unit unit).
  assert (SW : shape wzero = [2; 1]%nat) by reflexivity.
  destruct (zono_run GG unit unit wzero 2 1 2 100000%Z w SW ltac:(lia)) as (r & S & E & (ND & I) & _). cbv zeta in E, I.
  change (rng w) with 0%nat in E, I. rewrite (stream_normals f) in E. unfold GG in I. rewrite (stream_normals f) in I. cbn [fst] in I.
  set (NN := ((1 + r) * (2 * 1))%nat) in *. assert (HN : (2 <= NN)%nat) by (unfold NN; lia).
  assert (PJ : forall k i, (k < 2)%nat -> proj wzero 1 (map f (seq 0 NN)) k i = f k * wzero.[i, 0%nat]).
  { intros k i Hk. unfold proj. cbn [sumf]. rewrite Rplus_0_l. f_equal. pose proof (dir_stream f 1 k 0 NN ltac:(lia)) as D. unfold dir in D. rewrite D. f_equal. lia. }
  assert (S0 : sv wzero 2 1 (map f (seq 0 NN)) 0 = [SPos; SZero]).
  { unfold sv. cbn [seq map]. rewrite !PJ by lia. unfold f. cbn [Nat.even]. change (wzero.[0%nat, 0%nat]) with 1. change (wzero.[1%nat, 0%nat]) with 0.
    unfold fsign. repeat (match goal with |- context [Rlt_dec ?a ?b] => destruct (Rlt_dec a b); try lra end). reflexivity. }
  assert (S1 : sv wzero 2 1 (map f (seq 0 NN)) 1 = [SNeg; SZero]).
  { unfold sv. cbn [seq map]. rewrite !PJ by lia. unfold f. cbn [Nat.even]. change (wzero.[0%nat, 0%nat]) with 1. change (wzero.[1%nat, 0%nat]) with 0.
    unfold fsign. repeat (match goal with |- context [Rlt_dec ?a ?b] => destruct (Rlt_dec a b); try lra end). reflexivity. }
  assert (A0 : In [SPos; SZero] S) by (apply I; exists 0%nat; split; [lia|]; left; auto).
  assert (A1 : In [SPos; SNZero] S) by (apply I; exists 1%nat; split; [lia|]; right; rewrite S1; reflexivity).
  destruct (In_nth S _ [] A0) as (v & Hv & Ev). destruct (In_nth S _ [] A1) as (v' & Hv' & Ev').
  set (V := List.length S) in *. set (X := mk2 V 2 _) in E. set (Y := mk2 V 1 _) in E.
  assert (EX : forall i, (i < 2)%nat -> X.[v, i] = X.[v', i]).
  { intros i Hi. change (fval (nth i (nth v S []) SZero) = fval (nth i (nth v' S []) SZero)). rewrite Ev, Ev'. destruct i as [|[|i]]; [reflexivity|reflexivity|lia]. }
  exists GG, w, (set_rng w ((0 + NN)%nat : gst GG)), Y, X, V, v, v'. split; [exact E|]. split; [reflexivity|]. split; [reflexivity|]. split; [auto|]. split; [auto|].
  split; [intros Q; subst v'; rewrite Ev in Ev'; discriminate|]. split; [exact EX|].
  change (sumf 2 (fun l => X.[v, l] * wzero.[l, 0%nat]) = sumf 2 (fun l => X.[v', l] * wzero.[l, 0%nat])). apply sumf_ext. intros i Hi. now rewrite EX.
Qed.
Print Assumptions C24_no_duplicates_refuted.

(** ** C25, the search *)

(** When no zero sign was met, the rows found number at most nzv(m, n); a
    search that stops with rounds to spare has found nzv(m, n) of them, and
    then every nowhere-zero sign vector of W1 is among them. *)
Theorem C25_search_complete : forall (G : gen) (U L : Type) W1 m n Ns maxcount (w w' : world G U L) Y X V,
  let total := (2 * list_sum (map (fun i => binom (m - 1) i) (seq 0 n)))%nat in
  shape W1 = [m; n] -> (1 <= m)%nat ->
  zonotope_vertices W1 (Z.of_nat Ns) maxcount w = (Ok (Y, X), w') -> shape X = [V; m] ->
  (forall v i, (v < V)%nat -> (i < m)%nat -> X.[v, i] <> 0) ->
  (V <= total)%nat /\
  (exists r, w' = set_rng w (snd (normals ((1 + r) * (Ns * n)) (rng w))) /\ ((Z.of_nat r < Z.max 0 maxcount + 1)%Z -> V = total)) /\
  (V = total -> forall z, (forall i, (i < m)%nat -> wdot W1 n z i <> 0) ->
     exists v, (v < V)%nat /\ forall i, (i < m)%nat -> X.[v, i] = np_sign (wdot W1 n z i)).
Proof.
  intros G U L W1 m n Ns maxcount w w' Y X V total SW Hm E SX NZ.
  destruct (C24_zonotope_vertices_partial G U L W1 m n Ns maxcount w SW Hm) as (Y' & X' & V' & r & H). cbv zeta in H. fold total in H.
  destruct H as (E' & _ & SX' & _ & HR & _ & _ & _ & HD & Hr & HT & _).
  rewrite E in E'. injection E' as <- <- Ew. rewrite SX in SX'. injection SX' as <-.
  set (bv := fun v => map (fun i => if Rlt_dec 0 (X.[v, i]) then true else false) (seq 0 m)).
  assert (LB : forall v, List.length (bv v) = m) by (intros; unfold bv; now rewrite map_length, seq_length).
  assert (NB : forall v i, (i < m)%nat -> nth i (bv v) true = if Rlt_dec 0 (X.[v, i]) then true else false).
  { intros v i Hi. unfold bv. set (g := fun i => if Rlt_dec 0 (X.[v, i]) then true else false). rewrite (nth_indep _ true (g 0%nat)) by (rewrite map_length, seq_length; auto).
    rewrite (map_nth g (seq 0 m) 0%nat i), seq_nth by auto. reflexivity. }
  assert (PM : forall v i, (v < V)%nat -> (i < m)%nat -> X.[v, i] = 1 \/ X.[v, i] = -1).
  { intros v i Hv Hi. destruct (HR v Hv) as (k & sg & _ & _ & Ex). specialize (NZ v i Hv Hi). rewrite Ex in NZ |- * by auto.
    destruct (np_sign_cases (sg * wdot W1 n (dir n (fst (normals ((1 + r) * (Ns * n)) (rng w))) k) i)) as [Q|[Q|[Q _]]]; auto. congruence. }
  assert (INJ : forall v v', (v < V)%nat -> (v' < V)%nat -> bv v = bv v' -> v = v').
  { intros v v' Hv Hv' Q. destruct (Nat.eq_dec v v') as [|NE]; auto. exfalso. destruct (HD v v' Hv Hv' NE ltac:(intros; auto)) as [(i & Hi & D) _].
    apply D. assert (Qi : nth i (bv v) true = nth i (bv v') true) by now rewrite Q. rewrite !NB in Qi by auto.
    destruct (PM v i Hv Hi) as [A|A], (PM v' i Hv' Hi) as [B|B]; rewrite A, B in *; auto;
    destruct (Rlt_dec 0 1); destruct (Rlt_dec 0 (-1)); try lra; discriminate. }
  set (S := map bv (seq 0 V)).
  assert (NDS : NoDup S).
  { unfold S. clear - INJ. assert (K : forall l, NoDup l -> (forall v, In v l -> (v < V)%nat) -> NoDup (map bv l)).
    { induction l; intros ND Hl; simpl; constructor; apply NoDup_cons_iff in ND as [N1 N2]; [|apply IHl; auto; intros; apply Hl; right; auto].
      intros C. apply in_map_iff in C as (v & Ev & Hv). apply N1. rewrite (INJ a v); auto; apply Hl; [left|right]; auto. }
    apply K; [apply seq_NoDup|]. intros v Hv. apply in_seq in Hv. lia. }
  assert (RS : forall s, In s S -> exists z, signs_of m n (fun i j => W1.[i, j]) z s).
  { intros s Hs. apply in_map_iff in Hs as (v & <- & Hv). apply in_seq in Hv. destruct (HR v ltac:(lia)) as (k & sg & _ & _ & Ex).
    exists (fun j => sg * dir n (fst (normals ((1 + r) * (Ns * n)) (rng w))) k j). split; auto. intros i Hi. rewrite NB by auto.
    set (t := sumf n _). assert (Et : X.[v, i] = np_sign t).
    { rewrite Ex by auto. f_equal. unfold t, wdot. rewrite <- sumf_scal_l. apply sumf_ext. intros; ring. }
    pose proof (NZ v i ltac:(lia) Hi) as Z. rewrite Et in Z |- *. unfold np_sign in *. destruct (Rlt_dec 0 t) as [P|P]; [destruct (Rlt_dec 0 1); lra|].
    destruct (Rlt_dec t 0) as [P2|P2]; [destruct (Rlt_dec 0 (-1)); lra|]. lra. }
  assert (LS : List.length S = V) by (unfold S; now rewrite map_length, seq_length).
  assert (LE : (V <= total)%nat).
  { destruct (C25_sign_vector_count m n _ S Hm NDS RS) as (c & _ & Ec & Hc). rewrite LS in Hc. unfold total. lia. }
  split; [exact LE|]. split; [exists r; split; auto; intros Q; specialize (HT Q); lia|].
  intros EV z Hz. set (s := map (fun i => if Rlt_dec 0 (wdot W1 n z i) then true else false) (seq 0 m)).
  assert (Ns' : forall i, (i < m)%nat -> nth i s true = if Rlt_dec 0 (wdot W1 n z i) then true else false).
  { intros i Hi. unfold s. set (g := fun i => if Rlt_dec 0 (wdot W1 n z i) then true else false). rewrite (nth_indep _ true (g 0%nat)) by (rewrite map_length, seq_length; auto).
    rewrite (map_nth g (seq 0 m) 0%nat i), seq_nth by auto. reflexivity. }
  destruct (in_dec bl_dec s S) as [Hin|Hout].
  - apply in_map_iff in Hin as (v & Ev & Hv). apply in_seq in Hv. exists v. split; [lia|]. intros i Hi.
    assert (Q : nth i (bv v) true = nth i s true) by now rewrite Ev. rewrite NB, Ns' in Q by auto. specialize (Hz i Hi).
    unfold np_sign. destruct (PM v i ltac:(lia) Hi) as [A|A]; rewrite A in *; destruct (Rlt_dec 0 (wdot W1 n z i)); destruct (Rlt_dec (wdot W1 n z i) 0);
    try (destruct (Rlt_dec 0 1)); try (destruct (Rlt_dec 0 (-1))); try discriminate; try lra.
  - exfalso. destruct (C25_sign_vector_count m n (fun i j => W1.[i, j]) (s :: S) Hm) as (c & _ & Ec & Hc).
    + constructor; auto.
    + intros s' [<-|Hs']; auto. exists z. split; [unfold s; now rewrite map_length, seq_length|]. intros i Hi. rewrite Ns' by auto. specialize (Hz i Hi). unfold wdot in *.
      destruct (Rlt_dec 0 _); [auto|lra].
    + simpl List.length in Hc. rewrite LS in Hc. unfold total in EV. lia.
Qed.
Print Assumptions C25_search_complete.

(** ** C26 *)

(** x is in the convex hull of the rows of Y *)
Definition conv (Y : nd R) (V n : nat) (x : nat -> R) : Prop :=
  exists lam, (forall v, (v < V)%nat -> 0 <= lam v) /\ sumf V lam = 1 /\ forall j, (j < n)%nat -> x j = sumf V (fun v => lam v * Y.[v, j]).
(** what scipy.spatial.ConvexHull promises: its equations [A | b] describe the
    hull as the set of the x with A x + b <= 0 *)
Definition hull_of (Y : nd R) (V n : nat) (eqs : nd R) : Prop :=
  exists F, shape eqs = [F; S n] /\ forall x, conv Y V n x <-> forall f, (f < F)%nat -> sumf n (fun j => eqs.[f, j] * x j) + eqs.[f, n] <= 0.

Lemma conv_neg : forall Y V n x, (forall v, (v < V)%nat -> exists v', (v' < V)%nat /\ forall j, (j < n)%nat -> Y.[v', j] = - Y.[v, j]) ->
  conv Y V n x -> conv Y V n (fun j => - x j).
Proof.
  intros Y V n x H (lam & L0 & L1 & Lx).
  assert (exists nu : nat -> nat, forall v, (v < V)%nat -> (nu v < V)%nat /\ forall j, (j < n)%nat -> Y.[nu v, j] = - Y.[v, j]) as (nu & Hnu).
  { assert (K : forall k, exists nu : nat -> nat, forall v, (v < k)%nat -> (v < V)%nat -> (nu v < V)%nat /\ forall j, (j < n)%nat -> Y.[nu v, j] = - Y.[v, j]).
    { induction k as [|k [nu IH]]; [exists (fun v => v); intros; lia|]. destruct (Nat.lt_ge_cases k V) as [C|C].
      - destruct (H k C) as (v' & Hv' & E). exists (fun v => if Nat.eqb v k then v' else nu v). intros v Hv HV. destruct (Nat.eqb_spec v k) as [->|D]; auto. apply IH; lia.
      - exists nu. intros v Hv HV. apply IH; lia. }
    destruct (K V) as [nu Hnu]. exists nu. auto. }
  exists (fun v' => sumf V (fun v => if Nat.eqb (nu v) v' then lam v else 0)).
  assert (RE : forall g : nat -> R, sumf V (fun v' => sumf V (fun v => if Nat.eqb (nu v) v' then lam v else 0) * g v') = sumf V (fun v => lam v * g (nu v))).
  { intros g. rewrite (sumf_ext V _ (fun v' => sumf V (fun v => (if Nat.eqb (nu v) v' then lam v else 0) * g v'))) by (intros; now rewrite sumf_scal_r).
    rewrite sumf_swap. apply sumf_ext. intros v Hv. rewrite (sumf_single V (nu v)).
    - now rewrite Nat.eqb_refl.
    - apply Hnu; auto.
    - intros i Hi D. destruct (Nat.eqb_spec (nu v) i); [congruence|ring]. }
  split; [|split].
  - intros v' _. apply sumf_nonneg. intros v Hv. destruct (Nat.eqb (nu v) v'); auto. lra.
  - rewrite (sumf_ext V _ (fun v' => sumf V (fun v => if Nat.eqb (nu v) v' then lam v else 0) * 1)) by (intros; ring). rewrite (RE (fun _ => 1)).
    rewrite (sumf_ext V _ lam); [exact L1|]. intros. cbv beta. ring.
  - intros j Hj. rewrite (RE (fun v => Y.[v, j])). rewrite Lx by auto. rewrite <- sumf_opp. apply sumf_ext. intros v Hv. rewrite (proj2 (Hnu v Hv)) by auto. ring.
Qed.

(** the constraint A x - b >= 0 built from the equations holds at x iff -x is
    in the hull *)
Lemma hull_cons_meaning : forall Y V n eqs, hull_of Y V n eqs ->
  exists F A, shape eqs = [F; S n] /\ shape A = [F; n] /\ (forall x, snd (hull_cons eqs n) x = Ok A) /\
    forall x, exists r, fst (hull_cons eqs n) (mk1 n x) = Ok r /\ shape r = [F] /\
      (forall f, (f < F)%nat -> r.[f] = sumf n (fun j => A.[f, j] * x j) - eqs.[f, n]) /\
      ((forall f, (f < F)%nat -> 0 <= r.[f]) <-> conv Y V n (fun j => - x j)).
Proof.
  intros Y V n eqs (F & SE & H). exists F, (cols_slice eqs 0 n).
  assert (SA : shape (cols_slice eqs 0 n) = [F; n]).
  { unfold cols_slice. rewrite (nrows_shape2 _ eqs _ _ SE), (ncols_shape2 _ eqs _ _ SE). cbn [shape mk2]. do 2 f_equal. lia. }
  split; [exact SE|]. split; [exact SA|]. split; [reflexivity|].
  intros x. unfold hull_cons. cbn [fst]. rewrite (npdot21 _ (mk1 n x) F n SA eq_refl). cbn [rbind].
  set (b := mk1 _ (fun i => eqs.[i, n])).
  destruct (bcast1_same _ _ _ Rminus (mk1 F (fun i => sumf n (fun l => (cols_slice eqs 0 n).[i, l] * (mk1 n x).[l]))) b F eq_refl
     ltac:(unfold b; rewrite (nrows_shape2 _ eqs _ _ SE); reflexivity)) as (r & Er & Sr & Vr).
  exists r. split; [exact Er|]. split; [exact Sr|].
  assert (Vr' : forall f, (f < F)%nat -> r.[f] = sumf n (fun j => (cols_slice eqs 0 n).[f, j] * x j) - eqs.[f, n]) by (intros; now rewrite Vr).
  split; [exact Vr'|]. rewrite (H (fun j => - x j)). split; intros Q f Hf; specialize (Q f Hf); [rewrite Vr' in Q by auto|rewrite Vr' by auto];
  (assert (E : sumf n (fun j => eqs.[f, j] * - x j) = - sumf n (fun j => (cols_slice eqs 0 n).[f, j] * x j)) by (rewrite <- sumf_opp; apply sumf_ext; intros; unfold cols_slice; rewrite at_mk2; simpl; ring)); lra.
Qed.

(** compute_boundary with more than one active variable: the constraint it
    stores is satisfied exactly by the points of the convex hull of the
    vertices it stores, and its 'jac' is the derivative of its 'fun' *)
Theorem C26_boundary_constraint : forall (G : gen) (U L : Type) convex_hull d W1 m n (w w' : world G U L) d',
  s_W1 (d_subs d) = Some W1 -> shape W1 = [m; n] -> (1 <= m)%nat -> n <> 1%nat ->
  (forall Y V eqs, shape Y = [V; n] -> convex_hull Y = Ok eqs -> hull_of Y V n eqs) ->
  compute_boundary convex_hull d w = (Ok d', w') ->
  exists Y X V fn jac F A, d_vertY d' = Some Y /\ d_vertX d' = Some X /\ shape Y = [V; n] /\ shape X = [V; m] /\ d_cons d' = Some (fn, jac) /\
    shape A = [F; n] /\ (forall x, jac x = Ok A) /\
    (forall x, exists r, fn (mk1 n x) = Ok r /\ shape r = [F] /\ ((forall f, (f < F)%nat -> 0 <= r.[f]) <-> conv Y V n x)) /\
    (forall x h, exists r r', fn (mk1 n x) = Ok r /\ fn (mk1 n (fun j => x j + h j)) = Ok r' /\
       forall f, (f < F)%nat -> r'.[f] - r.[f] = sumf n (fun j => A.[f, j] * h j)) /\
    (forall x, conv Y V n x -> exists c, cube m c /\ forall j, (j < n)%nat -> x j = img W1 m c j).
Proof.
  intros G U L convex_hull d W1 m n w w' d' EW SW Hm Hn CH E.
  destruct (Z_of_nat_complete 10000 ltac:(lia)) as (N4 & EN4).
  destruct (C24_zonotope_vertices_partial G U L W1 m n N4 100000%Z w SW Hm) as (Y & X & V & r & H). cbv zeta in H.
  destruct H as (EZ & SY & SX & VY & RX & _ & _ & NG & _).
  unfold compute_boundary in E. unfold mbind at 1, mlift at 1 in E. rewrite EW in E. cbn [need] in E. unfold mbind at 1, mlift at 1 in E. unfold shape2 in E. rewrite SW in E.
  destruct (Nat.eqb_spec n 1) as [C|_]; [now elim Hn|].
  unfold mbind at 1 in E. rewrite EN4 in E. rewrite EZ in E. unfold mbind at 1, mlift at 1 in E.
  destruct (convex_hull Y) as [eqs|e] eqn:EH; [|discriminate E]. unfold mret in E. injection E as <- _. cbn [d_vertY d_vertX d_cons].
  pose proof (CH Y V eqs SY EH) as HH. destruct (hull_cons_meaning Y V n eqs HH) as (F & A & SE & SA & JA & MA).
  exists Y, X, V, (fst (hull_cons eqs n)), (snd (hull_cons eqs n)), F, A.
  split; [reflexivity|]. split; [reflexivity|]. split; [exact SY|]. split; [exact SX|]. split; [now destruct (hull_cons eqs n)|]. split; [exact SA|]. split; [exact JA|].
  assert (NG' : forall v, (v < V)%nat -> exists v', (v' < V)%nat /\ forall j, (j < n)%nat -> Y.[v', j] = - Y.[v, j]).
  { intros v Hv. destruct (NG v Hv) as (v' & Hv' & _ & Ev). exists v'. auto. }
  split; [|split].
  - intros x. destruct (MA x) as (rr & Er & Sr & _ & Mr). exists rr. split; [exact Er|]. split; [exact Sr|]. rewrite Mr. split; intros C.
    + apply (conv_neg _ _ _ _ NG') in C. destruct C as (lam & A1 & A2 & A3). exists lam. split; auto. split; auto. intros j Hj. rewrite <- A3 by auto. ring.
    + now apply conv_neg.
  - intros x h. destruct (MA x) as (r1 & E1 & _ & V1 & _). destruct (MA (fun j => x j + h j)) as (r2 & E2 & _ & V2 & _). exists r1, r2. split; auto. split; auto.
    intros f Hf. rewrite V1, V2 by auto.
    rewrite (sumf_ext n (fun j => A.[f, j] * (x j + h j)) (fun j => A.[f, j] * x j + A.[f, j] * h j)) by (intros; ring). rewrite sumf_plus. ring.
  - intros x (lam & L0 & L1 & Lx). exists (fun i => sumf V (fun v => lam v * X.[v, i])). split.
    + intros i Hi. assert (B : forall v, (v < V)%nat -> -1 <= X.[v, i] <= 1) by (intros v Hv; destruct (RX v Hv) as (k & sg & _ & _ & Ex); rewrite Ex by auto; apply np_sign_cube).
      assert (U1 : sumf V (fun v => lam v * X.[v, i]) <= sumf V lam) by (apply sumf_le; intros v Hv; specialize (L0 v Hv); specialize (B v Hv); nra).
      assert (U2 : sumf V (fun v => - lam v) <= sumf V (fun v => lam v * X.[v, i])) by (apply sumf_le; intros v Hv; specialize (L0 v Hv); specialize (B v Hv); nra).
      rewrite sumf_opp in U2. lra.
    + intros j Hj. rewrite Lx by auto. unfold img. rewrite (sumf_ext m _ (fun i => sumf V (fun v => lam v * X.[v, i] * W1.[i, j]))) by (intros; now rewrite sumf_scal_r).
      rewrite sumf_swap. apply sumf_ext. intros v Hv. rewrite VY by auto. rewrite <- sumf_scal_l. apply sumf_ext. intros; ring.
Qed.
Print Assumptions C26_boundary_constraint.

(** ** A concrete case: W1 the identity of R^2, draws 1, 1, 1, -1, 1, 1, ... *)
Definition eye2 : nd R := mat_of [[1; 0]; [0; 1]].
Definition sqf (i : nat) : R := if Nat.eqb (i mod 4) 3 then -1 else 1.
Definition sqw : world (stream_gen sqf) unit unit := World (0%nat : gst (stream_gen sqf)) tt [] 0.

Lemma sq_inv : forall S l K N, inv eye2 2 2 S (map sqf (seq 0 l)) K -> l = (K * 2)%nat -> (2 <= K)%nat -> N = List.length S ->
  N = 4%nat /\ forall s, In s S <-> exists a b, s = [a; b] /\ (a = SPos \/ a = SNeg) /\ (b = SPos \/ b = SNeg).
Proof.
  intros S l K N [ND H] -> HK ->.
  assert (PJ : forall k i, (k < K)%nat -> (i < 2)%nat -> proj eye2 2 (map sqf (seq 0 (K * 2))) k i = sqf (k * 2 + i)).
  { intros k i Hk Hi. unfold proj. cbn [sumf].
    pose proof (dir_stream sqf 2 k 0 (K * 2) ltac:(lia)) as D0. pose proof (dir_stream sqf 2 k 1 (K * 2) ltac:(lia)) as D1. unfold dir in D0, D1. rewrite D0, D1.
    destruct i as [|[|i]]; [| |lia]; unfold eye2; simpl nth; cbn [at_ mat_of mk2 nth]; lra. }
  assert (SV : forall k, (k < K)%nat -> sv eye2 2 2 (map sqf (seq 0 (K * 2))) k = [SPos; if Nat.even k then SPos else SNeg]).
  { intros k Hk. unfold sv. cbn [seq map]. rewrite !PJ by lia. unfold sqf.
    assert (M0 : ((k * 2 + 0) mod 4 <> 3)%nat) by (intros C; pose proof (Nat.div_mod (k * 2 + 0) 4 ltac:(lia)); lia).
    destruct (Nat.eqb_spec ((k * 2 + 0) mod 4) 3) as [C|_]; [now elim M0|].
    assert (F1 : fsign 1 = SPos) by (unfold fsign; destruct (Rlt_dec 0 1); [auto|lra]).
    assert (F2 : fsign (-1) = SNeg) by (unfold fsign; destruct (Rlt_dec 0 (-1)); [lra|]; destruct (Rlt_dec (-1) 0); [auto|lra]).
    rewrite F1. f_equal. f_equal.
    destruct (Nat.even k) eqn:EK.
    - apply Nat.even_spec in EK as (h & ->). destruct (Nat.eqb_spec ((2 * h * 2 + 1) mod 4) 3) as [C|_]; [|auto].
      exfalso. replace (2 * h * 2 + 1)%nat with (1 + h * 4)%nat in C by lia. rewrite Nat.mod_add in C by lia. discriminate C.
    - assert (OK : Nat.odd k = true) by (unfold Nat.odd; now rewrite EK). apply Nat.odd_spec in OK as (h & ->).
      destruct (Nat.eqb_spec (((2 * h + 1) * 2 + 1) mod 4) 3) as [_|C]; [auto|]. exfalso. apply C. replace ((2 * h + 1) * 2 + 1)%nat with (3 + h * 4)%nat by lia. rewrite Nat.mod_add by lia. reflexivity. }
  assert (IS : forall s, In s S <-> In s [[SPos; SPos]; [SPos; SNeg]; [SNeg; SPos]; [SNeg; SNeg]]).
  { intros s. rewrite H. split.
    - intros (k & Hk & [->| ->]); rewrite SV by auto; destruct (Nat.even k); simpl; auto.
    - intros [<-|[<-|[<-|[<-|[]]]]].
      + exists 0%nat. split; [lia|]. left. now rewrite SV by lia.
      + exists 1%nat. split; [lia|]. left. now rewrite SV by lia.
      + exists 1%nat. split; [lia|]. right. now rewrite SV by lia.
      + exists 0%nat. split; [lia|]. right. now rewrite SV by lia. }
  split.
  - apply Nat.le_antisymm.
    + apply (NoDup_incl_length ND (l' := [[SPos; SPos]; [SPos; SNeg]; [SNeg; SPos]; [SNeg; SNeg]])). intros s Hs. now apply IS.
    + apply (NoDup_incl_length (l := [[SPos; SPos]; [SPos; SNeg]; [SNeg; SPos]; [SNeg; SNeg]])); [repeat constructor; simpl; intuition discriminate|]. intros s Hs. now apply IS.
  - intros s. rewrite IS. split.
    + intros [<-|[<-|[<-|[<-|[]]]]]; eexists; eexists; split; try reflexivity; auto.
    + intros (a & b & -> & [->| ->] & [->| ->]); simpl; auto.
Qed.

Lemma sq_run : forall Ns maxcount, (2 <= Ns)%nat -> exists S,
  let XM := mk2 4 2 (fun i j => fval (nth j (nth i S []) SZero)) in
  zonotope_vertices eye2 (Z.of_nat Ns) maxcount sqw = (Ok (mk2 4 2 (fun i j => sumf 2 (fun l => XM.[i, l] * eye2.[l, j])), XM), set_rng sqw ((Ns * 2)%nat : gst (stream_gen sqf))) /\
  List.length S = 4%nat /\ forall s, In s S <-> exists a b, s = [a; b] /\ (a = SPos \/ a = SNeg) /\ (b = SPos \/ b = SNeg).
Proof.
  intros Ns maxcount HN. destruct (zono_run (stream_gen sqf) unit unit eye2 2 2 Ns maxcount sqw eq_refl ltac:(lia)) as (r & S & E & I & Hr & HT & HQ). cbv zeta in E, I, HT, HQ.
  change (rng sqw) with 0%nat in E, I, HQ. rewrite (stream_normals sqf) in E, I. cbn [fst] in I. exists S.
  assert (r = 0%nat) as ->.
  { destruct r; auto. destruct (HQ 0%nat ltac:(lia)) as (Sq & Iq & Lq). rewrite (stream_normals sqf) in Iq. cbn [fst] in Iq.
    destruct (sq_inv Sq _ _ _ Iq ltac:(lia) ltac:(lia) eq_refl) as [L4 _]. rewrite L4 in Lq. change (2 * phi (2 - 1) 2)%nat with 4%nat in Lq. lia. }
  destruct (sq_inv S _ _ _ I ltac:(lia) ltac:(lia) eq_refl) as [L4 HS]. rewrite L4 in E. cbv zeta.
  replace (Ns * 2)%nat with (0 + (1 + 0) * (Ns * 2))%nat by lia. split; [exact E|]. auto.
Qed.

(** all four corners of the square, after one round of samples *)
Example C24_case : exists Y X w', zonotope_vertices eye2 7 100000 sqw = (Ok (Y, X), w') /\ shape X = [4%nat; 2%nat] /\
  (forall v i, (v < 4)%nat -> (i < 2)%nat -> X.[v, i] <> 0) /\
  forall a b, (a = 1 \/ a = -1) -> (b = 1 \/ b = -1) -> exists v, (v < 4)%nat /\ Y.[v, 0%nat] = a /\ Y.[v, 1%nat] = b.
Proof.
  destruct (sq_run 7 100000%Z ltac:(lia)) as (S & E & L4 & HS). cbv zeta in E. change 7%Z with (Z.of_nat 7).
  set (X := mk2 4 2 (fun i j => fval _)) in E. set (Y := mk2 4 2 _) in E. exists Y, X, (set_rng sqw ((7 * 2)%nat : gst (stream_gen sqf))). split; [exact E|]. split; [reflexivity|]. split.
  - intros v i Hv Hi. destruct (proj1 (HS (nth v S [])) ltac:(apply nth_In; lia)) as (a & b & Es & Ha & Hb). change (X.[v, i]) with (fval (nth i (nth v S []) SZero)). rewrite Es.
    destruct i as [|[|i]]; [| |lia]; cbn [nth]; [destruct Ha as [->| ->]|destruct Hb as [->| ->]]; simpl; lra.
  - intros a b Ha Hb.
    assert (exists sa, (sa = SPos \/ sa = SNeg) /\ fval sa = a) as (sa & Hsa & <-) by (destruct Ha as [->| ->]; [exists SPos|exists SNeg]; simpl; auto).
    assert (exists sb, (sb = SPos \/ sb = SNeg) /\ fval sb = b) as (sb & Hsb & <-) by (destruct Hb as [->| ->]; [exists SPos|exists SNeg]; simpl; auto).
    assert (IN : In [sa; sb] S) by (apply HS; eauto 10). destruct (In_nth S _ [] IN) as (v & Hv & Ev). exists v. split; [lia|].
    assert (EY : forall j, Y.[v, j] = fval sa * eye2.[0%nat, j] + fval sb * eye2.[1%nat, j]).
    { intros j. change (0 + fval (nth 0 (nth v S []) SZero) * eye2.[0%nat, j] + fval (nth 1 (nth v S []) SZero) * eye2.[1%nat, j] = fval sa * eye2.[0%nat, j] + fval sb * eye2.[1%nat, j]).
      rewrite Ev. cbn [nth]. ring. }
    rewrite !EY. unfold eye2. cbn [at_ mat_of mk2 nth]. split; ring.
Qed.

(** ConvexHull of the corners of the square: |x_j| - 1 <= 0 *)
Definition sq_eqs : nd R := mat_of [[1; 0; -1]; [-1; 0; -1]; [0; 1; -1]; [0; -1; -1]].
Lemma sq_hull : forall Y V, shape Y = [V; 2%nat] ->
  (forall v j, (v < V)%nat -> (j < 2)%nat -> -1 <= Y.[v, j] <= 1) ->
  (forall a b, (a = 1 \/ a = -1) -> (b = 1 \/ b = -1) -> exists v, (v < V)%nat /\ Y.[v, 0%nat] = a /\ Y.[v, 1%nat] = b) ->
  hull_of Y V 2 sq_eqs.
Proof.
  intros Y V SY B C. exists 4%nat. split; [reflexivity|]. intros x.
  assert (EQ : (forall f, (f < 4)%nat -> sumf 2 (fun j => sq_eqs.[f, j] * x j) + sq_eqs.[f, 2%nat] <= 0) <-> (-1 <= x 0%nat <= 1 /\ -1 <= x 1%nat <= 1)).
  { split.
    - intros H. pose proof (H 0%nat ltac:(lia)) as H0. pose proof (H 1%nat ltac:(lia)) as H1. pose proof (H 2%nat ltac:(lia)) as H2. pose proof (H 3%nat ltac:(lia)) as H3.
      unfold sq_eqs in *. cbn [sumf at_ mat_of mk2 nth] in *. lra.
    - intros H f Hf. destruct f as [|[|[|[|f]]]]; [| | | |lia]; unfold sq_eqs; cbn [sumf at_ mat_of mk2 nth]; lra. }
  rewrite EQ. split.
  - intros (lam & L0 & L1 & Lx).
    assert (K : forall j, (j < 2)%nat -> -1 <= x j <= 1).
    { intros j Hj. rewrite Lx by auto.
      assert (U1 : sumf V (fun v => lam v * Y.[v, j]) <= sumf V lam) by (apply sumf_le; intros v Hv; specialize (L0 v Hv); specialize (B v j Hv Hj); nra).
      assert (U2 : sumf V (fun v => - lam v) <= sumf V (fun v => lam v * Y.[v, j])) by (apply sumf_le; intros v Hv; specialize (L0 v Hv); specialize (B v j Hv Hj); nra).
      rewrite sumf_opp in U2. lra. }
    split; apply K; lia.
  - intros [[X0 X0'] [X1 X1']].
    destruct (C 1 1 (or_introl eq_refl) (or_introl eq_refl)) as (a & Ha & A0 & A1).
    destruct (C 1 (-1) (or_introl eq_refl) (or_intror eq_refl)) as (b & Hb & B0 & B1).
    destruct (C (-1) 1 (or_intror eq_refl) (or_introl eq_refl)) as (c & Hc & C0 & C1).
    destruct (C (-1) (-1) (or_intror eq_refl) (or_intror eq_refl)) as (d & Hd & D0 & D1).
    assert (a <> b /\ a <> c /\ a <> d /\ b <> c /\ b <> d /\ c <> d) as (N1 & N2 & N3 & N4 & N5 & N6) by (repeat split; intros ->; lra).
    set (p := (1 + x 0%nat) / 2). set (q := (1 + x 1%nat) / 2).
    assert (P : 0 <= p <= 1) by (unfold p; lra). assert (Q : 0 <= q <= 1) by (unfold q; lra).
    set (lam := fun v => if Nat.eqb v a then p * q else if Nat.eqb v b then p * (1 - q) else if Nat.eqb v c then (1 - p) * q else if Nat.eqb v d then (1 - p) * (1 - q) else 0).
    assert (SL : forall g : nat -> R, sumf V (fun v => lam v * g v) = p * q * g a + p * (1 - q) * g b + (1 - p) * q * g c + (1 - p) * (1 - q) * g d).
    { intros g.
      rewrite (sumf_ext V _ (fun v => kron_delta a v * (p * q * g v) + kron_delta b v * (p * (1 - q) * g v) + kron_delta c v * ((1 - p) * q * g v) + kron_delta d v * ((1 - p) * (1 - q) * g v))).
      - rewrite !sumf_plus, !sumf_kd_l by auto. ring.
      - intros v Hv. unfold lam, kron_delta. rewrite (Nat.eqb_sym a v), (Nat.eqb_sym b v), (Nat.eqb_sym c v), (Nat.eqb_sym d v).
        destruct (Nat.eqb_spec v a), (Nat.eqb_spec v b), (Nat.eqb_spec v c), (Nat.eqb_spec v d); try congruence; ring. }
    exists lam. split; [|split].
    + intros v Hv. unfold lam. repeat (match goal with |- context [Nat.eqb v ?k] => destruct (Nat.eqb v k) end); nra.
    + rewrite (sumf_ext V _ (fun v => lam v * 1)) by (intros; ring). rewrite (SL (fun _ => 1)). ring.
    + intros [|[|j]] Hj; [| |lia]; [rewrite (SL (fun v => Y.[v, 0%nat])), A0, B0, C0, D0|rewrite (SL (fun v => Y.[v, 1%nat])), A1, B1, C1, D1]; unfold p, q; field.
Qed.

(** compute_boundary on the square *)
Example C26_case : forall d, s_W1 (d_subs d) = Some eye2 -> exists d' w' Y,
  compute_boundary (fun _ => Ok sq_eqs) d sqw = (Ok d', w') /\ d_vertY d' = Some Y /\ shape Y = [4%nat; 2%nat] /\ hull_of Y 4 2 sq_eqs.
Proof.
  intros d Hd. destruct (Z_of_nat_complete 10000 ltac:(lia)) as (N4 & EN4). destruct (sq_run N4 100000%Z ltac:(lia)) as (S & E & L4 & HS). cbv zeta in E.
  set (X := mk2 4 2 (fun i j => fval _)) in E. set (Y := mk2 4 2 _) in E.
  unfold compute_boundary. unfold mbind at 1, mlift at 1. rewrite Hd. cbn [need]. unfold mbind at 1, mlift at 1. change (shape2 eye2) with (Ok (2%nat, 2%nat)). cbn [Nat.eqb].
  unfold mbind at 1. rewrite EN4, E. unfold mbind at 1, mlift at 1. eexists. eexists. exists Y. split; [reflexivity|]. split; [reflexivity|]. split; [reflexivity|].
  assert (EY : forall v j, Y.[v, j] = fval (nth 0 (nth v S []) SZero) * eye2.[0%nat, j] + fval (nth 1 (nth v S []) SZero) * eye2.[1%nat, j]).
  { intros v j. change (0 + fval (nth 0 (nth v S []) SZero) * eye2.[0%nat, j] + fval (nth 1 (nth v S []) SZero) * eye2.[1%nat, j] =
      fval (nth 0 (nth v S []) SZero) * eye2.[0%nat, j] + fval (nth 1 (nth v S []) SZero) * eye2.[1%nat, j]). ring. }
  apply sq_hull; [reflexivity| |].
  - intros v j Hv Hj. rewrite EY. destruct (proj1 (HS (nth v S [])) ltac:(apply nth_In; lia)) as (a & b & Es & Ha & Hb). rewrite Es. cbn [nth].
    destruct j as [|[|j]]; [| |lia]; unfold eye2; cbn [at_ mat_of mk2 nth]; destruct Ha as [->| ->], Hb as [->| ->]; simpl; lra.
  - intros a b Ha Hb.
    assert (exists sa, (sa = SPos \/ sa = SNeg) /\ fval sa = a) as (sa & Hsa & <-) by (destruct Ha as [->| ->]; [exists SPos|exists SNeg]; simpl; auto).
    assert (exists sb, (sb = SPos \/ sb = SNeg) /\ fval sb = b) as (sb & Hsb & <-) by (destruct Hb as [->| ->]; [exists SPos|exists SNeg]; simpl; auto).
    assert (IN : In [sa; sb] S) by (apply HS; eauto 10). destruct (In_nth S _ [] IN) as (v & Hv & Ev). exists v. split; [lia|]. rewrite !EY, Ev. unfold eye2. cbn [at_ mat_of mk2 nth]. split; ring.
Qed.
