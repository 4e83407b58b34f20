(** Facts about the model of subspaces.py: eigenpairs and estimators *)
From Coq Require Import String Reals Lra Lia List Arith ZArith Bool Permutation.
From Verif Require Import Prelude Py NumArr LinAlg Lsq Sorting Spectral M_Misc P_Misc M_RespSurf P_PolyTrain P_PolyFacts M_Gradients M_Subspaces.
Import ListNotations.
Open Scope R_scope.

Definition symmetric (m : nat) (C : nat -> nat -> R) : Prop :=
  forall i k, (i < m)%nat -> (k < m)%nat -> C i k = C k i.

(** entries of an array as a function *)
Definition ent (X : nd R) : nat -> nat -> R := fun i j => X.[i, j].

(** the symmetric matrix with the lower triangle of C *)
Definition lower (C : nat -> nat -> R) : nat -> nat -> R := fun i k => if Nat.leb k i then C i k else C k i.

Lemma lower_sym : forall C m, symmetric m (lower C).
Proof.
  intros C m i k Hi Hk. unfold lower. destruct (Nat.leb_spec k i), (Nat.leb_spec i k); auto; try lia.
  replace k with i by lia. reflexivity.
Qed.
Lemma lower_of_sym : forall C m, symmetric m C -> forall i k, (i < m)%nat -> (k < m)%nat -> lower C i k = C i k.
Proof. intros C m H i k Hi Hk. unfold lower. destruct (Nat.leb_spec k i); auto. Qed.

(** what LAPACK promises for np.linalg.eigh: C must be square, only its lower
    triangle is read, the answer is an orthonormal eigenbasis *)
Definition eigh_contract (eigh : nd R -> res (nd R * nd R)) : Prop :=
  forall C e V, eigh C = Ok (e, V) -> exists m, shape C = [m; m] /\ shape e = [m] /\ shape V = [m; m] /\ orthonormal m m (ent V) /\ eigcols m (lower (ent C)) (fun j => e.[j]) (ent V).

Definition eigh_total (eigh : nd R -> res (nd R * nd R)) : Prop :=
  forall m C, (0 < m)%nat -> shape C = [m; m] -> exists r, eigh C = Ok r.

(** a valid answer of sorted_eigh: signed eigenvalues [lam], magnitudes [e] *)
Record eigsorted (m : nat) (C : nat -> nat -> R) (e V : nd R) (lam : nat -> R) : Prop := {
  es_m : (0 < m)%nat;
  es_e : shape e = [m; 1%nat];
  es_V : shape V = [m; m];
  es_abs : forall j, (j < m)%nat -> e.[j, 0%nat] = Rabs (lam j);
  es_dec : decreasing m (fun j => e.[j, 0%nat]);
  es_orth : orthonormal m m (ent V);
  es_eig : eigcols m C lam (ent V);
  es_row0 : forall j, (j < m)%nat -> 0 <= V.[0%nat, j]
}.

(** matrix op column *)
Lemma bcast2_colr : forall A B C (f : A -> B -> C) X Y r c, shape X = [r; c] -> shape Y = [r; 1%nat] ->
  exists Z, bcast2 f X Y = Ok Z /\ shape Z = [r; c] /\
  forall i j, (i < r)%nat -> (j < c)%nat -> Z.[i, j] = f (X.[i, j]) (Y.[i, 0%nat]).
Proof.
  intros A B C f X Y r c HX HY. unfold bcast2. rewrite HX, HY.
  assert (E : bdim c 1 = Some c).
  { unfold bdim. destruct (Nat.eqb_spec c 1); [reflexivity|]. reflexivity. }
  unfold bdim at 1. rewrite E, Nat.eqb_refl.
  eexists; split; [reflexivity|]. split; [reflexivity|]. intros i j Hi Hj.
  rewrite at_mk2, !(bidx_ok c), !(bidx_ok r) by auto. reflexivity.
Qed.

Lemma rev_perm_lt : forall argsort l j, argsort_contract argsort -> (j < List.length l)%nat ->
  (nth j (rev (argsort l)) 0%nat < List.length l)%nat.
Proof.
  intros a l j H Hj. apply (argsort_In a); auto. apply in_rev, nth_In.
  rewrite rev_length, argsort_length; auto.
Qed.

Lemma rev_perm_inj : forall argsort l i j, argsort_contract argsort -> (i < List.length l)%nat -> (j < List.length l)%nat ->
  nth i (rev (argsort l)) 0%nat = nth j (rev (argsort l)) 0%nat -> i = j.
Proof.
  intros a l i j H Hi Hj E.
  apply (proj1 (NoDup_nth (rev (a l)) 0%nat)); auto; try (rewrite rev_length, argsort_length; auto).
  apply NoDup_rev, argsort_NoDup; auto.
Qed.

Lemma rev_sorted : forall argsort l i j, argsort_contract argsort -> (i <= j)%nat -> (j < List.length l)%nat ->
  nth (nth j (rev (argsort l)) 0%nat) l 0 <= nth (nth i (rev (argsort l)) 0%nat) l 0.
Proof.
  intros a l i j H Hij Hj.
  rewrite !rev_nth by (rewrite argsort_length; auto; lia). rewrite argsort_length by auto.
  destruct (Nat.eq_dec i j) as [->|N]; [lra|].
  destruct (H l) as [_ HS]. apply HS; lia.
Qed.

Lemma np_sign_cases : forall x, let s := if Req_EM_T (np_sign x) 0 then 1 else np_sign x in
  (s = 1 \/ s = -1) /\ 0 <= x * s.
Proof.
  intros x. unfold np_sign. destruct (Rlt_dec 0 x) as [H|H].
  - destruct (Req_EM_T 1 0); [lra|]. simpl. split; [auto|lra].
  - destruct (Rlt_dec x 0) as [H2|H2].
    + destruct (Req_EM_T (-1) 0); [lra|]. simpl. split; [auto|lra].
    + destruct (Req_EM_T 0 0); [|lra]. simpl. split; [auto|lra].
Qed.

(** eigsorted only looks at the entries inside the matrix *)
Lemma eigsorted_ext : forall m C C' e V lam, (forall i k, (i < m)%nat -> (k < m)%nat -> C i k = C' i k) ->
  eigsorted m C e V lam -> eigsorted m C' e V lam.
Proof.
  intros m C C' e V lam HC H. destruct H. constructor; auto.
  intros i j Hi Hj. rewrite <- es_eig0 by auto. apply sumf_ext; intros. now rewrite HC.
Qed.

Section SortedEigh.
  Variable eigh : nd R -> res (nd R * nd R).
  Variable argsort : list R -> list nat.
  Hypothesis Heigh : eigh_contract eigh.
  Hypothesis Hsort : argsort_contract argsort.

  Lemma sorted_eigh_gen : forall C e V, sorted_eigh eigh argsort C = Ok (e, V) ->
    exists m lam, shape C = [m; m] /\ eigsorted m (lower (ent C)) e V lam.
  Proof.
    intros C e V H. unfold sorted_eigh in H.
    apply rbind_ok in H. destruct H as ((e0 & V0) & HE & H).
    destruct (Heigh C e0 V0 HE) as (m & HC & He0 & HV0 & HO & HG).
    rewrite (nrows_shape2 _ V0 m m HV0) in H. assert (Hn : nrows e0 = m) by (unfold nrows; now rewrite He0).
    rewrite Hn in H. set (l := map (fun i => Rabs (e0.[i])) (seq 0 m)) in *.
    assert (Hl : List.length l = m) by (unfold l; now rewrite map_length, seq_length).
    destruct (Nat.eqb_spec m 0) as [|Hm]; [discriminate|].
    rewrite rev_length, argsort_length, Hl in H by auto. inversion H; subst e V; clear H.
    set (p := fun j => nth j (rev (argsort l)) 0%nat).
    assert (Hp : forall j, (j < m)%nat -> (p j < m)%nat).
    { intros j Hj. unfold p. apply Nat.lt_le_trans with (List.length l); [|lia]. apply rev_perm_lt; auto. now rewrite Hl. }
    set (s := fun j => if Req_EM_T (np_sign (V0.[0%nat, p j])) 0 then 1 else np_sign (V0.[0%nat, p j])).
    assert (Hsg : forall j, (s j = 1 \/ s j = -1) /\ 0 <= V0.[0%nat, p j] * s j) by (intros; apply np_sign_cases).
    assert (Hs2 : forall j, s j * s j = 1) by (intros j; destruct (Hsg j) as [[E|E] _]; rewrite E; ring).
    exists m, (fun j => e0.[p j]). split; auto. constructor; auto; try lia.
    - intros j Hj. rewrite at_mk2. fold (p j). unfold l. now rewrite nth_map_seq by auto.
    - intros i j Hij Hj. rewrite !at_mk2. apply rev_sorted; auto. now rewrite Hl.
    - intros a b Ha Hb. unfold ent. cbn [at_ mk2 nth]. fold (p a) (p b) (s a) (s b).
      rewrite (sumf_ext m _ (fun i => (V0.[i, p a] * V0.[i, p b]) * (s a * s b))) by (intros; ring).
      rewrite sumf_scal_r.
      match goal with |- ?X * _ = _ => assert (HX : X = kron_delta (p a) (p b)) by (apply (HO (p a) (p b)); auto) end.
      rewrite HX. destruct (Nat.eq_dec a b) as [->|N].
      + rewrite !kd_same, Hs2. ring.
      + rewrite !kd_diff; auto; [ring|]. intro E. apply N. apply (rev_perm_inj argsort l); auto; now rewrite Hl.
    - intros i j Hi Hj. unfold ent at 2 3. cbn [at_ mk2 nth]. fold (p j) (s j).
      rewrite (sumf_ext m _ (fun k => lower (ent C) i k * ent V0 k (p j) * s j)) by (intros; unfold ent; ring).
      rewrite sumf_scal_r, (HG i (p j)) by auto. unfold ent. ring.
    - intros j Hj. cbn [at_ mk2 nth]. apply (proj2 (Hsg j)).
  Qed.

  Lemma sorted_eigh_spec : forall m C e V, shape C = [m; m] -> symmetric m (ent C) ->
    sorted_eigh eigh argsort C = Ok (e, V) -> exists lam, eigsorted m (ent C) e V lam.
  Proof.
    intros m C e V HC Hs H. destruct (sorted_eigh_gen C e V H) as (m' & lam & HC' & HE).
    rewrite HC in HC'. injection HC' as <-. exists lam. apply (eigsorted_ext m (lower (ent C))); auto.
    apply lower_of_sym; auto.
  Qed.

  Lemma sorted_eigh_returns : forall m C, eigh_total eigh -> (0 < m)%nat -> shape C = [m; m] ->
    exists r, sorted_eigh eigh argsort C = Ok r.
  Proof.
    intros m C HT Hm HC. destruct (HT m C Hm HC) as ((e0 & V0) & HE).
    destruct (Heigh C e0 V0 HE) as (m' & HC' & He0 & HV0 & _). rewrite HC in HC'. injection HC' as <-.
    unfold sorted_eigh. rewrite HE. cbn [rbind].
    rewrite (nrows_shape2 _ V0 m m HV0). destruct (Nat.eqb_spec m 0); [lia|]. eauto.
  Qed.
End SortedEigh.

(** signed eigenvalues of a positive semidefinite matrix are the magnitudes *)
Lemma eigsorted_psd : forall m C e V lam, eigsorted m C e V lam -> psd m C ->
  forall j, (j < m)%nat -> lam j = e.[j, 0%nat].
Proof.
  intros m C e V lam H HP j Hj. rewrite (es_abs _ _ _ _ _ H j Hj).
  rewrite Rabs_pos_eq; auto. rewrite <- (quad_eigvec m C lam (ent V) (es_orth _ _ _ _ _ H) (es_eig _ _ _ _ _ H) j Hj).
  apply HP.
Qed.

Lemma eigsorted_psd_eig : forall m C e V lam, eigsorted m C e V lam -> psd m C ->
  eigcols m C (fun j => e.[j, 0%nat]) (ent V).
Proof.
  intros m C e V lam H HP i j Hi Hj. rewrite (es_eig _ _ _ _ _ H i j Hi Hj).
  now rewrite (eigsorted_psd _ _ _ _ _ H HP j Hj).
Qed.

Lemma eigsorted_nonneg : forall m C e V lam, eigsorted m C e V lam -> forall j, (j < m)%nat -> 0 <= e.[j, 0%nat].
Proof. intros m C e V lam H j Hj. rewrite (es_abs _ _ _ _ _ H j Hj). apply Rabs_pos. Qed.

Lemma eigsorted_sign : forall m C e V lam, eigsorted m C e V lam -> forall j, (j < m)%nat ->
  lam j = e.[j, 0%nat] \/ lam j = - e.[j, 0%nat].
Proof.
  intros m C e V lam H j Hj. rewrite (es_abs _ _ _ _ _ H j Hj).
  unfold Rabs. destruct (Rcase_abs (lam j)); lra.
Qed.

(** square of a matrix: same eigenvectors, squared eigenvalues *)
Lemma eigcols_sq : forall m C lam V, eigcols m C lam V ->
  eigcols m (fun i k => sumf m (fun l => C i l * C l k)) (fun j => lam j * lam j) V.
Proof.
  intros m C lam V H i j Hi Hj.
  rewrite (sumf_ext m _ (fun k => sumf m (fun l => C i l * (C l k * V k j)))).
  2: { intros k Hk. rewrite <- sumf_scal_r. apply sumf_ext; intros; ring. }
  rewrite sumf_swap.
  rewrite (sumf_ext m _ (fun l => lam j * (C i l * V l j))).
  2: { intros l Hl. rewrite sumf_scal_l, (H l j) by auto. ring. }
  rewrite sumf_scal_l, (H i j) by auto. ring.
Qed.

(** the sorted magnitudes do not depend on the eigensolver or the sort *)
Lemma eigsorted_unique : forall m C e V lam e' V' lam', eigsorted m C e V lam -> eigsorted m C e' V' lam' ->
  forall j, (j < m)%nat -> e.[j, 0%nat] = e'.[j, 0%nat].
Proof.
  intros m C e V lam e' V' lam' H H' j Hj.
  assert (A : forall e V lam, eigsorted m C e V lam ->
    eigcols m (fun i k => sumf m (fun l => C i l * C l k)) (fun j => e.[j, 0%nat] * e.[j, 0%nat]) (ent V) /\
    decreasing m (fun j => e.[j, 0%nat] * e.[j, 0%nat])).
  { intros e1 V1 lam1 H1. split.
    - intros a b Ha Hb. rewrite (eigcols_sq m C lam1 (ent V1) (es_eig _ _ _ _ _ H1) a b Ha Hb).
      f_equal. rewrite (es_abs _ _ _ _ _ H1 b Hb). rewrite <- Rabs_mult. symmetry. apply Rabs_pos_eq. nra.
    - intros a b Hab Hb. assert (E := es_dec _ _ _ _ _ H1 a b Hab Hb). simpl in E.
      assert (P := eigsorted_nonneg _ _ _ _ _ H1 b Hb). apply Rmult_le_compat; auto. }
  destruct (A _ _ _ H) as [E1 D1]. destruct (A _ _ _ H') as [E2 D2].
  assert (E := sorted_eigenvalues_unique m _ _ _ _ _ (es_orth _ _ _ _ _ H) E1 D1 (es_orth _ _ _ _ _ H') E2 D2 j Hj).
  simpl in E. assert (P := eigsorted_nonneg _ _ _ _ _ H j Hj). assert (P' := eigsorted_nonneg _ _ _ _ _ H' j Hj).
  apply Rsqr_inj; auto.
Qed.

(** ** The matrix of active_subspace *)

(** the weighted average of outer products of gradients *)
Definition gradC (M : nat) (D : nat -> nat -> R) (w : nat -> R) (i k : nat) : R :=
  sumf M (fun s => w s * (D s i * D s k)).

Lemma gradC_sym : forall M D w m, symmetric m (gradC M D w).
Proof. intros M D w m i k Hi Hk. apply sumf_ext; intros; ring. Qed.

Lemma gradC_quad : forall M m D w x, quad m (gradC M D w) x = sumf M (fun s => w s * (dot m (D s) x * dot m (D s) x)).
Proof.
  intros M m D w x. unfold quad, gradC.
  transitivity (sumf m (fun i => sumf M (fun s => sumf m (fun k => w s * ((D s i * x i) * (D s k * x k)))))).
  { apply sumf_ext; intros i Hi. rewrite sumf_swap. apply sumf_ext; intros k Hk.
    rewrite <- sumf_scal_l, <- sumf_scal_r. apply sumf_ext; intros; ring. }
  rewrite sumf_swap. apply sumf_ext; intros s Hs. unfold dot. rewrite sumf_mul, <- sumf_scal_l.
  apply sumf_ext; intros i Hi. rewrite <- sumf_scal_l. apply sumf_ext; intros; ring.
Qed.

Lemma gradC_psd : forall M m D w, (forall s, (s < M)%nat -> 0 <= w s) -> psd m (gradC M D w).
Proof.
  intros M m D w Hw x. rewrite gradC_quad. apply sumf_nonneg; intros s Hs.
  apply Rmult_le_pos; [auto|nra].
Qed.

Section Active.
  Variable eigh : nd R -> res (nd R * nd R).
  Variable argsort : list R -> list nat.
  Hypothesis Heigh : eigh_contract eigh.
  Hypothesis Hsort : argsort_contract argsort.

  Lemma active_matrix : forall M m df weights, shape df = [M; m] -> shape weights = [M; 1%nat] ->
    exists C, shape C = [m; m] /\
      (forall i k, (i < m)%nat -> (k < m)%nat -> C.[i, k] = gradC M (ent df) (fun s => weights.[s, 0%nat]) i k) /\
      active_subspace eigh argsort df weights = sorted_eigh eigh argsort C.
  Proof.
    intros M m df weights Hd Hw. unfold active_subspace.
    rewrite (process_inputs_eq _ df M m Hd). cbn [rbind].
    destruct (bcast2_colr _ _ _ Rmult df weights M m Hd Hw) as (dw & H1 & H2 & H3).
    rewrite H1. cbn [rbind].
    rewrite (mdot_ok (tr df) dw m M m).
    2: { unfold tr. rewrite shape_mk2, (nrows_shape2 _ df M m Hd), (ncols_shape2 _ df M m Hd). reflexivity. }
    2: exact H2.
    cbn [rbind]. eexists (mk2 m m _). split; [reflexivity|]. split; [|reflexivity].
    intros i k Hi Hk. rewrite at_mk2. apply sumf_ext; intros s Hs. rewrite H3 by auto.
    unfold tr, ent. rewrite at_mk2. ring.
  Qed.

  Lemma active_subspace_spec : forall M m df weights e V, shape df = [M; m] -> shape weights = [M; 1%nat] ->
    active_subspace eigh argsort df weights = Ok (e, V) ->
    exists lam, eigsorted m (gradC M (ent df) (fun s => weights.[s, 0%nat])) e V lam.
  Proof.
    intros M m df weights e V Hd Hw H. destruct (active_matrix M m df weights Hd Hw) as (C & HC & HCE & HA).
    rewrite HA in H.
    assert (HSym : symmetric m (ent C)).
    { intros i k Hi Hk. unfold ent. rewrite !HCE by auto. apply (gradC_sym M _ _ m); auto. }
    destruct (sorted_eigh_spec eigh argsort Heigh Hsort m C e V HC HSym H) as (lam & HL).
    exists lam. apply (eigsorted_ext m (ent C)); auto.
  Qed.

  Lemma active_subspace_returns : forall M m df weights, eigh_total eigh -> (0 < m)%nat ->
    shape df = [M; m] -> shape weights = [M; 1%nat] ->
    exists r, active_subspace eigh argsort df weights = Ok r.
  Proof.
    intros M m df weights HT Hm Hd Hw. destruct (active_matrix M m df weights Hd Hw) as (C & HC & HCE & HA).
    rewrite HA. apply (sorted_eigh_returns eigh argsort Heigh m); auto.
  Qed.
End Active.
