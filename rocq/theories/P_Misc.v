(** Proofs about utils/misc.py *)
From Coq Require Import Reals Lra Lia List Arith ZArith String Bool Permutation.
From Verif Require Import Prelude Py NumArr LinAlg M_Misc.
Import ListNotations.
Open Scope R_scope.

(** ** process_inputs *)

Lemma process_inputs_eq : forall A (X : nd A) M m, shape X = [M; m] -> process_inputs X = Ok (X, M, m).
Proof. intros A X M m H. unfold process_inputs. rewrite H. rewrite <- H, reshape_id. reflexivity. Qed.

Lemma process_inputs_ok : forall A (X : nd A) M m, shape X = [M; m] ->
  exists X', process_inputs X = Ok (X', M, m) /\ X' === X.
Proof. intros A X M m H. exists X. split; [now apply process_inputs_eq|apply eqnd_refl]. Qed.

Lemma process_inputs_iff : forall A (X : nd A),
  (exists M m X', process_inputs X = Ok (X', M, m) /\ shape X = [M; m] /\ X' === X) <-> rank X = 2%nat.
Proof.
  intros A X. unfold rank. split.
  - intros (M & m & X' & _ & H & _). now rewrite H.
  - intros H. destruct (shape X) as [|M [|m [|k t]]] eqn:E; try discriminate.
    destruct (process_inputs_ok A X M m E) as (X' & H1 & H2). exists M, m, X'. auto.
Qed.

Lemma process_inputs_err : forall A (X : nd A), rank X <> 2%nat -> process_inputs X = Err ValueError.
Proof.
  intros A X H. unfold process_inputs, rank in *.
  destruct (shape X) as [|M [|m [|k t]]]; auto. now contradiction H.
Qed.

Lemma process_inputs_inv : forall A (X X' : nd A) M m, process_inputs X = Ok (X', M, m) ->
  shape X = [M; m] /\ X' === X.
Proof.
  intros A X X' M m H. destruct (Nat.eq_dec (rank X) 2) as [E|E].
  - apply process_inputs_iff in E. destruct E as (M1 & m1 & X1 & H1 & H2 & H3).
    rewrite H in H1. inversion H1; subst. auto.
  - rewrite process_inputs_err in H by auto. discriminate.
Qed.

Lemma process_inputs_outputs_ok : forall A (X f : nd A) M m, shape X = [M; m] -> shape f = [M; 1%nat] ->
  exists X' f', process_inputs_outputs X f = Ok (X', f', M, m) /\ X' === X /\ f' === f.
Proof.
  intros A X f M m HX Hf. unfold process_inputs_outputs.
  destruct (process_inputs_ok A X M m HX) as (X' & H1 & H2). rewrite H1. simpl. rewrite Hf.
  rewrite Nat.eqb_refl. simpl.
  destruct (reshape_same A f) as (Y & HY & E). rewrite Hf in HY. rewrite HY. simpl.
  exists X', Y. auto.
Qed.

Lemma process_inputs_outputs_inv : forall A (X f X' f' : nd A) M m,
  process_inputs_outputs X f = Ok (X', f', M, m) ->
  shape X = [M; m] /\ shape f = [M; 1%nat] /\ X' === X /\ f' === f.
Proof.
  intros A X f X' f' M m H. unfold process_inputs_outputs in H.
  apply rbind_ok in H. destruct H as (((X1, M1), m1) & H1 & H).
  apply process_inputs_inv in H1. destruct H1 as (HX & EX).
  destruct (shape f) as [|Mf [|mf [|k t]]] eqn:Ef; try discriminate.
  destruct (Nat.eqb_spec Mf M1); simpl in H; [|discriminate].
  destruct (Nat.eqb_spec mf 1); simpl in H; [|discriminate]. subst.
  destruct (reshape_same A f) as (Y & HY & E). rewrite Ef in HY. rewrite HY in H. simpl in H.
  inversion H; subst. auto.
Qed.

Lemma process_inputs_outputs_err : forall A (X f : nd A),
  ~ (exists M m, shape X = [M; m] /\ shape f = [M; 1%nat]) -> is_err (process_inputs_outputs X f).
Proof.
  intros A X f H. destruct (process_inputs_outputs X f) as [(((X', f'), M), m)|e] eqn:E.
  - apply process_inputs_outputs_inv in E. exfalso. apply H. exists M, m. tauto.
  - exists e; auto.
Qed.

(** ** BoundedNormalizer *)

(** j-th entry of an array in row-major order *)
Definition flat {A} (X : nd A) (j : nat) : A := at_ X (unravel (shape X) j).

Lemma reshape_row : forall A (X : nd A), exists Y,
  reshape [1%nat; size X] X = Ok Y /\ shape Y = [1%nat; size X] /\
  forall j, (j < size X)%nat -> Y.[0%nat, j] = flat X j.
Proof.
  intros A X. destruct (reshape_ok A [1%nat; size X] X) as (Y & H1 & H2 & H3); [simpl; lia|].
  exists Y. split; auto. split; auto. intros j Hj. rewrite H3 by (repeat constructor; lia).
  unfold flat. do 2 f_equal. simpl. lia.
Qed.

Lemma bounded_init_ok : forall lb ub : nd R, size ub = size lb -> exists s,
  bounded_init (amap Fin lb) (amap Fin ub) = Ok s /\
  shape (bn_lb s) = [1%nat; size lb] /\ shape (bn_ub s) = [1%nat; size lb] /\
  forall j, (j < size lb)%nat -> (bn_lb s).[0%nat, j] = Fin (flat lb j) /\ (bn_ub s).[0%nat, j] = Fin (flat ub j).
Proof.
  intros lb ub H. unfold bounded_init.
  destruct (reshape_row _ (amap Fin lb)) as (l & L1 & L2 & L3).
  destruct (reshape_row _ (amap Fin ub)) as (u & U1 & U2 & U3).
  change (size (amap Fin lb)) with (size lb) in *. change (size (amap Fin ub)) with (size ub) in *.
  rewrite L1. simpl. rewrite H in *. rewrite U1. simpl. eexists. split; [reflexivity|]. simpl.
  repeat split; auto.
  - rewrite L3 by auto. reflexivity.
  - rewrite U3 by auto. reflexivity.
Qed.

Section BN.
  Variables (s : BoundedNormalizer) (m : nat) (lb ub : nat -> R).
  Hypothesis Hlb : shape (bn_lb s) = [1%nat; m].
  Hypothesis Hub : shape (bn_ub s) = [1%nat; m].
  Hypothesis Elb : forall j, (j < m)%nat -> (bn_lb s).[0%nat, j] = Fin (lb j).
  Hypothesis Eub : forall j, (j < m)%nat -> (bn_ub s).[0%nat, j] = Fin (ub j).

  Lemma width_ok : exists w, bcast2 xsub (bn_ub s) (bn_lb s) = Ok w /\ shape w = [1%nat; m] /\
    forall j, (j < m)%nat -> w.[0%nat, j] = Fin (ub j - lb j).
  Proof.
    destruct (bcast2_same _ _ _ xsub (bn_ub s) (bn_lb s) 1 m Hub Hlb) as (w & W1 & W2 & W3).
    exists w. repeat split; auto. intros j Hj. rewrite W3 by auto. rewrite Elb, Eub by auto. reflexivity.
  Qed.

  Lemma bounded_normalize_ok : forall (X : nd xr) M, shape X = [M; m] ->
    exists Y, bounded_normalize s X = Ok Y /\ shape Y = [M; m] /\
    forall i j, (i < M)%nat -> (j < m)%nat ->
      Y.[i, j] = xsub (xdiv (xmul (Fin 2) (xsub (X.[i, j]) (Fin (lb j)))) (Fin (ub j - lb j))) (Fin 1).
  Proof.
    intros X M HX. unfold bounded_normalize.
    destruct (process_inputs_ok _ X M m HX) as (X' & E1 & [S1 Q1]). rewrite E1. simpl rbind.
    rewrite HX in S1.
    destruct (bcast2_row _ _ _ xsub X' (bn_lb s) M m S1 Hlb) as (d & D1 & D2 & D3). rewrite D1. simpl rbind.
    destruct width_ok as (w & W1 & W2 & W3). rewrite W1. simpl rbind.
    destruct (bcast2_row _ _ _ xdiv (amap (xmul (Fin 2)) d) w M m D2 W2) as (q & P1 & P2 & P3).
    rewrite P1. simpl rbind. eexists. split; [reflexivity|]. split; [exact P2|].
    intros i j Hi Hj. unfold amap; simpl at_. rewrite P3 by auto. simpl at_. rewrite D3 by auto.
    rewrite W3, Elb by auto.
    rewrite (eqnd_at2 _ X' X M m i j (conj (eq_trans S1 (eq_sym HX)) Q1) S1 Hi Hj). reflexivity.
  Qed.

  Lemma bounded_unnormalize_ok : forall (X : nd xr) M, shape X = [M; m] ->
    exists Y, bounded_unnormalize s X = Ok Y /\ shape Y = [M; m] /\
    forall i j, (i < M)%nat -> (j < m)%nat ->
      Y.[i, j] = xadd (xdiv (xmul (Fin (ub j - lb j)) (xadd (X.[i, j]) (Fin 1))) (Fin 2)) (Fin (lb j)).
  Proof.
    intros X M HX. unfold bounded_unnormalize.
    destruct (process_inputs_ok _ X M m HX) as (X' & E1 & [S1 Q1]). rewrite E1. simpl rbind.
    rewrite HX in S1.
    destruct width_ok as (w & W1 & W2 & W3). rewrite W1. simpl rbind.
    (* w is 1-by-m on the left *)
    assert (HP : exists p, bcast2 xmul w (amap (fun a => xadd a (Fin 1)) X') = Ok p /\ shape p = [M; m] /\
       forall i j, (i < M)%nat -> (j < m)%nat -> p.[i, j] = xmul (w.[0%nat, j]) (xadd (X'.[i, j]) (Fin 1))).
    { unfold bcast2. rewrite W2. unfold amap at 1 2. simpl shape. rewrite S1.
      assert (E : bdim 1 M = Some M) by (unfold bdim; destruct M as [|[|M]]; reflexivity).
      unfold bdim at 2. rewrite E, Nat.eqb_refl. eexists. split; [reflexivity|]. split; [reflexivity|].
      intros i j Hi Hj. rewrite at_mk2, !(bidx_ok m), (bidx_ok M) by auto. reflexivity. }
    destruct HP as (p & P1 & P2 & P3). rewrite P1. simpl rbind.
    destruct (bcast2_row _ _ _ xadd (amap (fun a => xdiv a (Fin 2)) p) (bn_lb s) M m P2 Hlb) as (q & Q1' & Q2 & Q3).
    exists q. split; [exact Q1'|]. split; [exact Q2|]. intros i j Hi Hj.
    rewrite Q3 by auto. unfold amap; simpl at_. rewrite P3, W3, Elb by auto.
    rewrite (eqnd_at2 _ X' X M m i j (conj (eq_trans S1 (eq_sym HX)) Q1) S1 Hi Hj). reflexivity.
  Qed.
End BN.

Lemma bounded_round_trip : forall (lb ub X : nd R) M s,
  size ub = size lb -> shape X = [M; size lb] ->
  (forall j, (j < size lb)%nat -> flat lb j <> flat ub j) ->
  bounded_init (amap Fin lb) (amap Fin ub) = Ok s ->
  exists Y Z Y' Z',
    bounded_normalize s (amap Fin X) = Ok Y /\ bounded_unnormalize s Y = Ok Z /\ Z === amap Fin X /\
    bounded_unnormalize s (amap Fin X) = Ok Y' /\ bounded_normalize s Y' = Ok Z' /\ Z' === amap Fin X.
Proof.
  intros lb ub X M s Hsz HX Hne Hs.
  destruct (bounded_init_ok lb ub Hsz) as (s' & E & S1 & S2 & S3). rewrite Hs in E. inversion E; subst s'. clear E.
  set (m := size lb) in *.
  assert (EL : forall j, (j < m)%nat -> (bn_lb s).[0%nat, j] = Fin (flat lb j)) by (intros; now apply S3).
  assert (EU : forall j, (j < m)%nat -> (bn_ub s).[0%nat, j] = Fin (flat ub j)) by (intros; now apply S3).
  destruct (bounded_normalize_ok s m _ _ S1 S2 EL EU (amap Fin X) M HX) as (Y & Y1 & Y2 & Y3).
  destruct (bounded_unnormalize_ok s m _ _ S1 S2 EL EU Y M Y2) as (Z & Z1 & Z2 & Z3).
  destruct (bounded_unnormalize_ok s m _ _ S1 S2 EL EU (amap Fin X) M HX) as (Y' & Y1' & Y2' & Y3').
  destruct (bounded_normalize_ok s m _ _ S1 S2 EL EU Y' M Y2') as (Z' & Z1' & Z2' & Z3').
  exists Y, Z, Y', Z'. repeat split; auto; try congruence.
  - rewrite Z2. symmetry. exact HX.
  - intros ix Hix. rewrite Z2 in Hix.
    inversion Hix as [|i ? ix1 ? Hi Hr1]; subst. inversion Hr1 as [|j ? ix2 ? Hj Hr2]; subst.
    inversion Hr2; subst. specialize (Hne j Hj).
    rewrite Z3, Y3 by auto. unfold amap; simpl at_. cbn [xsub xneg xadd xmul].
    rewrite xdiv_fin by lra. cbn [xsub xneg xadd xmul]. rewrite xdiv_fin by lra. cbn [xsub xneg xadd xmul].
    f_equal. field. lra.
  - rewrite Z2'. symmetry. exact HX.
  - intros ix Hix. rewrite Z2' in Hix.
    inversion Hix as [|i ? ix1 ? Hi Hr1]; subst. inversion Hr1 as [|j ? ix2 ? Hj Hr2]; subst.
    inversion Hr2; subst. specialize (Hne j Hj).
    rewrite Z3', Y3' by auto. unfold amap; simpl at_. cbn [xsub xneg xadd xmul].
    rewrite xdiv_fin by lra. cbn [xsub xneg xadd xmul]. rewrite xdiv_fin by lra. cbn [xsub xneg xadd xmul].
    f_equal. field. lra.
Qed.

Lemma bounded_range : forall (lb ub X : nd R) M s,
  size ub = size lb -> shape X = [M; size lb] ->
  bounded_init (amap Fin lb) (amap Fin ub) = Ok s ->
  exists Y Y',
    bounded_normalize s (amap Fin X) = Ok Y /\ shape Y = shape X /\
    bounded_unnormalize s (amap Fin X) = Ok Y' /\ shape Y' = shape X /\
    forall i j, (i < M)%nat -> (j < size lb)%nat ->
      (flat lb j < flat ub j -> exists y, Y.[i, j] = Fin y /\
          (flat lb j <= X.[i, j] <= flat ub j <-> -1 <= y <= 1) /\
          (X.[i, j] = flat lb j <-> y = -1) /\ (X.[i, j] = flat ub j <-> y = 1)) /\
      (flat lb j < flat ub j -> exists y, Y'.[i, j] = Fin y /\
          (-1 <= X.[i, j] <= 1 <-> flat lb j <= y <= flat ub j) /\
          (X.[i, j] = -1 <-> y = flat lb j) /\ (X.[i, j] = 1 <-> y = flat ub j)) /\
      (flat lb j = flat ub j -> forall y, Y.[i, j] <> Fin y).
Proof.
  intros lb ub X M s Hsz HX Hs.
  destruct (bounded_init_ok lb ub Hsz) as (s' & E & S1 & S2 & S3). rewrite Hs in E. inversion E; subst s'. clear E.
  set (m := size lb) in *.
  assert (EL : forall j, (j < m)%nat -> (bn_lb s).[0%nat, j] = Fin (flat lb j)) by (intros; now apply S3).
  assert (EU : forall j, (j < m)%nat -> (bn_ub s).[0%nat, j] = Fin (flat ub j)) by (intros; now apply S3).
  destruct (bounded_normalize_ok s m _ _ S1 S2 EL EU (amap Fin X) M HX) as (Y & Y1 & Y2 & Y3).
  destruct (bounded_unnormalize_ok s m _ _ S1 S2 EL EU (amap Fin X) M HX) as (Y' & Y1' & Y2' & Y3').
  exists Y, Y'. split; [exact Y1|]. split; [now rewrite Y2|]. split; [exact Y1'|]. split; [now rewrite Y2'|].
  intros i j Hi Hj. specialize (Y3 i j Hi Hj). specialize (Y3' i j Hi Hj).
  unfold amap in Y3, Y3'; simpl at_ in Y3, Y3'. cbn [xsub xneg xadd xmul] in Y3, Y3'.
  rewrite xdiv_fin in Y3' by lra. cbn [xadd] in Y3'.
  set (l := flat lb j) in *. set (u := flat ub j) in *. set (x := X.[i, j]) in *.
  split; [|split].
  - intros H. rewrite xdiv_fin in Y3 by lra. cbn [xsub xneg xadd] in Y3.
    match type of Y3 with _ = Fin ?e => exists e; split; [exact Y3|];
      assert (T2 : 2 * (x - l) = (e + 1) * (u - l)) by (field; lra); revert T2; generalize e end.
    intros t T2. repeat split; intros; nra.
  - intros H.
    match type of Y3' with _ = Fin ?e => exists e; split; [exact Y3'|];
      assert (T2 : 2 * (e - l) = (x + 1) * (u - l)) by field; revert T2; generalize e end.
    intros t T2. repeat split; intros; nra.
  - intros H y. rewrite Y3. replace (u - l) with 0 by lra.
    destruct (xdiv_zero (2 * (x + - l))) as (a & A1 & A2). rewrite A1.
    destruct a as [r| | |]; [now elim (A2 r)|..]; discriminate.
Qed.

(** ** UnboundedNormalizer *)

(** what numpy.linalg.cholesky returns: lower triangular, positive diagonal,
    L L^T = C *)
Definition chol_factor (m : nat) (C L : nd R) : Prop :=
  shape L = [m; m] /\
  (forall i j, (i < j)%nat -> (j < m)%nat -> L.[i, j] = 0) /\
  (forall i, (i < m)%nat -> 0 < L.[i, i]) /\
  forall i j, (i < m)%nat -> (j < m)%nat -> sumf m (fun k => L.[i, k] * L.[j, k]) = C.[i, j].

(** what numpy.linalg.solve does for a square, nonsingular matrix *)
Definition nonsingular (m : nat) (L : nd R) : Prop :=
  forall x, (forall i, (i < m)%nat -> sumf m (fun k => L.[i, k] * x k) = 0) -> forall i, (i < m)%nat -> x i = 0.
Definition solve_contract (solve : nd R -> nd R -> res (nd R)) : Prop :=
  forall m p L B, shape L = [m; m] -> shape B = [m; p] -> nonsingular m L ->
  exists V, solve L B = Ok V /\ shape V = [m; p] /\
  forall i j, (i < m)%nat -> (j < p)%nat -> sumf m (fun k => L.[i, k] * V.[k, j]) = B.[i, j].

Lemma chol_nonsingular : forall m C L, chol_factor m C L -> nonsingular m L.
Proof.
  intros m C L (HS & HT & HD & _) x H.
  assert (P : forall n i, (i <= n)%nat -> (i < m)%nat -> x i = 0).
  { induction n as [|n IH]; intros i Hi Him.
    - replace i with O in * by lia. specialize (H O Him).
      rewrite (sumf_single m O) in H; auto.
      + specialize (HD O Him). nra.
      + intros k Hk Hk0. rewrite HT by lia. ring.
    - destruct (Nat.eq_dec i (S n)) as [->|]; [|apply IH; lia].
      specialize (H (S n) Him). rewrite (sumf_single m (S n)) in H; auto.
      + specialize (HD (S n) Him). nra.
      + intros k Hk Hk0. destruct (Nat.lt_ge_cases k (S n)).
        * rewrite (IH k) by lia. ring.
        * rewrite HT by lia. ring. }
  intros i Hi. eapply P; eauto.
Qed.

Section UN.
  Variables (cholesky : nd R -> res (nd R)) (solve : nd R -> nd R -> res (nd R)).
  Variables (m : nat) (mu C : nd R) (s : UnboundedNormalizer).
  Hypothesis Hmu : size mu = m.
  Hypothesis Hchol : forall L, cholesky C = Ok L -> chol_factor m C L.
  Hypothesis Hsolve : solve_contract solve.
  Hypothesis Hs : unbounded_init cholesky mu C = Ok s.

  Lemma un_init : shape (un_mu s) = [1%nat; m] /\ (forall j, (j < m)%nat -> (un_mu s).[0%nat, j] = flat mu j) /\ chol_factor m C (un_L s).
  Proof.
    unfold unbounded_init in Hs. destruct (reshape_row _ mu) as (mu' & A1 & A2 & A3).
    rewrite A1 in Hs. simpl in Hs. destruct (cholesky C) as [L|] eqn:E; [|discriminate].
    simpl in Hs. inversion Hs; subst s. simpl. rewrite Hmu in A2, A3. auto.
  Qed.

  Lemma unnorm_ok : forall X M, shape X = [M; m] -> exists Y,
    unbounded_unnormalize s X = Ok Y /\ shape Y = [M; m] /\
    forall i j, (i < M)%nat -> (j < m)%nat ->
      Y.[i, j] = sumf m (fun k => X.[i, k] * (un_L s).[j, k]) + flat mu j.
  Proof.
    intros X M HX. destruct un_init as (S1 & S2 & (L1 & L2 & L3 & L4)).
    unfold unbounded_unnormalize.
    destruct (process_inputs_ok _ X M m HX) as (X' & E1 & [T1 Q1]). rewrite E1. simpl rbind.
    assert (HX' : shape X' = [M; m]) by congruence.
    assert (HT : shape (tr (un_L s)) = [m; m]).
    { unfold tr. rewrite (ncols_shape2 _ _ _ _ L1), (nrows_shape2 _ _ _ _ L1). reflexivity. }
    rewrite (mdot_ok X' (tr (un_L s)) M m m HX' HT). simpl rbind.
    match goal with |- context [bcast2 Rplus ?P _] =>
      destruct (bcast2_row _ _ _ Rplus P (un_mu s) M m eq_refl S1) as (Y & Y1 & Y2 & Y3) end.
    eexists. split; [exact Y1|]. split; [exact Y2|]. intros i j Hi Hj.
    rewrite Y3 by auto. rewrite at_mk2, S2 by auto. f_equal. apply sumf_ext; intros k Hk.
    rewrite (eqnd_at2 _ X' X M m i k (conj T1 Q1) HX' Hi Hk). reflexivity.
  Qed.

  Lemma norm_ok : forall X M, shape X = [M; m] -> exists Y,
    unbounded_normalize solve s X = Ok Y /\ shape Y = [M; m] /\
    forall i j, (i < M)%nat -> (j < m)%nat ->
      sumf m (fun k => (un_L s).[j, k] * Y.[i, k]) = X.[i, j] - flat mu j.
  Proof.
    intros X M HX. destruct un_init as (S1 & S2 & CF). destruct CF as (L1 & L2 & L3 & L4) eqn:ECF.
    unfold unbounded_normalize.
    destruct (process_inputs_ok _ X M m HX) as (X' & E1 & [T1 Q1]). rewrite E1. simpl rbind.
    assert (HX' : shape X' = [M; m]) by congruence.
    destruct (bcast2_row _ _ _ Rminus X' (un_mu s) M m HX' S1) as (X0 & X1 & X2 & X3).
    rewrite X1. simpl rbind.
    assert (HT : shape (tr X0) = [m; M]).
    { unfold tr. rewrite (ncols_shape2 _ _ _ _ X2), (nrows_shape2 _ _ _ _ X2). reflexivity. }
    destruct (Hsolve m M (un_L s) (tr X0) L1 HT (chol_nonsingular m C (un_L s) CF)) as (V & V1 & V2 & V3).
    rewrite V1. simpl rbind. eexists. split; [reflexivity|]. split.
    { unfold tr. rewrite (ncols_shape2 _ _ _ _ V2), (nrows_shape2 _ _ _ _ V2). reflexivity. }
    intros i j Hi Hj. unfold tr at 1. rewrite (sumf_ext m _ (fun k => (un_L s).[j, k] * V.[k, i])) by reflexivity.
    rewrite V3 by auto. unfold tr; rewrite at_mk2, X3, S2 by auto.
    rewrite (eqnd_at2 _ X' X M m i j (conj T1 Q1) HX' Hi Hj). reflexivity.
  Qed.

  Lemma un_round_trip : forall X M, shape X = [M; m] ->
    exists Y Z Y' Z',
    unbounded_normalize solve s X = Ok Y /\ unbounded_unnormalize s Y = Ok Z /\ Z === X /\
    unbounded_unnormalize s X = Ok Y' /\ unbounded_normalize solve s Y' = Ok Z' /\ Z' === X.
  Proof.
    intros X M HX.
    destruct (norm_ok X M HX) as (Y & Y1 & Y2 & Y3). destruct (unnorm_ok Y M Y2) as (Z & Z1 & Z2 & Z3).
    destruct (unnorm_ok X M HX) as (Y' & Y1' & Y2' & Y3'). destruct (norm_ok Y' M Y2') as (Z' & Z1' & Z2' & Z3').
    exists Y, Z, Y', Z'. split; [exact Y1|]. split; [exact Z1|]. split.
    { apply (eqnd2 _ M m); auto. intros i j Hi Hj. rewrite Z3 by auto.
      rewrite (sumf_ext m _ (fun k => (un_L s).[j, k] * Y.[i, k])) by (intros; ring).
      rewrite Y3 by auto. ring. }
    split; [exact Y1'|]. split; [exact Z1'|].
    apply (eqnd2 _ M m); auto. intros i j Hi Hj.
    destruct un_init as (_ & _ & CF).
    assert (HN := chol_nonsingular m C (un_L s) CF).
    assert (E : (fun k => Z'.[i, k] - X.[i, k]) j = 0).
    { apply (HN (fun k => Z'.[i, k] - X.[i, k])); auto. intros a Ha.
      rewrite (sumf_ext m _ (fun k => (un_L s).[a, k] * Z'.[i, k] - X.[i, k] * (un_L s).[a, k])) by (intros; ring).
      rewrite sumf_minus, Z3', Y3' by auto. ring. }
    simpl in E. lra.
  Qed.

  Lemma un_moments : forall X M (w : nat -> R) Y, shape X = [M; m] ->
    sumf M w = 1 ->
    (forall j, (j < m)%nat -> sumf M (fun i => w i * X.[i, j]) = 0) ->
    (forall j k, (j < m)%nat -> (k < m)%nat -> sumf M (fun i => w i * (X.[i, j] * X.[i, k])) = kron_delta j k) ->
    unbounded_unnormalize s X = Ok Y ->
    (forall j, (j < m)%nat -> sumf M (fun i => w i * Y.[i, j]) = flat mu j) /\
    (forall j k, (j < m)%nat -> (k < m)%nat ->
       sumf M (fun i => w i * ((Y.[i, j] - flat mu j) * (Y.[i, k] - flat mu k))) = C.[j, k]).
  Proof.
    intros X M w Y HX W1 W2 W3 HY.
    destruct (unnorm_ok X M HX) as (Y' & Y1 & Y2 & Y3). rewrite HY in Y1. inversion Y1; subst Y'. clear Y1.
    destruct un_init as (_ & _ & (L1 & _ & _ & L4)). split.
    - intros j Hj.
      rewrite (sumf_ext M _ (fun i => sumf m (fun k => (un_L s).[j, k] * (w i * X.[i, k])) + flat mu j * w i)).
      2:{ intros i Hi. rewrite Y3 by auto. rewrite Rmult_plus_distr_l, <- sumf_scal_l. f_equal; [|ring].
          apply sumf_ext; intros; ring. }
      rewrite sumf_plus, sumf_swap, sumf_scal_l, W1.
      rewrite sumf_zero; [ring|]. intros k Hk. rewrite sumf_scal_l, W2 by auto. ring.
    - intros j k Hj Hk.
      rewrite (sumf_ext M _ (fun i => sumf m (fun a => sumf m (fun b =>
          ((un_L s).[j, a] * (un_L s).[k, b]) * (w i * (X.[i, a] * X.[i, b])))))).
      2:{ intros i Hi. rewrite !Y3 by auto. unfold Rminus. rewrite !Rplus_assoc, !Rplus_opp_r, !Rplus_0_r.
          rewrite sumf_mul, <- sumf_scal_l. apply sumf_ext; intros a Ha. rewrite <- sumf_scal_l.
          apply sumf_ext; intros; ring. }
      rewrite sumf_swap.
      rewrite (sumf_ext m _ (fun a => (un_L s).[j, a] * (un_L s).[k, a])).
      + apply L4; auto.
      + intros a Ha. rewrite sumf_swap.
        rewrite (sumf_ext m _ (fun b => kron_delta a b * ((un_L s).[j, a] * (un_L s).[k, b]))).
        * apply (sumf_kd_l m a (fun b => (un_L s).[j, a] * (un_L s).[k, b])); auto.
        * intros b Hb. rewrite sumf_scal_l, W3 by auto. ring.
  Qed.
End UN.

(** ** conditional_expectations *)

Lemma sumr_select : forall (g : R -> R) (f : list R) (ind : list nat) i,
  List.length f = List.length ind ->
  sumr (map g (select f ind i)) =
  sumf (List.length f) (fun k => if Nat.eqb (nth k ind 0%nat) i then g (nth k f 0) else 0).
Proof.
  intros g. induction f as [|x f IH]; intros ind i H; destruct ind as [|a ind]; try discriminate; [reflexivity|].
  simpl List.length. rewrite sumf_shift. simpl nth. unfold select in *. simpl combine. simpl filter. simpl snd.
  destruct (Nat.eqb a i); simpl; rewrite IH by (simpl in H; lia); lra.
Qed.

Lemma sumr_const1 : forall l : list R, sumr (map (fun _ => 1) l) = INR (List.length l).
Proof.
  induction l; [reflexivity|]. simpl map. simpl List.length. rewrite S_INR. simpl sumr. rewrite IHl. ring.
Qed.

(** size of group i, its total, and its sum of squared deviations *)
Definition grp_count (ind : list nat) (i : nat) : R :=
  sumf (List.length ind) (fun k => if Nat.eqb (nth k ind 0%nat) i then 1 else 0).
Definition grp_sum (f : list R) (ind : list nat) (i : nat) : R :=
  sumf (List.length ind) (fun k => if Nat.eqb (nth k ind 0%nat) i then nth k f 0 else 0).
Definition grp_mean (f : list R) (ind : list nat) (i : nat) : R := grp_sum f ind i / grp_count ind i.
Definition grp_var (f : list R) (ind : list nat) (i : nat) : R :=
  sumf (List.length ind) (fun k => if Nat.eqb (nth k ind 0%nat) i
     then (nth k f 0 - grp_mean f ind i) * (nth k f 0 - grp_mean f ind i) else 0) / grp_count ind i.

Lemma select_count : forall f ind i, List.length f = List.length ind ->
  INR (List.length (select f ind i)) = grp_count ind i.
Proof. intros f ind i H. rewrite <- sumr_const1. unfold grp_count. rewrite <- H. now apply (sumr_select (fun _ => 1)). Qed.

Lemma select_sum : forall f ind i, List.length f = List.length ind ->
  sumr (select f ind i) = grp_sum f ind i.
Proof.
  intros f ind i H. unfold grp_sum. rewrite <- H. rewrite <- (map_id (select f ind i)). now apply (sumr_select (fun x => x)).
Qed.

Lemma grp_count_0 : forall ind i, grp_count ind i = 0 <-> ~ In i ind.
Proof.
  intros ind i. unfold grp_count. split.
  - intros H Hin. apply (In_nth _ _ 0%nat) in Hin. destruct Hin as (k & Hk & E).
    assert (NN : forall k, (k < List.length ind)%nat -> 0 <= (if Nat.eqb (nth k ind 0%nat) i then 1 else 0))
      by (intros; destruct (Nat.eqb _ _); lra).
    pose proof (sumf_nonneg_eq0 _ _ NN H k Hk) as Z. simpl in Z. rewrite E, Nat.eqb_refl in Z. lra.
  - intros H. apply sumf_zero. intros k Hk. destruct (Nat.eqb_spec (nth k ind 0%nat) i); [|reflexivity].
    exfalso. apply H. subst. now apply nth_In.
Qed.

Lemma select_nil : forall f ind i, List.length f = List.length ind ->
  (select f ind i = [] <-> ~ In i ind).
Proof.
  intros f ind i H. rewrite <- grp_count_0, <- (select_count f) by auto. split.
  - intros ->. reflexivity.
  - intros E. destruct (select f ind i); auto. change 0 with (INR 0) in E; apply INR_eq in E. discriminate.
Qed.

Lemma np_mean_select : forall f ind i, List.length f = List.length ind ->
  np_mean (select f ind i) = if in_dec Nat.eq_dec i ind then Fin (grp_mean f ind i) else NaN.
Proof.
  intros f ind i H. unfold np_mean. destruct (in_dec Nat.eq_dec i ind) as [I|I].
  - destruct (select f ind i) eqn:E.
    + exfalso. apply (select_nil f ind i H) in E. contradiction.
    + rewrite <- E, select_sum, select_count by auto. reflexivity.
  - apply (select_nil f ind i H) in I. rewrite I. reflexivity.
Qed.

Lemma np_var_select : forall f ind i, List.length f = List.length ind ->
  np_var (select f ind i) = if in_dec Nat.eq_dec i ind then Fin (grp_var f ind i) else NaN.
Proof.
  intros f ind i H. unfold np_var. destruct (in_dec Nat.eq_dec i ind) as [I|I].
  - destruct (select f ind i) eqn:E.
    + exfalso. apply (select_nil f ind i H) in E. contradiction.
    + rewrite <- E, select_sum, select_count by auto. fold (grp_mean f ind i).
      f_equal. unfold grp_var. f_equal. rewrite <- H.
      now apply (sumr_select (fun x => (x - grp_mean f ind i) * (x - grp_mean f ind i))).
  - apply (select_nil f ind i H) in I. rewrite I. reflexivity.
Qed.

Lemma cond_exp_ok : forall f ind, ind <> [] -> List.length f = List.length ind ->
  exists Ef Vf, conditional_expectations f ind = Ok (Ef, Vf) /\
  List.length Ef = S (list_max ind) /\ List.length Vf = S (list_max ind) /\
  forall i, (i <= list_max ind)%nat ->
    nth i Ef NaN = (if in_dec Nat.eq_dec i ind then Fin (grp_mean f ind i) else NaN) /\
    nth i Vf NaN = (if in_dec Nat.eq_dec i ind then Fin (grp_var f ind i) else NaN).
Proof.
  intros f ind H0 H. unfold conditional_expectations.
  assert (E : np_amax_nat ind = Ok (list_max ind)) by (destruct ind; [contradiction|reflexivity]).
  rewrite E. cbn [rbind]. rewrite H, Nat.eqb_refl. cbn [negb].
  eexists; eexists. split; [reflexivity|]. rewrite !map_length, !seq_length. split; auto. split; auto.
  intros i Hi. rewrite !(nth_map_seq _ (S (list_max ind)) i) by lia.
  rewrite np_mean_select, np_var_select by auto. auto.
Qed.

Lemma grp_count_pos : forall ind i, In i ind -> 0 < grp_count ind i.
Proof.
  intros ind i H. assert (0 <= grp_count ind i).
  { apply sumf_nonneg. intros; destruct (Nat.eqb _ _); lra. }
  assert (grp_count ind i <> 0) by (rewrite grp_count_0; tauto). lra.
Qed.

Lemma grp_var_nonneg : forall f ind i, In i ind -> 0 <= grp_var f ind i.
Proof.
  intros f ind i H. apply Rmult_le_pos.
  - apply sumf_nonneg. intros. destruct (Nat.eqb _ _); [apply Rle_0_sqr|lra].
  - apply Rlt_le, Rinv_0_lt_compat. now apply grp_count_pos.
Qed.

Lemma grp_var_zero : forall f ind i, In i ind ->
  (grp_var f ind i = 0 <-> forall k l, (k < List.length ind)%nat -> (l < List.length ind)%nat ->
       nth k ind 0%nat = i -> nth l ind 0%nat = i -> nth k f 0 = nth l f 0).
Proof.
  intros f ind i H. pose proof (grp_count_pos ind i H) as HC. unfold grp_var. split.
  - intros E k l Hk Hl Ek El.
    assert (S0 : sumf (List.length ind) (fun k => if Nat.eqb (nth k ind 0%nat) i
     then (nth k f 0 - grp_mean f ind i) * (nth k f 0 - grp_mean f ind i) else 0) = 0).
    { apply (Rmult_eq_reg_r (/ grp_count ind i)); [rewrite Rmult_0_l; exact E|]. apply Rinv_neq_0_compat; lra. }
    assert (NN : forall k, (k < List.length ind)%nat -> 0 <= (if Nat.eqb (nth k ind 0%nat) i
     then (nth k f 0 - grp_mean f ind i) * (nth k f 0 - grp_mean f ind i) else 0)).
    { intros. destruct (Nat.eqb _ _); [apply Rle_0_sqr|lra]. }
    pose proof (sumf_nonneg_eq0 _ _ NN S0 k Hk) as Zk. pose proof (sumf_nonneg_eq0 _ _ NN S0 l Hl) as Zl.
    simpl in Zk, Zl. rewrite Ek, Nat.eqb_refl in Zk. rewrite El, Nat.eqb_refl in Zl.
    apply Rmult_integral in Zk. apply Rmult_integral in Zl. lra.
  - intros E. apply (In_nth _ _ 0%nat) in H. destruct H as (k0 & Hk0 & Ek0).
    assert (EM : grp_mean f ind i = nth k0 f 0).
    { unfold grp_mean, grp_sum.
      rewrite (sumf_ext _ _ (fun k => nth k0 f 0 * (if Nat.eqb (nth k ind 0%nat) i then 1 else 0))).
      - rewrite sumf_scal_l. fold (grp_count ind i). field. lra.
      - intros k Hk. destruct (Nat.eqb_spec (nth k ind 0%nat) i); [|ring].
        rewrite (E k k0) by auto. ring. }
    rewrite sumf_zero; [unfold Rdiv; ring|].
    intros k Hk. destruct (Nat.eqb_spec (nth k ind 0%nat) i); [|reflexivity].
    rewrite EM, (E k k0) by auto. ring.
Qed.

Lemma list_max_ge : forall l x, In x l -> (x <= list_max l)%nat.
Proof.
  intros l x H. assert (F := proj1 (list_max_le l (list_max l)) (Nat.le_refl _)).
  rewrite Forall_forall in F. auto.
Qed.

Lemma grp_total : forall f ind, List.length f = List.length ind ->
  sumf (S (list_max ind)) (fun i => if in_dec Nat.eq_dec i ind then grp_count ind i * grp_mean f ind i else 0) = sumr f.
Proof.
  intros f ind H.
  rewrite (sumf_ext _ _ (fun i => grp_sum f ind i)).
  2:{ intros i Hi. destruct (in_dec Nat.eq_dec i ind) as [I|I].
      - unfold grp_mean. pose proof (grp_count_pos ind i I). field. lra.
      - unfold grp_sum. symmetry. apply sumf_zero. intros k Hk.
        destruct (Nat.eqb_spec (nth k ind 0%nat) i); [|reflexivity]. exfalso. apply I. subst. now apply nth_In. }
  unfold grp_sum. rewrite sumf_swap, sumr_nth, H. apply sumf_ext. intros k Hk.
  rewrite (sumf_single _ (nth k ind 0%nat)).
  - now rewrite Nat.eqb_refl.
  - assert (nth k ind 0%nat <= list_max ind)%nat by (apply list_max_ge, nth_In; auto). lia.
  - intros i Hi Hne. destruct (Nat.eqb_spec (nth k ind 0%nat) i); [congruence|reflexivity].
Qed.

Lemma perm_filter : forall A (p : A -> bool) l l', Permutation l l' -> Permutation (filter p l) (filter p l').
Proof.
  intros A p l l' H. induction H; simpl; auto.
  - destruct (p x); auto.
  - destruct (p y), (p x); auto. constructor.
  - eapply Permutation_trans; eauto.
Qed.

Lemma sumr_perm : forall l l', Permutation l l' -> sumr l = sumr l'.
Proof. intros l l' H. induction H; simpl; lra. Qed.

Lemma select_perm : forall f ind f' ind' i, Permutation (combine f ind) (combine f' ind') ->
  Permutation (select f ind i) (select f' ind' i).
Proof. intros. unfold select. apply Permutation_map, perm_filter, H. Qed.

Lemma np_mean_perm : forall l l', Permutation l l' -> np_mean l = np_mean l'.
Proof.
  intros l l' H. unfold np_mean. pose proof (Permutation_length H) as HL. pose proof (sumr_perm _ _ H) as HS.
  destruct l, l'; try discriminate; auto. rewrite HL, HS. reflexivity.
Qed.

Lemma np_var_perm : forall l l', Permutation l l' -> np_var l = np_var l'.
Proof.
  intros l l' H. unfold np_var. pose proof (Permutation_length H) as HL. pose proof (sumr_perm _ _ H) as HS.
  destruct l as [|x l], l' as [|y l']; try discriminate; auto. rewrite HL, HS.
  f_equal. f_equal. apply sumr_perm, Permutation_map, H.
Qed.

Lemma map_snd_combine : forall A B (l : list A) (k : list B), List.length l = List.length k -> map snd (combine l k) = k.
Proof. induction l; destruct k; simpl; intros H; try discriminate; auto. f_equal; auto. Qed.

Lemma list_max_perm : forall l l', Permutation l l' -> list_max l = list_max l'.
Proof.
  intros l l' H. apply Nat.le_antisymm; apply list_max_le, Forall_forall; intros x Hx; apply list_max_ge.
  - eapply Permutation_in; eauto.
  - eapply Permutation_in; [apply Permutation_sym|]; eauto.
Qed.

Lemma cond_exp_perm : forall f ind f' ind',
  List.length f = List.length ind -> List.length f' = List.length ind' ->
  Permutation (combine f ind) (combine f' ind') ->
  conditional_expectations f ind = conditional_expectations f' ind'.
Proof.
  intros f ind f' ind' H H' P.
  assert (PI : Permutation ind ind').
  { rewrite <- (map_snd_combine _ _ f ind H), <- (map_snd_combine _ _ f' ind' H'). now apply Permutation_map. }
  unfold conditional_expectations. pose proof (Permutation_length PI) as HL.
  destruct ind as [|a t]; destruct ind' as [|b t']; try discriminate; [reflexivity|].
  unfold np_amax_nat. rewrite (list_max_perm _ _ PI). cbn [rbind].
  rewrite H, H', !Nat.eqb_refl. cbn [negb].
  f_equal. f_equal; apply map_ext; intros i;
    [apply np_mean_perm | apply np_var_perm]; now apply select_perm.
Qed.
