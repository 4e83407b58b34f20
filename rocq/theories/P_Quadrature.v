(** Proofs about the model of utils/quadrature.py *)
From Coq Require Import String Reals Lra Lia List Arith ZArith Bool Permutation.
From Verif Require Import Prelude Py NumArr LinAlg Spectral Sorting M_Misc M_RespSurf M_Quadrature P_Subspaces SpectralThm EighRef
  Tridiag Integral GaussRules.
Import ListNotations.
Open Scope R_scope.

(** np.linalg.eig on a symmetric matrix: unit, independent eigenvectors.
    Nothing is promised about orthogonality or order. *)
Definition eig_contract (eig : nd R -> res (nd R * nd R)) : Prop :=
  forall n C e V, shape C = [n; n] -> msym n (ent C) -> eig C = Ok (e, V) ->
    shape e = [n] /\ shape V = [n; n] /\
    (forall j, (j < n)%nat -> sumf n (fun i => V.[i, j] * V.[i, j]) = 1) /\
    indep n n (fun j i => V.[i, j]) /\ eigcols n (ent C) (fun j => e.[j]) (ent V).
Definition eig_total (eig : nd R -> res (nd R * nd R)) : Prop :=
  forall n C, (0 < n)%nat -> shape C = [n; n] -> msym n (ent C) -> exists r, eig C = Ok r.

Lemma eig_ref_contract : eig_contract eigh_ref.
Proof.
  intros n C e V HC HS H. destruct (eigh_ref_contract C e V H) as (m & HC' & He & HV & HO & HE).
  rewrite HC in HC'. injection HC' as <-. split; [auto|]. split; [auto|]. split; [|split].
  - intros j Hj. assert (A := HO j j Hj Hj). now rewrite kd_same in A.
  - exact (orthonormal_indep n n (ent V) HO).
  - intros i j Hi Hj. rewrite <- (HE i j Hi Hj). apply sumf_ext. intros k Hk. f_equal.
    unfold lower. destruct (Nat.leb k i); auto.
Qed.
Lemma eig_ref_total : eig_total eigh_ref.
Proof. intros n C Hn HC _. now apply (eigh_ref_total n). Qed.

(** ** jacobi_matrix *)
Lemma jac_loop : forall ab k J i j,
  fold_left (jac_step ab) (seq 1 k) J i j =
  if (Nat.leb 1 i && Nat.leb i k)%bool then
    (if Nat.eqb j (i + 1) then sqrt (ab.[(i + 1)%nat, 1%nat])
     else if Nat.eqb j (i - 1) then sqrt (ab.[i, 1%nat])
     else if Nat.eqb j i then ab.[i, 0%nat] else J i j)
  else J i j.
Proof.
  intros ab. induction k; intros J i j.
  - cbn [seq fold_left]. destruct (Nat.leb_spec 1 i), (Nat.leb_spec i 0); cbn [andb]; try lia; reflexivity.
  - rewrite seq_S, fold_left_app. cbn [fold_left]. unfold jac_step at 1. unfold upd2.
    change (1 + k)%nat with (S k).
    destruct (Nat.eqb_spec i (S k)) as [->|Hi].
    + destruct (Nat.leb_spec 1 (S k)); [|lia]. destruct (Nat.leb_spec (S k) (S k)); [|lia]. cbn [andb].
      destruct (Nat.eqb_spec j (S k + 1)); auto. destruct (Nat.eqb_spec j (S k - 1)); auto.
      destruct (Nat.eqb_spec j (S k)); auto. rewrite IHk.
      destruct (Nat.leb_spec (S k) k); [lia|]. now rewrite andb_false_r.
    + cbn [andb]. rewrite IHk. destruct (Nat.leb_spec 1 i); cbn [andb]; auto.
      destruct (Nat.leb_spec i k), (Nat.leb_spec i (S k)); auto; lia.
Qed.

Lemma jacobi_entries : forall ab n, shape ab = [(n + 1)%nat; 2%nat] -> (2 <= n)%nat ->
  exists J, jacobi_matrix ab = Ok J /\ shape J = [n; n] /\
    forall i j, (i < n)%nat -> (j < n)%nat -> J.[i, j] =
      if Nat.eqb i j then ab.[i, 0%nat]
      else if Nat.eqb j (i + 1) then sqrt (ab.[j, 1%nat])
      else if Nat.eqb i (j + 1) then sqrt (ab.[i, 1%nat]) else 0.
Proof.
  intros ab n HS Hn. unfold jacobi_matrix. rewrite HS. cbn [Nat.eqb negb].
  destruct n as [|[|n]]; [lia|lia|]. replace (S (S n) + 1)%nat with (S (S (S n))) by lia. cbv iota.
  eexists. split; [reflexivity|]. split; [reflexivity|]. intros i j Hi Hj. rewrite at_mk2.
  unfold upd2 at 1 2. replace (S (S n) - 1)%nat with (S n) by lia. replace (S (S n) - 2)%nat with n by lia.
  rewrite jac_loop.
  destruct (Nat.eqb_spec i (S n)) as [->|Hin].
  - cbn [andb]. destruct (Nat.eqb_spec (S n) j) as [<-|].
    + destruct (Nat.eqb_spec (S n) n); [lia|]. rewrite Nat.eqb_refl. reflexivity.
    + destruct (Nat.eqb_spec j n) as [->|].
      * destruct (Nat.eqb_spec n (S n + 1)); [lia|]. destruct (Nat.eqb_spec (S n) (n + 1)); [reflexivity|lia].
      * destruct (Nat.eqb_spec j (S n)); [lia|]. destruct (Nat.leb_spec (S n) n); [lia|]. rewrite andb_false_r.
        unfold upd2. destruct (Nat.eqb_spec (S n) 0); [lia|]. cbn [andb]. destruct (Nat.eqb_spec j (S n + 1)); [lia|]. destruct (Nat.eqb_spec (S n) (j + 1)); [lia|]. reflexivity.
  - cbn [andb]. destruct (Nat.leb_spec 1 i).
    + destruct (Nat.leb_spec i n); [|lia]. cbn [andb].
      destruct (Nat.eqb_spec i j) as [<-|].
      * destruct (Nat.eqb_spec i (i + 1)); [lia|]. destruct (Nat.eqb_spec i (i - 1)); [lia|]. rewrite Nat.eqb_refl. reflexivity.
      * destruct (Nat.eqb_spec j (i + 1)) as [->|]; [reflexivity|].
        destruct (Nat.eqb_spec j (i - 1)), (Nat.eqb_spec i (j + 1)); try lia; auto.
        destruct (Nat.eqb_spec j i); [lia|]. unfold upd2. destruct (Nat.eqb_spec i 0); [lia|]. reflexivity.
    + replace i with 0%nat by lia. cbn [andb]. unfold upd2. rewrite Nat.eqb_refl. cbn [andb].
      destruct (Nat.eqb_spec j 1) as [->|].
      * reflexivity.
      * destruct (Nat.eqb_spec j 0) as [->|]; [reflexivity|].
        destruct (Nat.eqb_spec 0 j); [lia|]. destruct (Nat.eqb_spec j (0 + 1)); [lia|]. destruct (Nat.eqb_spec 0 (j + 1)); [lia|]. reflexivity.
Qed.

(** ** one-dimensional rules *)
Definition strictly (n : nat) (f : nat -> R) : Prop := forall i j, (i < j)%nat -> (j < n)%nat -> f i < f j.

(** what g1d computes for the recurrence with off-diagonals s *)
Record trirule (s : nat -> R) (n : nat) (x w : nd R) (y : nat -> R) (V : nat -> nat -> R) : Prop := {
  tr_x : shape x = [n; 1%nat];
  tr_w : shape w = [n; 1%nat];
  tr_orth : orthonormal n n V;
  tr_eig : eigcols n (tri s) y V;
  tr_inc : strictly n y;
  tr_xj : forall j, (j < n)%nat -> x.[j, 0%nat] = snap (y j);
  tr_wj : forall j, (j < n)%nat -> w.[j, 0%nat] = V 0%nat j * V 0%nat j
}.

Lemma reshape_col : forall n (f : nat -> R), exists Y, reshape [n; 1%nat] (mk1 n f) = Ok Y /\ shape Y = [n; 1%nat] /\
  forall i, (i < n)%nat -> Y.[i, 0%nat] = f i.
Proof.
  intros n f. destruct (reshape_ok R [n; 1%nat] (mk1 n f)) as (Y & E & SY & HY).
  - unfold size. simpl. lia.
  - exists Y. split; auto. split; auto. intros i Hi. rewrite HY by (repeat constructor; lia).
    unfold mk1. cbn [shape unravel ravel prodn at_ nth]. rewrite Nat.div_1_r. f_equal. lia.
Qed.

Lemma g1d_rule : forall s eig argsort ab n, (forall k, (1 <= k)%nat -> s k <> 0) ->
  eig_contract eig -> argsort_contract argsort -> (2 <= n)%nat ->
  shape ab = [(n + 1)%nat; 2%nat] ->
  (forall i, (i < n)%nat -> ab.[i, 0%nat] = 0) -> (forall i, (1 <= i < n)%nat -> sqrt (ab.[i, 1%nat]) = s i) ->
  forall J e V, jacobi_matrix ab = Ok J -> eig J = Ok (e, V) ->
  let ind := argsort (map (fun i => e.[i]) (seq 0 (nrows e))) in
  let k := List.length ind in
  exists x w y Q, reshape [n; 1%nat] (mk1 k (fun i => e.[nth i ind 0%nat])) = Ok x /\
    reshape [n; 1%nat] (mk1 k (fun i => V.[0%nat, nth i ind 0%nat] * V.[0%nat, nth i ind 0%nat])) = Ok w /\
    trirule s n (amap snap x) w y Q.
Proof.
  intros s eig argsort ab n Hs HE HA Hn Sab Ha Hb J e V EJ EV ind k.
  destruct (jacobi_entries ab n Sab Hn) as (J' & EJ' & SJ & HJ). rewrite EJ in EJ'. injection EJ' as <-.
  assert (HT : forall i j, (i < n)%nat -> (j < n)%nat -> J.[i, j] = tri s i j).
  { intros i j Hi Hj. rewrite HJ by auto. unfold tri.
    destruct (Nat.eqb_spec i j) as [<-|].
    - destruct (Nat.eqb_spec i (S i)); [lia|]. now apply Ha.
    - destruct (Nat.eqb_spec j (i + 1)), (Nat.eqb_spec j (S i)); try lia; [apply Hb; lia|].
      destruct (Nat.eqb_spec i (j + 1)), (Nat.eqb_spec i (S j)); try lia; [apply Hb; lia|reflexivity]. }
  assert (SY : msym n (ent J)). { intros i j Hi Hj. unfold ent. rewrite !HT by auto. apply tri_sym. }
  destruct (HE n J e V SJ SY EV) as (Se & SV & HU & HI & HG).
  assert (HG' : eigcols n (tri s) (fun j => e.[j]) (ent V)).
  { intros i j Hi Hj. rewrite <- (HG i j Hi Hj). apply sumf_ext. intros l Hl. unfold ent at 2. now rewrite HT. }
  set (l := map (fun i => e.[i]) (seq 0 (nrows e))) in *.
  assert (Ne : nrows e = n) by (unfold nrows; now rewrite Se).
  assert (Ll : List.length l = n) by (unfold l; rewrite map_length, seq_length; auto).
  assert (Lk : k = n) by (unfold k, ind; rewrite argsort_length; auto).
  destruct (reshape_col n (fun i => e.[nth i ind 0%nat])) as (x & Ex & Sx & Hx).
  destruct (reshape_col n (fun i => V.[0%nat, nth i ind 0%nat] * V.[0%nat, nth i ind 0%nat])) as (w & Ew & Sw & Hw).
  assert (Hind : forall i, (i < n)%nat -> (nth i ind 0%nat < n)%nat).
  { intros i Hi. unfold ind. rewrite <- Ll. apply argsort_nth_lt; auto. now rewrite Ll. }
  assert (Hinj : forall i j, (i < n)%nat -> (j < n)%nat -> nth i ind 0%nat = nth j ind 0%nat -> i = j).
  { intros i j Hi Hj E. assert (ND := argsort_NoDup argsort l HA). fold ind in ND.
    apply (proj1 (NoDup_nth ind 0%nat) ND); auto; fold k; lia. }
  assert (HO := tri_orthonormal s Hs n (fun j => e.[j]) (ent V) HU HI HG').
  exists x, w, (fun j => e.[nth j ind 0%nat]), (fun i j => V.[i, nth j ind 0%nat]).
  rewrite Lk. split; [exact Ex|]. split; [exact Ew|].
  constructor; auto.
  - intros a b Ha' Hb'. transitivity (kron_delta (nth a ind 0%nat) (nth b ind 0%nat)); [exact (HO _ _ (Hind a Ha') (Hind b Hb'))|].
    destruct (Nat.eq_dec a b) as [->|Hab]; [now rewrite !kd_same|].
    rewrite !kd_diff; auto.
  - intros i j Hi Hj. exact (HG' i (nth j ind 0%nat) Hi (Hind j Hj)).
  - intros i j Hij Hj. destruct (HA l) as [_ HS]. fold ind in HS. rewrite Ll in HS. specialize (HS i j Hij Hj).
    assert (Hi : (i < n)%nat) by lia.
    unfold l in HS. rewrite Ne in HS. rewrite !(nth_map_seq (fun i => e.[i])) in HS by auto.
    assert (D := tri_distinct s Hs n (fun j => e.[j]) (ent V) HU HI HG' (nth i ind 0%nat) (nth j ind 0%nat) (Hind i Hi) (Hind j Hj)).
    cbv beta in D. assert (nth i ind 0%nat <> nth j ind 0%nat) by (intros E; apply Hinj in E; auto; lia).
    specialize (D H). lra.
  - intros j Hj. simpl. now rewrite Hx.
Qed.

(** facts about every such rule *)
Section RuleFacts.
  Variable s : nat -> R.
  Hypothesis Hs : forall k, (1 <= k)%nat -> s k <> 0.
  Variables (n : nat) (x w : nd R) (y : nat -> R) (V : nat -> nat -> R).
  Hypothesis HR : trirule s n x w y V.

  Lemma rule_unit : forall j, (j < n)%nat -> sumf n (fun i => V i j * V i j) = 1.
  Proof. intros j Hj. rewrite (tr_orth _ _ _ _ _ _ HR j j Hj Hj). apply kd_same. Qed.
  Lemma rule_indep : indep n n (fun j i => V i j).
  Proof. apply orthonormal_indep. apply (tr_orth _ _ _ _ _ _ HR). Qed.
  Lemma rule_wpos : forall j, (j < n)%nat -> 0 < w.[j, 0%nat].
  Proof.
    intros j Hj. rewrite (tr_wj _ _ _ _ _ _ HR j Hj).
    assert (A := tri_V0 s Hs n y V rule_unit (tr_eig _ _ _ _ _ _ HR) j Hj). destruct (Rdichotomy _ _ A); nra.
  Qed.
  Lemma rule_poly : forall c, (List.length c <= 2 * n)%nat ->
    sumf n (fun j => w.[j, 0%nat] * peval c (y j)) = sumf (List.length c) (fun k => nth k c 0 * Tpow s k 0).
  Proof.
    intros c Hc. rewrite (sumf_ext n _ (fun j => sumf (List.length c) (fun k => nth k c 0 * (V 0%nat j * V 0%nat j * y j ^ k)))).
    2: { intros j Hj. rewrite (tr_wj _ _ _ _ _ _ HR j Hj), peval_sum, <- sumf_scal_l. apply sumf_ext. intros; ring. }
    rewrite sumf_swap. apply sumf_ext. intros k Hk. rewrite sumf_scal_l. f_equal.
    apply (rule_moment s Hs n y V rule_unit rule_indep (tr_eig _ _ _ _ _ _ HR)). lia.
  Qed.
  Lemma rule_sum1 : (0 < n)%nat -> sumf n (fun j => w.[j, 0%nat]) = 1.
  Proof.
    intros Hn. assert (A := rule_poly [1]). simpl in A. rewrite Rmult_0_r in A || idtac.
    specialize (A ltac:(lia)). rewrite (sumf_ext n _ (fun j => w.[j, 0%nat] * (1 + y j * 0))) by (intros; ring).
    rewrite A. unfold kron_delta. simpl. ring.
  Qed.
  Lemma rule_root : forall j, (j < n)%nat -> op s n (y j) = 0.
  Proof. intros j Hj. exact (node_root s Hs n y V rule_unit (tr_eig _ _ _ _ _ _ HR) j Hj). Qed.
  (** the weights in closed form *)
  Lemma rule_weight : forall j, (j < n)%nat -> w.[j, 0%nat] * sumf n (fun i => op s i (y j) * op s i (y j)) = 1.
  Proof.
    intros j Hj. rewrite (tr_wj _ _ _ _ _ _ HR j Hj). rewrite <- sumf_scal_l. rewrite <- (rule_unit j Hj). apply sumf_ext. intros i Hi.
    destruct (eigvec_op s Hs n (y j) (fun i => V i j)) as [A _]; [intros; now apply (tr_eig _ _ _ _ _ _ HR)|].
    cbv beta in A. rewrite (A i Hi). ring.
  Qed.
  Lemma rule_sym_node : forall j, (j < n)%nat -> y (n - 1 - j)%nat = - y j.
  Proof.
    intros j Hj. symmetry.
    apply (sorted_eigenvalues_unique n (tri s) (fun j => - y j) (fun i j => (-1) ^ i * V i j) (fun j => y (n - 1 - j)%nat) (fun i j => V i (n - 1 - j)%nat)); auto.
    - intros a b Ha Hb. rewrite <- (tr_orth _ _ _ _ _ _ HR a b Ha Hb). apply sumf_ext. intros i Hi.
      assert (E : (-1) ^ i * (-1) ^ i = 1) by (rewrite <- Rpow_mult_distr; replace (-1 * -1) with 1 by ring; apply pow1).
      replace ((-1) ^ i * V i a * ((-1) ^ i * V i b)) with ((-1) ^ i * (-1) ^ i * (V i a * V i b)) by ring. rewrite E. ring.
    - intros i k Hi Hk. assert (E := tr_eig _ _ _ _ _ _ HR i k Hi Hk).
      transitivity (- (-1) ^ i * sumf n (fun l => tri s i l * V l k)); [|rewrite E; ring].
      rewrite <- sumf_scal_l. apply sumf_ext. intros l Hl. unfold tri.
      destruct (Nat.eqb_spec l (S i)) as [->|]; [simpl; ring|]. destruct (Nat.eqb_spec i (S l)) as [->|]; [simpl; ring|ring].
    - intros a b Hab Hb. destruct (Nat.eq_dec a b) as [->|]; [lra|].
      assert (A := tr_inc _ _ _ _ _ _ HR a b ltac:(lia) Hb). lra.
    - intros a b Ha Hb. rewrite (tr_orth _ _ _ _ _ _ HR (n - 1 - a)%nat (n - 1 - b)%nat) by lia.
      destruct (Nat.eq_dec a b) as [->|]; [now rewrite !kd_same|]. rewrite !kd_diff by lia. reflexivity.
    - intros i k Hi Hk. apply (tr_eig _ _ _ _ _ _ HR); auto. lia.
    - intros a b Hab Hb. destruct (Nat.eq_dec a b) as [->|]; [lra|].
      assert (A := tr_inc _ _ _ _ _ _ HR (n - 1 - b)%nat (n - 1 - a)%nat ltac:(lia) ltac:(lia)). lra.
  Qed.
  Lemma rule_sym_weight : forall j, (j < n)%nat -> w.[(n - 1 - j)%nat, 0%nat] = w.[j, 0%nat].
  Proof.
    intros j Hj. assert (A := rule_weight j Hj). assert (B := rule_weight (n - 1 - j)%nat ltac:(lia)).
    rewrite (sumf_ext n _ (fun i => op s i (y j) * op s i (y j))) in B.
    - set (q := sumf n (fun i => op s i (y j) * op s i (y j))) in *. assert (q <> 0) by (intros E; rewrite E in A; lra).
      apply (Rmult_eq_reg_r q); auto. lra.
    - intros i Hi. rewrite rule_sym_node, (op_parity s Hs) by auto.
      assert (E : (-1) ^ i * (-1) ^ i = 1) by (rewrite <- Rpow_mult_distr; replace (-1 * -1) with 1 by ring; apply pow1).
      replace ((-1) ^ i * op s i (y j) * ((-1) ^ i * op s i (y j))) with ((-1) ^ i * (-1) ^ i * (op s i (y j) * op s i (y j))) by ring.
      rewrite E. ring.
  Qed.
  (** the rule does not depend on the eigensolver *)
  Lemma rule_unique : forall x' w' y' V', trirule s n x' w' y' V' ->
    forall j, (j < n)%nat -> y' j = y j /\ x'.[j, 0%nat] = x.[j, 0%nat] /\ w'.[j, 0%nat] = w.[j, 0%nat].
  Proof.
    intros x' w' y' V' HR' j Hj.
    assert (EY : y' j = y j).
    { assert (A := sorted_eigenvalues_unique n (tri s) (fun j => y' (n - 1 - j)%nat) (fun i j => V' i (n - 1 - j)%nat)
         (fun j => y (n - 1 - j)%nat) (fun i j => V i (n - 1 - j)%nat)).
      assert (G : forall xx ww yy VV, trirule s n xx ww yy VV -> orthonormal n n (fun i j => VV i (n - 1 - j)%nat) /\
         eigcols n (tri s) (fun j => yy (n - 1 - j)%nat) (fun i j => VV i (n - 1 - j)%nat) /\ decreasing n (fun j => yy (n - 1 - j)%nat)).
      { intros xx ww yy VV H. split; [|split].
        - intros a b Ha Hb. rewrite (tr_orth _ _ _ _ _ _ H (n - 1 - a)%nat (n - 1 - b)%nat) by lia.
          destruct (Nat.eq_dec a b) as [->|]; [now rewrite !kd_same|]. rewrite !kd_diff by lia. reflexivity.
        - intros i k Hi Hk. apply (tr_eig _ _ _ _ _ _ H); auto. lia.
        - intros a b Hab Hb. destruct (Nat.eq_dec a b) as [->|]; [lra|].
          assert (K := tr_inc _ _ _ _ _ _ H (n - 1 - b)%nat (n - 1 - a)%nat ltac:(lia) ltac:(lia)). lra. }
      destruct (G _ _ _ _ HR') as (G1 & G2 & G3). destruct (G _ _ _ _ HR) as (G4 & G5 & G6).
      specialize (A G1 G2 G3 G4 G5 G6 (n - 1 - j)%nat ltac:(lia)). cbv beta in A.
      replace (n - 1 - (n - 1 - j))%nat with j in A by lia. exact A. }
    split; auto. split.
    - rewrite (tr_xj _ _ _ _ _ _ HR' j Hj), (tr_xj _ _ _ _ _ _ HR j Hj), EY. reflexivity.
    - assert (A := rule_weight j Hj).
      assert (B : w'.[j, 0%nat] * sumf n (fun i => op s i (y' j) * op s i (y' j)) = 1).
      { rewrite (tr_wj _ _ _ _ _ _ HR' j Hj), <- sumf_scal_l. rewrite <- (kd_same j), <- (tr_orth _ _ _ _ _ _ HR' j j Hj Hj).
        apply sumf_ext. intros i Hi.
        destruct (eigvec_op s Hs n (y' j) (fun i => V' i j)) as [C _]; [intros; now apply (tr_eig _ _ _ _ _ _ HR')|].
        cbv beta in C. rewrite (C i Hi). ring. }
      rewrite EY in B. set (q := sumf n (fun i => op s i (y j) * op s i (y j))) in *.
      assert (q <> 0) by (intros E; rewrite E in A; lra). apply (Rmult_eq_reg_r q); auto. lra.
  Qed.
End RuleFacts.

Lemma snap_mono : forall a b, a <= b -> snap a <= snap b.
Proof.
  intros a b H. unfold snap. assert (P : 0 < / 10 ^ 12) by (apply Rinv_0_lt_compat, pow_lt; lra).
  destruct (Rlt_dec (Rabs a) (/ 10 ^ 12)) as [Ha|Ha], (Rlt_dec (Rabs b) (/ 10 ^ 12)) as [Hb|Hb]; try lra.
  - apply Rabs_def2 in Ha. destruct (Rlt_le_dec b 0) as [B|B]; [|lra]. rewrite Rabs_left in Hb by auto. lra.
  - apply Rabs_def2 in Hb. destruct (Rlt_le_dec 0 a) as [A|A]; [|lra]. rewrite Rabs_right in Ha by lra. lra.
Qed.
Lemma snap_id : forall a, (a <> 0 -> / 10 ^ 12 <= Rabs a) -> snap a = a.
Proof.
  intros a H. unfold snap. destruct (Rlt_dec (Rabs a) (/ 10 ^ 12)); auto. destruct (Req_dec a 0) as [->|N]; auto.
  specialize (H N). lra.
Qed.

(** the recurrences *)
Lemma r_hermite_spec : forall N, (1 < N)%Z -> exists ab, r_hermite (IsA N) = Ok ab /\ shape ab = [(Z.to_nat N + 1)%nat; 2%nat] /\
  (forall i, (i < Z.to_nat N + 1)%nat -> ab.[i, 0%nat] = 0) /\ (forall i, (1 <= i < Z.to_nat N + 1)%nat -> ab.[i, 1%nat] = INR i) /\ ab.[0%nat, 1%nat] = 1.
Proof.
  intros N HN. unfold r_hermite. destruct (Z.leb_spec N 0); [lia|]. destruct (Z.eqb_spec N 1) as [|HN1]; [lia|].
  set (n := Z.to_nat N). assert (Hn : (2 <= n)%nat) by lia.
  destruct (reshape_col n (fun i => INR (i + 1))) as (Y & EY & SY & HY). rewrite EY. cbn [rbind].
  unfold vstack. rewrite SY. cbn [shape ones2 mk2 Nat.eqb rbind]. unfold hstack. cbn [shape zeros2 mk2 nrows ncols nth].
  rewrite Nat.eqb_refl. eexists. split; [reflexivity|]. split; [simpl; f_equal; lia|].
  split; [intros i Hi; reflexivity|]. split; [|reflexivity].
  intros i Hi. simpl. destruct (Nat.ltb_spec i 1); [lia|]. rewrite HY by lia. f_equal. lia.
Qed.
Lemma r_legendre_spec : forall N, (1 < N)%Z -> exists ab, r_jacobi (IsA N) (-1) 1 0 0 = Ok ab /\ shape ab = [(Z.to_nat N + 1)%nat; 2%nat] /\
  (forall i, (i < Z.to_nat N + 1)%nat -> ab.[i, 0%nat] = 0) /\
  (forall i, (1 <= i < Z.to_nat N + 1)%nat -> ab.[i, 1%nat] = INR i * INR i / (4 * (INR i * INR i) - 1)) /\ ab.[0%nat, 1%nat] = 1.
Proof.
  intros N HN. unfold r_jacobi. destruct (Z.leb_spec N 0); [lia|]. eexists. split; [reflexivity|]. split; [reflexivity|].
  split; [|split; [|reflexivity]].
  - intros [|[|i]] Hi; rewrite at_mk2; cbv iota beta; [field| |];
      replace ((1 - -1) / 2 * (0 * 0 - 0 * 0)) with 0 by field; unfold Rdiv; rewrite Rmult_0_l; lra.
  - intros [|[|i]] Hi; rewrite at_mk2; [lia|simpl; field|].
    assert (P := pos_INR i). rewrite !S_INR. field. repeat split; try lra; nra.
Qed.

Lemma snap_case : forall a, snap a = a \/ (snap a = 0 /\ Rabs a < / 10 ^ 12).
Proof. intros a. unfold snap. destruct (Rlt_dec (Rabs a) (/ 10 ^ 12)); auto. Qed.

Definition one_node (s : nat -> R) : trirule s 1 (mk2 1 1 (fun _ _ => 0)) (mk2 1 1 (fun _ _ => 1)) (fun _ => 0) (fun _ _ => 1).
Proof.
  constructor; auto.
  - intros a b Ha Hb. replace a with 0%nat by lia. replace b with 0%nat by lia. rewrite kd_same. simpl. ring.
  - intros i j Hi Hj. replace i with 0%nat by lia. simpl. unfold tri. simpl. ring.
  - intros i j; lia.
  - intros j Hj. replace j with 0%nat by lia. rewrite snap_id; auto. intros; lra.
  - intros; simpl. ring.
Qed.

Lemma sqrt_sl : forall k, (1 <= k)%nat -> sqrt (INR k * INR k / (4 * (INR k * INR k) - 1)) = sl k.
Proof.
  intros k Hk. rewrite <- sl_sq by auto. apply sqrt_square. destruct (sl_dens k Hk) as (A & B & C). unfold sl.
  left. apply Rdiv_lt_0_compat; [lra|]. now apply Rmult_lt_0_compat.
Qed.

Lemma gh1d_rule : forall eig argsort N x w, eig_contract eig -> argsort_contract argsort -> (1 <= N)%Z ->
  gh1d eig argsort N = Ok (x, w) -> exists y V, trirule sh (Z.to_nat N) x w y V.
Proof.
  intros eig argsort N x w HE HA HN H. unfold gh1d, g1d in H. destruct (Z.ltb_spec 1 N) as [L|L].
  - rewrite String.eqb_refl in H. cbv iota in H.
    destruct (r_hermite_spec N L) as (ab & Eab & Sab & H0 & H1 & H2). rewrite Eab in H. cbn [rbind] in H.
    apply rbind_ok in H. destruct H as (J & EJ & H). apply rbind_ok in H. destruct H as ((e & V) & EV & H).
    destruct (g1d_rule sh eig argsort ab (Z.to_nat N) sh_ne HE HA ltac:(lia) Sab) with (J := J) (e := e) (V := V) as (x0 & w0 & y & Q & Ex & Ew & TR); auto.
    { intros i Hi. apply H0. lia. }
    { intros i Hi. rewrite H1 by lia. reflexivity. }
    cbv zeta in H. rewrite Ex, Ew in H. cbn [rbind] in H. injection H as <- <-. exists y, Q. exact TR.
  - injection H as <- <-. replace (Z.to_nat N) with 1%nat by lia. eexists. eexists. apply one_node.
Qed.
Lemma gl1d_rule : forall eig argsort N x w, eig_contract eig -> argsort_contract argsort -> (1 <= N)%Z ->
  gl1d eig argsort N = Ok (x, w) -> exists y V, trirule sl (Z.to_nat N) x w y V.
Proof.
  intros eig argsort N x w HE HA HN H. unfold gl1d, g1d in H. destruct (Z.ltb_spec 1 N) as [L|L].
  - replace (String.eqb "Legendre" "Hermite") with false in H by reflexivity. rewrite String.eqb_refl in H. cbv iota in H.
    destruct (r_legendre_spec N L) as (ab & Eab & Sab & H0 & H1 & H2). rewrite Eab in H. cbn [rbind] in H.
    apply rbind_ok in H. destruct H as (J & EJ & H). apply rbind_ok in H. destruct H as ((e & V) & EV & H).
    destruct (g1d_rule sl eig argsort ab (Z.to_nat N) sl_ne HE HA ltac:(lia) Sab) with (J := J) (e := e) (V := V) as (x0 & w0 & y & Q & Ex & Ew & TR); auto.
    { intros i Hi. apply H0. lia. }
    { intros i Hi. rewrite H1 by lia. apply sqrt_sl. lia. }
    cbv zeta in H. rewrite Ex, Ew in H. cbn [rbind] in H. injection H as <- <-. exists y, Q. exact TR.
  - injection H as <- <-. replace (Z.to_nat N) with 1%nat by lia. eexists. eexists. apply one_node.
Qed.

Lemma g1d_returns : forall eig argsort N q, eig_contract eig -> eig_total eig -> argsort_contract argsort ->
  q = "Hermite"%string \/ q = "Legendre"%string -> exists x w, g1d eig argsort N q = Ok (x, w).
Proof.
  intros eig argsort N q HE HT HA Hq. unfold g1d. destruct (Z.ltb_spec 1 N) as [L|L]; [|eauto].
  assert (K : exists ab s, (forall k, (1 <= k)%nat -> s k <> 0) /\ (if String.eqb q "Hermite" then r_hermite (IsA N) else if String.eqb q "Legendre" then r_jacobi (IsA N) (-1) 1 0 0 else Err ValueError) = Ok ab
     /\ shape ab = [(Z.to_nat N + 1)%nat; 2%nat] /\ (forall i, (i < Z.to_nat N)%nat -> ab.[i, 0%nat] = 0) /\ (forall i, (1 <= i < Z.to_nat N)%nat -> sqrt (ab.[i, 1%nat]) = s i)).
  { destruct Hq as [-> | ->];
      [rewrite String.eqb_refl|replace (String.eqb "Legendre" "Hermite") with false by reflexivity; rewrite String.eqb_refl]; cbv iota.
    - destruct (r_hermite_spec N L) as (ab & Eab & Sab & H0 & H1 & H2). exists ab, sh. split; [apply sh_ne|]. split; [auto|]. split; [auto|]. split.
      + intros; apply H0; lia.
      + intros i Hi. rewrite H1 by lia. reflexivity.
    - destruct (r_legendre_spec N L) as (ab & Eab & Sab & H0 & H1 & H2). exists ab, sl. split; [apply sl_ne|]. split; [auto|]. split; [auto|]. split.
      + intros; apply H0; lia.
      + intros i Hi. rewrite H1 by lia. apply sqrt_sl. lia. }
  destruct K as (ab & s & Hs & Eab & Sab & H0 & H1). rewrite Eab. cbn [rbind].
  destruct (jacobi_entries ab (Z.to_nat N) Sab ltac:(lia)) as (J & EJ & SJ & HJ). rewrite EJ. cbn [rbind].
  destruct (HT (Z.to_nat N) J ltac:(lia) SJ) as ((e & V) & EV).
  { intros i j Hi Hj. unfold ent. rewrite !HJ by auto.
    destruct (Nat.eqb_spec i j) as [->|]; [now rewrite Nat.eqb_refl|]. destruct (Nat.eqb_spec j i); [lia|].
    destruct (Nat.eqb_spec j (i + 1)), (Nat.eqb_spec i (j + 1)); auto; lia. }
  rewrite EV. cbn [rbind].
  destruct (g1d_rule s eig argsort ab (Z.to_nat N) Hs HE HA ltac:(lia) Sab H0 H1 J e V EJ EV) as (x0 & w0 & y & Q & Ex & Ew & TR).
  cbv zeta in *. rewrite Ex, Ew. cbn [rbind]. eauto.
Qed.
