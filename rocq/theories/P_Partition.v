(** Facts about the dimension-choosing functions of subspaces.py *)
From Coq Require Import String Reals Lra Lia List Arith ZArith Bool.
From Verif Require Import Prelude Py NumArr M_Subspaces.
Import ListNotations.
Open Scope R_scope.

Lemma xbefore_trans : forall a b c, xbefore a b = true -> xbefore b c = true -> xbefore a c = true.
Proof.
  intros [x| | |] [y| | |] [z| | |]; simpl; try discriminate; auto.
  destruct (Rlt_dec x y), (Rlt_dec y z), (Rlt_dec x z); auto; try discriminate. lra.
Qed.
Lemma xbefore_weak : forall a b c, xbefore a b = true -> xbefore c b = false -> xbefore a c = true.
Proof.
  intros [x| | |] [y| | |] [z| | |]; simpl; try discriminate; auto.
  destruct (Rlt_dec x y), (Rlt_dec z y), (Rlt_dec x z); auto; try discriminate. lra.
Qed.
Lemma xbefore_irrefl : forall a, xbefore a a = false.
Proof. intros [x| | |]; simpl; auto. destruct (Rlt_dec x x); auto. lra. Qed.
Lemma xbefore_fin : forall x y, xbefore (Fin x) (Fin y) = true <-> x < y.
Proof. intros. simpl. destruct (Rlt_dec x y); split; auto; discriminate. Qed.

Lemma xargmin_upto_spec : forall n f, let k := xargmin_upto n f in
  (k <= n)%nat /\ (forall i, (i <= n)%nat -> xbefore (f i) (f k) = false) /\
  (forall i, (i < k)%nat -> xbefore (f k) (f i) = true).
Proof.
  induction n as [|n IH]; intros f.
  - simpl. split; [lia|]. split; [|intros; lia]. intros i Hi. replace i with 0%nat by lia. apply xbefore_irrefl.
  - specialize (IH f). cbv zeta in *. cbn [xargmin_upto]. set (k := xargmin_upto n f) in *.
    destruct IH as (H1 & H2 & H3). destruct (xbefore (f (S n)) (f k)) eqn:E.
    + split; [lia|]. split.
      * intros i Hi. destruct (Nat.eq_dec i (S n)) as [->|]; [apply xbefore_irrefl|].
        destruct (xbefore (f i) (f (S n))) eqn:E2; auto.
        rewrite <- (H2 i ltac:(lia)). symmetry. eapply xbefore_trans; eauto.
      * intros i Hi. apply (xbefore_weak _ (f k)); auto. apply H2. lia.
    + split; [lia|]. split; auto. intros i Hi. destruct (Nat.eq_dec i (S n)) as [->|]; auto. apply H2; lia.
Qed.

(** index k is the first at which g is smallest, among 0..n-1 *)
Definition first_min (n : nat) (g : nat -> R) (k : nat) : Prop :=
  (k < n)%nat /\ (forall i, (i < n)%nat -> g k <= g i) /\ (forall i, (i < k)%nat -> g k < g i).
Definition first_max (n : nat) (g : nat -> R) (k : nat) : Prop :=
  (k < n)%nat /\ (forall i, (i < n)%nat -> g i <= g k) /\ (forall i, (i < k)%nat -> g i < g k).

Lemma first_min_unique : forall n g k k', first_min n g k -> first_min n g k' -> k = k'.
Proof.
  intros n g k k' (H1 & H2 & H3) (H1' & H2' & H3'). destruct (Nat.lt_trichotomy k k') as [L|[L|L]]; auto.
  - specialize (H3' k L). specialize (H2 k' H1'). lra.
  - specialize (H3 k' L). specialize (H2' k H1). lra.
Qed.
Lemma first_max_unique : forall n g k k', first_max n g k -> first_max n g k' -> k = k'.
Proof.
  intros n g k k' (H1 & H2 & H3) (H1' & H2' & H3'). destruct (Nat.lt_trichotomy k k') as [L|[L|L]]; auto.
  - specialize (H3' k L). specialize (H2 k' H1'). lra.
  - specialize (H3 k' L). specialize (H2' k H1). lra.
Qed.

Lemma col_unravel : forall m k, unravel [m; 1%nat] k = [k; 0%nat].
Proof.
  intros. cbn [unravel prodn]. change (1 * 1)%nat with 1%nat. rewrite Nat.div_1_r, Nat.mod_1_r. reflexivity.
Qed.

(** np.argmin of an n-by-1 array *)
Lemma np_argmin_col : forall n G, shape G = [n; 1%nat] -> (0 < n)%nat ->
  exists k, np_argmin G = Ok k /\ (k < n)%nat /\
    (forall i, (i < n)%nat -> xbefore (G.[i, 0%nat]) (G.[k, 0%nat]) = false) /\
    (forall i, (i < k)%nat -> xbefore (G.[k, 0%nat]) (G.[i, 0%nat]) = true).
Proof.
  intros n G HG Hn. unfold np_argmin, size. rewrite HG. cbn [prodn]. destruct n as [|n]; [lia|].
  replace (S n * (1 * 1))%nat with (S n) by lia.
  assert (E : xargmin_upto n (fun k => at_ G (unravel [S n; 1%nat] k)) = xargmin_upto n (fun k => G.[k, 0%nat])).
  { assert (X : forall q f g, (forall i, f i = g i) -> xargmin_upto q f = xargmin_upto q g).
    { induction q; intros f g Hfg; simpl; auto. rewrite (IHq f g Hfg), !Hfg. reflexivity. }
    apply X. intros. now rewrite col_unravel. }
  rewrite E. destruct (xargmin_upto_spec n (fun k => G.[k, 0%nat])) as (H1 & H2 & H3).
  eexists; split; [reflexivity|]. split; [lia|]. split; auto. intros i Hi. apply H2. lia.
Qed.

Lemma np_argmin_col_fin : forall n G g, shape G = [n; 1%nat] -> (0 < n)%nat ->
  (forall i, (i < n)%nat -> G.[i, 0%nat] = Fin (g i)) ->
  exists k, np_argmin G = Ok k /\ first_min n g k.
Proof.
  intros n G g HG Hn Hg. destruct (np_argmin_col n G HG Hn) as (k & E & Hk & H1 & H2).
  exists k. split; auto. split; auto. split.
  - intros i Hi. specialize (H1 i Hi). rewrite !Hg in H1 by auto. destruct (Rle_dec (g k) (g i)); auto.
    assert (X : xbefore (Fin (g i)) (Fin (g k)) = true) by (apply xbefore_fin; lra). congruence.
  - intros i Hi. specialize (H2 i Hi). rewrite !Hg in H2 by lia. now apply xbefore_fin.
Qed.

Lemma eig_partition_eq : forall m e, shape e = [m; 1%nat] -> (2 <= m)%nat ->
  exists k ed, eig_partition e = Ok (Z.of_nat k + 1, ed)%Z /\ shape ed = [(m - 1)%nat] /\
    (forall i, (i < m - 1)%nat -> ed.[i] = Rabs (e.[S i, 0%nat] - e.[i, 0%nat])) /\
    first_max (m - 1) (fun i => Rabs (e.[S i, 0%nat] - e.[i, 0%nat])) k.
Proof.
  intros m e He Hm. unfold eig_partition. assert (Hsz : size e = m) by (unfold size; rewrite He; simpl; lia).
  rewrite Hsz. destruct (reshape_ok _ [m] e) as (v & E1 & E2 & E3); [simpl; lia|]. rewrite E1. cbn [rbind].
  assert (Ev : forall i, (i < m)%nat -> v.[i] = e.[i, 0%nat]).
  { intros i Hi. rewrite E3 by (constructor; auto; constructor). rewrite He, col_unravel. cbn [ravel prodn]. do 2 f_equal. lia. }
  destruct (m - 1)%nat as [|q] eqn:Eq; [lia|]. cbn [np_argmax rbind].
  eexists _, _. split; [reflexivity|]. split; [reflexivity|]. split.
  - intros i Hi. rewrite at_mk1, !Ev by lia. reflexivity.
  - match goal with |- first_max _ _ (argmax_upto q ?f) => set (F := f); destruct (argmax_upto_spec q F) as (H1 & H2 & H3) end.
    assert (EF : forall i, (i <= q)%nat -> F i = Rabs (e.[S i, 0%nat] - e.[i, 0%nat])).
    { intros i Hi. unfold F. rewrite at_mk1, !Ev by lia. reflexivity. }
    split; [lia|]. rewrite <- !EF by auto. split.
    + intros i Hi. rewrite <- EF by lia. apply H2. lia.
    + intros i Hi. rewrite <- EF by lia. apply H3. lia.
Qed.

Lemma eig_partition_small : forall m e, shape e = [m; 1%nat] -> (m <= 1)%nat -> eig_partition e = Err ValueError.
Proof.
  intros m e He Hm. unfold eig_partition. assert (Hsz : size e = m) by (unfold size; rewrite He; simpl; lia).
  rewrite Hsz. destruct (reshape_ok _ [m] e) as (v & E1 & E2 & E3); [simpl; lia|]. rewrite E1. cbn [rbind].
  replace (m - 1)%nat with 0%nat by lia. reflexivity.
Qed.

(** the error-bound criterion for an active subspace of dimension n *)
Definition rs_bound (m : nat) (e err : nat -> R) (n : nat) : R :=
  sqrt (sumf n e) * err (n - 1)%nat + sqrt (sumf (m - n) (fun k => e (n + k)%nat)).

Lemma errbnd_partition_eq : forall m e err, shape e = [m; 1%nat] -> shape err = [(m - 1)%nat; 1%nat] -> (2 <= m)%nat ->
  (forall i, (i < m)%nat -> 0 <= e.[i, 0%nat]) ->
  let g := fun i => rs_bound m (fun k => e.[k, 0%nat]) (fun k => err.[k, 0%nat]) (i + 1) in
  exists k eb, errbnd_partition e err = Ok (Z.of_nat k + 1, eb)%Z /\ shape eb = [(m - 1)%nat; 1%nat] /\
    (forall i, (i < m - 1)%nat -> eb.[i, 0%nat] = Fin (g i)) /\ first_min (m - 1) g k.
Proof.
  intros m e err He Hr Hm Hp g. unfold errbnd_partition.
  rewrite (nrows_shape2 _ e m 1 He), (nrows_shape2 _ err _ _ Hr), (ncols_shape2 _ err _ _ Hr).
  destruct m as [|m1]; [lia|]. replace (S m1 - 1)%nat with m1 in * by lia.
  rewrite Nat.ltb_irrefl, Nat.eqb_refl, (proj2 (Nat.eqb_neq m1 0) ltac:(lia)), !Bool.andb_false_r.
  set (G := mk2 m1 1 _).
  assert (EG : forall i, (i < m1)%nat -> G.[i, 0%nat] = Fin (g i)).
  { intros i Hi. unfold G. rewrite at_mk2. unfold xsqrt.
    assert (0 <= sumf (i + 1) (fun k => e.[k, 0%nat])) by (apply sumf_nonneg; intros; apply Hp; lia).
    assert (0 <= sumf (S m1 - (i + 1)) (fun k => e.[(i + 1 + k)%nat, 0%nat])) by (apply sumf_nonneg; intros; apply Hp; lia).
    destruct (Rlt_dec (sumf (i + 1) (fun k => e.[k, 0%nat])) 0); [lra|].
    destruct (Rlt_dec (sumf (S m1 - (i + 1)) (fun k => e.[(i + 1 + k)%nat, 0%nat])) 0); [lra|].
    cbn [xmul xadd]. unfold g, rs_bound. replace (i + 1 - 1)%nat with i by lia. reflexivity. }
  destruct (np_argmin_col_fin m1 G g eq_refl ltac:(lia) EG) as (k & Ek & Hk). rewrite Ek. cbn [rbind].
  exists k, G. repeat split; auto; apply Hk.
Qed.

Lemma errbnd_partition_one : forall e err, shape e = [1%nat; 1%nat] -> errbnd_partition e err = Err ValueError.
Proof.
  intros e err He. unfold errbnd_partition. rewrite (nrows_shape2 _ e 1 1 He).
  cbn [Nat.ltb Nat.leb andb]. destruct (Nat.ltb (nrows err) 0) eqn:E; [apply Nat.ltb_lt in E; lia|]. reflexivity.
Qed.

Lemma ladle_sum : forall m e (F : nd xr), shape e = [m; 1%nat] -> shape F = [m; 1%nat] ->
  exists G, shape G = [m; 1%nat] /\
    (forall i, (i < m)%nat -> G.[i, 0%nat] = xadd (F.[i, 0%nat]) (xdiv (Fin (e.[i, 0%nat])) (Fin (sumf m (fun k => e.[k, 0%nat]))))) /\
    ladle_partition e F = (do k <- np_argmin G; Ok (Z.of_nat k + 1, G)%Z).
Proof.
  intros m e F He HF. unfold ladle_partition. assert (Hsz : size e = m) by (unfold size; rewrite He; simpl; lia).
  assert (ER : reshape [m; 1%nat] e = Ok e) by (rewrite <- He; apply reshape_id). rewrite Hsz, ER. cbn [rbind].
  destruct (bcast2_same _ _ _ xadd F (amap (fun x => xdiv (Fin x) (Fin (sumf m (fun k => e.[k, 0%nat])))) e) m 1 HF He) as (G & E1 & E2 & E3).
  rewrite E1. cbn [rbind]. exists G. split; auto. split; auto. intros i Hi. now rewrite E3 by (auto; lia).
Qed.

Lemma ladle_partition_eq : forall m e F Fr, shape e = [m; 1%nat] -> shape F = [m; 1%nat] -> (1 <= m)%nat ->
  (forall i, (i < m)%nat -> F.[i, 0%nat] = Fin (Fr i)) -> sumf m (fun k => e.[k, 0%nat]) <> 0 ->
  let g := fun i => Fr i + e.[i, 0%nat] / sumf m (fun k => e.[k, 0%nat]) in
  exists k G, ladle_partition e F = Ok (Z.of_nat k + 1, G)%Z /\ shape G = [m; 1%nat] /\
    (forall i, (i < m)%nat -> G.[i, 0%nat] = Fin (g i)) /\ first_min m g k.
Proof.
  intros m e F Fr He HF Hm HFr Hs g. destruct (ladle_sum m e F He HF) as (G & E2 & E3 & ->).
  assert (EG : forall i, (i < m)%nat -> G.[i, 0%nat] = Fin (g i)).
  { intros i Hi. rewrite E3, HFr, xdiv_fin by auto. reflexivity. }
  destruct (np_argmin_col_fin m G g E2 ltac:(lia) EG) as (k & Ek & Hk). rewrite Ek. cbn [rbind].
  exists k, G. repeat split; auto; apply Hk.
Qed.

(** when the criterion is not a number for n = 1, the answer is 1 *)
Lemma ladle_partition_nan : forall m e F, shape e = [m; 1%nat] -> shape F = [m; 1%nat] -> (1 <= m)%nat ->
  F.[0%nat, 0%nat] = NaN \/ (forall i, (i < m)%nat -> e.[i, 0%nat] = 0) ->
  exists G, ladle_partition e F = Ok (1%Z, G) /\ shape G = [m; 1%nat] /\ G.[0%nat, 0%nat] = NaN.
Proof.
  intros m e F He HF Hm HN. destruct (ladle_sum m e F He HF) as (G & E2 & E3 & ->).
  assert (G0 : G.[0%nat, 0%nat] = NaN).
  { rewrite E3 by lia. destruct HN as [->|Hz]; [reflexivity|]. rewrite Hz by lia.
    rewrite (sumf_zero m) by auto. simpl. destruct (Req_EM_T 0 0); [|lra]. unfold xsgninf.
    destruct (Rlt_dec 0 0); [lra|]. destruct (F.[0%nat, 0%nat]); reflexivity. }
  destruct (np_argmin_col m G E2 ltac:(lia)) as (k & Ek & Hk & H1 & H2).
  assert (k = 0%nat).
  { destruct k as [|k]; auto. specialize (H2 0%nat ltac:(lia)). rewrite G0 in H2.
    destruct (G.[S k, 0%nat]); simpl in H2; discriminate. }
  subst k. rewrite Ek. cbn [rbind]. exists G. auto.
Qed.
