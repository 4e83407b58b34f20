(** Lemmas for C33-C35 and the design part of C26 *)
From Coq Require Import String Reals Lra Lia List Arith ZArith Bool.
From Verif Require Import Prelude Py NumArr M_Misc M_Gradients M_Subspaces M_Quadrature M_QP M_Domains P_Domains M_Designs.
Import ListNotations.
Open Scope R_scope.

Lemma split_vec : forall N n (y : nat -> R), exists Y, reshape [N; n] (mk1 (N * n) y) = Ok Y /\ shape Y = [N; n] /\
  forall i k, (i < N)%nat -> (k < n)%nat -> Y.[i, k] = y (i * n + k)%nat.
Proof.
  intros N n y. destruct (reshape_ok _ [N; n] (mk1 (N * n) y)) as (Y & E & S & H).
  { unfold size. simpl. lia. }
  exists Y. split; auto. split; auto. intros i k Hi Hk. rewrite H by (repeat constructor; auto).
  cbn [shape mk1 unravel ravel prodn at_ nth]. rewrite Nat.div_1_r. f_equal. lia.
Qed.
Lemma flatten_mat : forall (X : nd R) r c, shape X = [r; c] -> (0 < c)%nat -> exists v, reshape [(r * c)%nat] X = Ok v /\ shape v = [(r * c)%nat] /\
  forall i k, (i < r)%nat -> (k < c)%nat -> v.[(i * c + k)%nat] = X.[i, k].
Proof.
  intros X r c SX Hc. destruct (reshape_ok _ [(r * c)%nat] X) as (Y & E & S & H).
  { unfold size. rewrite SX. simpl. lia. }
  exists Y. split; auto. split; auto. intros i k Hi Hk. rewrite H by (constructor; [nia|constructor]). rewrite SX. cbn [unravel ravel prodn].
  rewrite !Nat.mul_1_r, Nat.add_0_r, Nat.div_1_r. rewrite Nat.div_add_l by lia. rewrite (Nat.add_comm (i * c) k), Nat.mod_add by lia.
  rewrite Nat.div_small, Nat.mod_small by auto. now rewrite Nat.add_0_r.
Qed.

Lemma distance_matrix_ok : forall X Y r s n, shape X = [r; n] -> shape Y = [s; n] ->
  distance_matrix X Y = Ok (mk2 r s (fun i j => sqrt (sumf n (fun k => (X.[i, k] - Y.[j, k]) * (X.[i, k] - Y.[j, k]))))).
Proof. intros X Y r s n HX HY. unfold distance_matrix, shape2. rewrite HX, HY. cbn [rbind]. rewrite Nat.eqb_refl. reflexivity. Qed.

Lemma amin_flat_ok : forall D r c (p : nat -> nat -> R), shape D = [r; c] -> (0 < r)%nat -> (0 < c)%nat ->
  (forall i j, (i < r)%nat -> (j < c)%nat -> D.[i, j] ^ 2 = p i j) ->
  exists i j, (i < r)%nat /\ (j < c)%nat /\ amin_flat D = Ok (p i j, (i * c + j)%nat) /\ forall i' j', (i' < r)%nat -> (j' < c)%nat -> p i j <= p i' j'.
Proof.
  intros D r c p SD Hr Hc HP. unfold amin_flat. rewrite (nrows_shape2 _ D _ _ SD), (ncols_shape2 _ D _ _ SD).
  destruct (r * c)%nat as [|K] eqn:EK; [nia|]. set (d := fun k0 => D.[(k0 / c)%nat, (k0 mod c)%nat] ^ 2). destruct (argmin_upto_spec K d) as (H1 & H2 & _).
  set (k := argmin_upto K d) in *. assert (A : (k / c < r)%nat) by (apply Nat.div_lt_upper_bound; nia). assert (A' : (k mod c < c)%nat) by (apply Nat.mod_upper_bound; lia).
  exists (k / c)%nat, (k mod c)%nat. split; auto. split; auto. split.
  - do 2 f_equal; [apply HP; auto|]. rewrite (Nat.div_mod k c) at 1 by lia. lia.
  - intros i j Hi Hj. rewrite <- !HP by auto. change (d k <= D.[i, j] ^ 2). specialize (H2 (i * c + j)%nat ltac:(nia)). unfold d in H2 at 2.
    rewrite Nat.div_add_l in H2 by lia. rewrite (Nat.add_comm (i * c) j), Nat.mod_add in H2 by lia. rewrite Nat.div_small, Nat.mod_small in H2 by auto. now rewrite Nat.add_0_r in H2.
Qed.

(** squared distances of a design given by its coordinates y *)
Definition dsq (n : nat) (y : nat -> R) (i j : nat) : R := sumf n (fun k => (y (i * n + k)%nat - y (j * n + k)%nat) * (y (i * n + k)%nat - y (j * n + k)%nat)).
Definition vsq (vert : nd R) (n : nat) (y : nat -> R) (i j : nat) : R := sumf n (fun k => (y (i * n + k)%nat - vert.[j, k]) * (y (i * n + k)%nat - vert.[j, k])).
(** with the shifted diagonal *)
Definition psq (n : nat) (y : nat -> R) (i j : nat) : R := if Nat.eqb i j then 10 ^ 10 else dsq n y i j.

Lemma dsq_sym : forall n y i j, dsq n y i j = dsq n y j i.
Proof. intros. unfold dsq. apply sumf_ext. intros. ring. Qed.

(** the gradient loops *)
Lemma index_split : forall n a b a' b', (b < n)%nat -> (b' < n)%nat -> ((a * n + b =? a' * n + b') = (a =? a') && (b =? b'))%nat.
Proof.
  intros n a b a' b' H H'. destruct (Nat.eqb_spec (a * n + b) (a' * n + b')) as [E|E]; destruct (Nat.eqb_spec a a') as [A|A]; destruct (Nat.eqb_spec b b') as [C|C]; simpl; auto; try nia.
Qed.
Lemma fold_pair : forall n is js (u v : nat -> R) K a b, (K <= n)%nat -> (b < n)%nat ->
  fold_left (fun g k => upd1 (upd1 g (is * n + k)%nat (u k)) (js * n + k)%nat (v k)) (seq 0 K) (fun _ => 0) (a * n + b)%nat =
  if Nat.ltb b K then (if Nat.eqb a js then v b else if Nat.eqb a is then u b else 0) else 0.
Proof.
  intros n is js u v. induction K; intros a b HK Hb; [reflexivity|]. rewrite seq_S, fold_left_app. cbn [fold_left]. simpl (0 + K)%nat.
  unfold upd1 at 1 2. rewrite !index_split by lia. rewrite IHK by lia.
  destruct (Nat.eqb_spec b K) as [->|NE].
  - rewrite Nat.ltb_irrefl, (proj2 (Nat.ltb_lt K (S K))) by lia. rewrite !andb_true_r. reflexivity.
  - rewrite !andb_false_r. destruct (Nat.ltb_spec b K), (Nat.ltb_spec b (S K)); try lia; reflexivity.
Qed.
Lemma fold_one : forall n is (u : nat -> R) K a b, (K <= n)%nat -> (b < n)%nat ->
  fold_left (fun g k => upd1 g (is * n + k)%nat (u k)) (seq 0 K) (fun _ => 0) (a * n + b)%nat =
  if Nat.ltb b K then (if Nat.eqb a is then u b else 0) else 0.
Proof.
  intros n is u. induction K; intros a b HK Hb; [reflexivity|]. rewrite seq_S, fold_left_app. cbn [fold_left]. simpl (0 + K)%nat.
  unfold upd1 at 1. rewrite !index_split by lia. rewrite IHK by lia.
  destruct (Nat.eqb_spec b K) as [->|NE].
  - rewrite Nat.ltb_irrefl, (proj2 (Nat.ltb_lt K (S K))) by lia. rewrite !andb_true_r. reflexivity.
  - rewrite !andb_false_r. destruct (Nat.ltb_spec b K), (Nat.ltb_spec b (S K)); try lia; reflexivity.
Qed.

Lemma maximin_core : forall vert Ny n N (y : nat -> R), shape vert = [Ny; n] -> (0 < n)%nat -> (0 < N)%nat -> (0 < Ny)%nat ->
  exists i0 j0 i1 j1 g, (i0 < N)%nat /\ (j0 < N)%nat /\ (i1 < N)%nat /\ (j1 < Ny)%nat /\
    (forall i j, (i < N)%nat -> (j < N)%nat -> psq n y i0 j0 <= psq n y i j) /\
    (forall i j, (i < N)%nat -> (j < Ny)%nat -> vsq vert n y i1 j1 <= vsq vert n y i j) /\
    maximin_obj vert (mk1 (N * n) y) = Ok (- Rmin (psq n y i0 j0) (vsq vert n y i1 j1)) /\
    maximin_grad vert (mk1 (N * n) y) = Ok g /\ shape g = [(N * n)%nat] /\
    forall a b, (a < N)%nat -> (b < n)%nat -> g.[(a * n + b)%nat] =
      if Rlt_dec (psq n y i0 j0) (vsq vert n y i1 j1) then
        - (if Nat.eqb a j0 then 2 * (y (j0 * n + b)%nat - y (i0 * n + b)%nat) else if Nat.eqb a i0 then 2 * (y (i0 * n + b)%nat - y (j0 * n + b)%nat) else 0)
      else - (if Nat.eqb a i1 then 2 * (y (i1 * n + b)%nat - vert.[j1, b]) else 0).
Proof.
  intros vert Ny n N y SV Hn HN HV.
  assert (ED : (size (mk1 (N * n) y) / n = N)%nat) by (unfold size; simpl; rewrite Nat.mul_1_r; apply Nat.div_mul; lia).
  destruct (split_vec N n y) as (Y & EY & SY & VY).
  destruct (flatten_mat vert Ny n SV Hn) as (v & Ev & Sv & Vv).
  set (D0 := mk2 N N (fun i j => (mk2 N N (fun i j => sqrt (sumf n (fun k => (Y.[i, k] - Y.[j, k]) * (Y.[i, k] - Y.[j, k]))))).[i, j] + 100000 * kron_delta i j)).
  set (D1 := mk2 N Ny (fun i j => sqrt (sumf n (fun k => (Y.[i, k] - vert.[j, k]) * (Y.[i, k] - vert.[j, k]))))).
  assert (SQ : forall s, 0 <= s -> sqrt s ^ 2 = s) by (intros s Hs; simpl; rewrite Rmult_1_r; now apply sqrt_def).
  destruct (amin_flat_ok D0 N N (psq n y) eq_refl HN HN) as (i0 & j0 & Hi0 & Hj0 & E0 & M0).
  { intros i j Hi Hj. unfold D0. rewrite !at_mk2 by auto. unfold psq.
    rewrite (sumf_ext n (fun k => (Y.[i, k] - Y.[j, k]) * (Y.[i, k] - Y.[j, k])) (fun k => (y (i * n + k)%nat - y (j * n + k)%nat) * (y (i * n + k)%nat - y (j * n + k)%nat))) by (intros k Hk; now rewrite !VY by auto).
    change (sumf n (fun k => (y (i * n + k)%nat - y (j * n + k)%nat) * (y (i * n + k)%nat - y (j * n + k)%nat))) with (dsq n y i j).
    unfold kron_delta. destruct (Nat.eqb_spec i j) as [->|NE].
    - replace (dsq n y j j) with 0 by (unfold dsq; rewrite sumf_zero; [auto|intros; ring]). rewrite sqrt_0. lra.
    - rewrite Rmult_0_r, Rplus_0_r. apply SQ. apply sumf_nonneg. intros. apply Rle_0_sqr. }
  destruct (amin_flat_ok D1 N Ny (vsq vert n y) eq_refl HN HV) as (i1 & j1 & Hi1 & Hj1 & E1 & M1).
  { intros i j Hi Hj. unfold D1. rewrite !at_mk2 by auto. rewrite SQ by (apply sumf_nonneg; intros; apply Rle_0_sqr). unfold vsq. apply sumf_ext. intros k Hk. now rewrite VY by auto. }
  unfold maximin_obj, maximin_grad, shape2. rewrite SV. cbn [rbind]. rewrite Ev. cbn [rbind]. rewrite (proj2 (Nat.eqb_neq n 0)) by lia. cbn [negb guard rbind]. rewrite ED, EY. cbn [rbind].
  rewrite (distance_matrix_ok Y Y N N n SY SY), (distance_matrix_ok Y vert N Ny n SY SV). cbn [rbind]. fold D0 D1. rewrite E0, E1. cbn [rbind].
  exists i0, j0, i1, j1. eexists. split; auto. split; auto. split; auto. split; auto. split; auto. split; auto. split; [reflexivity|]. split; [reflexivity|]. split; [reflexivity|].
  intros a b Ha Hb. rewrite at_mk1 by nia. f_equal.
  assert (DM : forall i j c, (j < c)%nat -> ((i * c + j) / c = i)%nat /\ ((i * c + j) mod c = j)%nat).
  { intros i j c Hj. split; [rewrite Nat.div_add_l by lia; rewrite Nat.div_small by auto; lia|rewrite Nat.add_comm, Nat.mod_add by lia; now apply Nat.mod_small]. }
  destruct (Rlt_dec (psq n y i0 j0) (vsq vert n y i1 j1)) as [C|C].
  - destruct (DM i0 j0 N Hj0) as [-> ->]. rewrite (fold_pair n i0 j0 _ _ n a b) by auto. rewrite (proj2 (Nat.ltb_lt b n)) by auto.
    rewrite !at_mk1 by nia. destruct (Nat.eqb a j0), (Nat.eqb a i0); ring.
  - destruct (DM i1 j1 Ny Hj1) as [-> ->]. rewrite (fold_one n i1 _ n a b) by auto. rewrite (proj2 (Nat.ltb_lt b n)) by auto.
    rewrite !at_mk1 by nia. rewrite Vv by auto. destruct (Nat.eqb a i1); ring.
Qed.
