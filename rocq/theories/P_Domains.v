(** Lemmas about the model of domains.py: coordinates, interval, helpers *)
From Coq Require Import String Reals Lra Lia List Arith ZArith Bool.
From Verif Require Import Prelude Py NumArr LinAlg M_Misc M_RespSurf M_Gradients M_Subspaces M_QP M_Domains P_QP.
Import ListNotations.
Open Scope R_scope.

Lemma Rleb_spec : forall a b, Rleb a b = true <-> a <= b.
Proof. intros a b. unfold Rleb. destruct (Rle_dec a b); split; intros; try discriminate; try contradiction; auto. Qed.
Lemma Rltb_spec : forall a b, Rltb a b = true <-> a < b.
Proof. intros a b. unfold Rltb. destruct (Rlt_dec a b); split; intros; try discriminate; try contradiction; auto. Qed.
Lemma Rleb_false : forall a b, Rleb a b = false <-> b < a.
Proof. intros a b. unfold Rleb. destruct (Rle_dec a b); split; intros; try discriminate; try lra; auto. Qed.
Lemma Rltb_false : forall a b, Rltb a b = false <-> b <= a.
Proof. intros a b. unfold Rltb. destruct (Rlt_dec a b); split; intros; try discriminate; try lra; auto. Qed.

Lemma process_inputs_ok : forall A (X : nd A) M m, shape X = [M; m] -> process_inputs X = Ok (X, M, m).
Proof. intros A X M m H. unfold process_inputs. rewrite H. rewrite <- H at 1. rewrite reshape_id. reflexivity. Qed.

Lemma npdot2 : forall X Y r k c, shape X = [r; k] -> shape Y = [k; c] ->
  npdot X Y = Ok (mk2 r c (fun i j => sumf k (fun l => X.[i, l] * Y.[l, j]))).
Proof. intros X Y r k c HX HY. unfold npdot. rewrite HX, HY. unfold mdot. rewrite HX, HY, Nat.eqb_refl. reflexivity. Qed.
Lemma npdot21 : forall X y r k, shape X = [r; k] -> shape y = [k] ->
  npdot X y = Ok (mk1 r (fun i => sumf k (fun l => X.[i, l] * y.[l]))).
Proof. intros X y r k HX HY. unfold npdot. rewrite HX, HY, Nat.eqb_refl. reflexivity. Qed.
Lemma npdot21_inv : forall X y r k v, shape X = [r; k] -> rank y = 1%nat -> npdot X y = Ok v -> shape y = [k].
Proof.
  intros X y r k v HX HY H. unfold npdot in H. rewrite HX in H. unfold rank in HY. destruct (shape y) as [|a [|? ?]]; try discriminate.
  destruct (Nat.eqb_spec k a); [now subst|discriminate].
Qed.

(** [for y in Y]: row i *)
Lemma shift_of_ok : forall W1 y m n, shape W1 = [m; n] -> shape y = [n] -> exists s,
  shift_of W1 y m = Ok s /\ shape s = [m; 1%nat] /\ forall i, (i < m)%nat -> s.[i, 0%nat] = sumf n (fun j => W1.[i, j] * y.[j]).
Proof.
  intros W1 y m n HW Hy. unfold shift_of. rewrite (npdot21 W1 y m n HW Hy). cbn [rbind].
  destruct (flat_col (mk1 m (fun i => sumf n (fun l => W1.[i, l] * y.[l]))) m eq_refl) as (s & E & S1 & V).
  exists s. split; auto.
Qed.
Lemma shift_of_inv : forall W1 y m n s, shape W1 = [m; n] -> rank y = 1%nat -> shift_of W1 y m = Ok s -> shape y = [n].
Proof.
  intros W1 y m n s HW Hy H. unfold shift_of in H. apply rbind_ok in H. destruct H as (v & E & _). eapply npdot21_inv; eauto.
Qed.

Lemma polytope_ok : forall W2 s m k, shape W2 = [m; k] -> shape s = [m; 1%nat] -> exists A b,
  polytope W2 s m = Ok (A, b) /\ shape A = [(2 * m)%nat; k] /\ shape b = [(2 * m)%nat; 1%nat] /\
  (forall i j, (i < m)%nat -> A.[i, j] = W2.[i, j]) /\ (forall i j, (i < m)%nat -> A.[(m + i)%nat, j] = - W2.[i, j]) /\
  (forall i, (i < m)%nat -> b.[i, 0%nat] = -1 - s.[i, 0%nat]) /\ (forall i, (i < m)%nat -> b.[(m + i)%nat, 0%nat] = -1 + s.[i, 0%nat]).
Proof.
  intros W2 s m k H2 Hs. unfold polytope, vstack, amap. cbn [shape]. rewrite H2, Hs. cbn [rbind]. rewrite Nat.eqb_refl. cbn [rbind Nat.eqb].
  replace (2 * m)%nat with (m + m)%nat by lia.
  match goal with |- context [reshape ?s ?X] => change (reshape s X) with (reshape (shape X) X); rewrite reshape_id end. cbn [rbind].
  do 2 eexists. split; [reflexivity|]. cbn [shape mk2 at_]. split; [reflexivity|]. split; [reflexivity|].
  repeat split; intros; cbn [nth].
  - destruct (Nat.ltb_spec i m); [reflexivity|lia].
  - destruct (Nat.ltb_spec (m + i) m); [lia|]. replace (m + i - m)%nat with i by lia. reflexivity.
  - destruct (Nat.ltb_spec i m); [reflexivity|lia].
  - destruct (Nat.ltb_spec (m + i) m); [lia|]. replace (m + i - m)%nat with i by lia. reflexivity.
Qed.
(** A z >= b says -1 <= s + W2 z <= 1 *)
Lemma polytope_meaning : forall W2 s m k A b (z : nat -> R), shape A = [(2 * m)%nat; k] ->
  (forall i j, (i < m)%nat -> A.[i, j] = W2.[i, j]) -> (forall i j, (i < m)%nat -> A.[(m + i)%nat, j] = - W2.[i, j]) ->
  (forall i, (i < m)%nat -> b.[i, 0%nat] = -1 - s.[i, 0%nat]) -> (forall i, (i < m)%nat -> b.[(m + i)%nat, 0%nat] = -1 + s.[i, 0%nat]) ->
  ((forall r, (r < 2 * m)%nat -> b.[r, 0%nat] <= sumf k (fun j => A.[r, j] * z j)) <->
   forall i, (i < m)%nat -> -1 <= s.[i, 0%nat] + sumf k (fun j => W2.[i, j] * z j) <= 1).
Proof.
  intros W2 s m k A b z HA A1 A2 B1 B2.
  assert (E1 : forall i, (i < m)%nat -> sumf k (fun j => A.[i, j] * z j) = sumf k (fun j => W2.[i, j] * z j)).
  { intros i Hi. apply sumf_ext. intros j Hj. now rewrite A1. }
  assert (E2 : forall i, (i < m)%nat -> sumf k (fun j => A.[(m + i)%nat, j] * z j) = - sumf k (fun j => W2.[i, j] * z j)).
  { intros i Hi. rewrite <- sumf_opp. apply sumf_ext. intros j Hj. rewrite A2 by auto. ring. }
  split.
  - intros H i Hi. assert (H1 := H i ltac:(lia)). assert (H2 := H (m + i)%nat ltac:(lia)). rewrite E1, B1 in H1 by auto. rewrite E2, B2 in H2 by auto. lra.
  - intros H r Hr. destruct (le_lt_dec m r) as [G|G].
    + replace r with (m + (r - m))%nat by lia. rewrite E2, B2 by lia. specialize (H (r - m)%nat ltac:(lia)). lra.
    + rewrite E1, B1 by lia. specialize (H r G). lra.
Qed.

(** ** _rotate_x *)

Lemma ravel3_2 : forall m a N j i l, ravel [m; a; N] [j; i; l] = ravel [m; (N * a)%nat] [j; (i * N + l)%nat].
Proof. intros. unfold ravel, prodn. nia. Qed.

Lemma reshape_ok_same : forall A shp (X : nd A), shape X = shp -> exists Y, reshape shp X = Ok Y /\ shape Y = shp /\ forall ix, at_ Y ix = at_ X ix.
Proof. intros A shp X <-. exists X. split; [apply reshape_id|]. split; auto. Qed.

Lemma rotate_x_ok : forall Y Z Wm NY n k N, shape Y = [NY; n] -> shape Z = [NY; k; N] -> shape Wm = [(n + k)%nat; (n + k)%nat] ->
  exists X ind, rotate_x Y Z Wm = Ok (X, ind) /\ shape X = [(N * NY)%nat; (n + k)%nat] /\ shape ind = [(N * NY)%nat; 1%nat] /\
    (forall i l a, (i < NY)%nat -> (l < N)%nat -> (a < n + k)%nat ->
       X.[(i * N + l)%nat, a] = sumf n (fun j => Wm.[a, j] * Y.[i, j]) + sumf k (fun j => Wm.[a, (n + j)%nat] * Z.[i, j, l])) /\
    (forall i l, (i < NY)%nat -> (l < N)%nat -> ind.[(i * N + l)%nat, 0%nat] = INR i).
Proof.
  intros Y Z Wm NY n k N HY HZ HW. unfold rotate_x, shape2. rewrite HY. cbn [rbind]. rewrite HZ.
  destruct (reshape_ok R [NY; n; 1%nat] Y) as (Y3 & EY & SY & VY). { unfold size. rewrite HY. simpl. nia. }
  rewrite EY. cbn [rbind]. rewrite Nat.eqb_refl. cbn [rbind guard].
  set (T := mk3 (n + k) NY N _).
  destruct (reshape_ok R [(n + k)%nat; (N * NY)%nat] T) as (T2 & ET & ST & VT). { unfold size, T. simpl. nia. }
  rewrite ET. cbn [rbind].
  rewrite (npdot2 (tr T2) (tr Wm) (N * NY) (n + k) (n + k)).
  2: { unfold tr. rewrite (nrows_shape2 _ T2 _ _ ST), (ncols_shape2 _ T2 _ _ ST). reflexivity. }
  2: { unfold tr. rewrite (nrows_shape2 _ Wm _ _ HW), (ncols_shape2 _ Wm _ _ HW). reflexivity. }
  cbn [rbind]. set (XW := mk2 (N * NY) (n + k) _).
  destruct (reshape_ok_same R [(N * NY)%nat; (n + k)%nat] XW eq_refl) as (X & EX & SX & VX). rewrite EX. cbn [rbind].
  set (IV := mk1 (NY * N) (fun r => INR (r / N) * 1)).
  destruct (reshape_ok R [(N * NY)%nat; 1%nat] IV) as (ind & EI & SI & VI). { unfold size, IV. simpl. nia. }
  rewrite EI. cbn [rbind]. exists X, ind. split; [reflexivity|]. split; [exact SX|]. split; [exact SI|].
  assert (RR : forall i l, (i < NY)%nat -> (l < N)%nat -> (i * N + l < N * NY)%nat) by (intros; nia).
  split.
  - intros i l a Hi Hl Ha. rewrite VX. unfold XW. rewrite at_mk2.
    assert (TT : forall j, (j < n + k)%nat -> T2.[j, (i * N + l)%nat] = if Nat.ltb j n then Y.[i, j] else Z.[i, (j - n)%nat, l]).
    { intros j Hj. rewrite VT by (repeat constructor; auto). change (shape T) with [(n + k)%nat; NY; N].
      rewrite <- ravel3_2. rewrite unravel_ravel by (repeat constructor; auto).
      unfold T. rewrite !at_mk3. destruct (Nat.ltb_spec j n) as [L|L]; auto.
      rewrite VY by (repeat constructor; auto). rewrite HY. f_equal.
      replace (ravel [NY; n; 1%nat] [i; j; 0%nat]) with (ravel [NY; n] [i; j]) by (unfold ravel, prodn; nia).
      apply unravel_ravel. repeat constructor; auto. }
    rewrite sumf_split. f_equal.
    + apply sumf_ext. intros j Hj. unfold tr. rewrite !at_mk2, TT by lia. destruct (Nat.ltb_spec j n); [ring|lia].
    + apply sumf_ext. intros j Hj. unfold tr. rewrite !at_mk2, TT by lia. destruct (Nat.ltb_spec (n + j) n); [lia|]. replace (n + j - n)%nat with j by lia. ring.
  - intros i l Hi Hl. rewrite VI by (repeat constructor; auto). unfold IV. cbn [shape mk1].
    replace (ravel [(N * NY)%nat; 1%nat] [(i * N + l)%nat; 0%nat]) with (ravel [(NY * N)%nat] [(i * N + l)%nat]) by (unfold ravel, prodn; nia).
    rewrite unravel_ravel by (constructor; [specialize (RR i l Hi Hl); nia|constructor]). rewrite at_mk1. rewrite div_add_lt by auto. ring.
Qed.

(** ** interval_endpoints *)

Lemma np_sign_abs : forall x, x * np_sign x = Rabs x.
Proof. intros x. unfold np_sign, Rabs. destruct (Rlt_dec 0 x); destruct (Rcase_abs x); try destruct (Rlt_dec x 0); lra. Qed.
Lemma np_sign_cases : forall x, np_sign x = 1 \/ np_sign x = -1 \/ (np_sign x = 0 /\ x = 0).
Proof. intros x. unfold np_sign. destruct (Rlt_dec 0 x); auto. destruct (Rlt_dec x 0); auto. right. right. split; auto. lra. Qed.

Lemma interval_endpoints_ok : forall W1 m, shape W1 = [m; 1%nat] -> exists Y X,
  interval_endpoints W1 = Ok (Y, X) /\ shape Y = [2%nat; 1%nat] /\ shape X = [2%nat; m] /\
  Y.[0%nat, 0%nat] = - sumf m (fun i => Rabs (W1.[i, 0%nat])) /\ Y.[1%nat, 0%nat] = sumf m (fun i => Rabs (W1.[i, 0%nat])) /\
  (forall i, (i < m)%nat -> X.[0%nat, i] = - np_sign (W1.[i, 0%nat])) /\ (forall i, (i < m)%nat -> X.[1%nat, i] = np_sign (W1.[i, 0%nat])).
Proof.
  intros W1 m H. unfold interval_endpoints, shape2. rewrite H. cbn [rbind].
  rewrite (npdot2 (tr W1) (amap np_sign W1) 1 m 1); [|unfold tr; now rewrite (nrows_shape2 _ W1 _ _ H), (ncols_shape2 _ W1 _ _ H)|exact H].
  cbn [rbind]. unfold first2. cbn [shape mk2 rbind]. unfold size. cbn [shape mk1 prodn Nat.mul Nat.add Nat.eqb negb].
  set (q := sumf m (fun i => Rabs (W1.[i, 0%nat]))).
  assert (Q : sumf m (fun l => (tr W1).[0%nat, l] * (amap np_sign W1).[l, 0%nat]) = q).
  { apply sumf_ext. intros i Hi. unfold tr, amap. cbn [mk2 at_ nth]. apply np_sign_abs. }
  assert (Q0 : 0 <= q) by (apply sumf_nonneg; intros; apply Rabs_pos).
  cbn [amap mk1 at_ nth]. change (at_ (tr W1)) with (at_ (tr W1)).
  match goal with |- context [Rlt_dec ?a ?b] => replace a with q end.
  destruct (Rlt_dec q (- q)) as [C|C]; [lra|]. cbn [rbind mk1 at_ nth].
  match goal with |- context [reshape [2%nat; 1%nat] ?V] => set (V0 := V); destruct (reshape_ok_same R [2%nat; 1%nat] V0 eq_refl) as (Y & EY & SY & VY) end.
  rewrite EY. cbn [rbind].
  set (xl := ND (shape W1) (fun ix => - np_sign (at_ W1 ix))).
  assert (HR : forall V : nd R, shape V = [m; 1%nat] -> exists V', reshape [1%nat; m] V = Ok V' /\ shape V' = [1%nat; m] /\ forall i, (i < m)%nat -> V'.[0%nat, i] = V.[i, 0%nat]).
  { intros V HV. destruct (reshape_ok R [1%nat; m] V) as (V' & E & S1 & V1). { unfold size. rewrite HV. simpl. lia. }
    exists V'. split; auto. split; auto. intros i Hi. rewrite V1 by (repeat constructor; auto). rewrite HV. f_equal.
    replace (ravel [1%nat; m] [0%nat; i]) with (ravel [m; 1%nat] [i; 0%nat]) by (unfold ravel, prodn; lia). apply unravel_ravel. repeat constructor; auto. }
  destruct (HR (amap Ropp (amap np_sign W1)) H) as (X1 & E1 & S1 & V1). destruct (HR (amap np_sign W1) H) as (X2 & E2 & S2 & V2).
  unfold amap in E1, E2. cbn [shape at_] in E1, E2. unfold amap. cbn [shape at_]. rewrite E1. cbn [rbind]. rewrite E2. cbn [rbind].
  unfold vstack. rewrite S1, S2, Nat.eqb_refl. cbn [rbind]. do 2 eexists. split; [reflexivity|]. split; [exact SY|]. split; [reflexivity|].
  split; [|split; [|split]].
  - rewrite VY. transitivity (- sumf m (fun l => (tr W1).[0%nat, l] * (amap np_sign W1).[l, 0%nat])); [reflexivity|now rewrite Q].
  - rewrite VY. rewrite <- Q. reflexivity.
  - intros i Hi. rewrite at_mk2. cbn [Nat.ltb Nat.leb]. rewrite V1 by auto. reflexivity.
  - intros i Hi. rewrite at_mk2. cbn [Nat.ltb Nat.leb Nat.sub]. rewrite V2 by auto. reflexivity.
Qed.
