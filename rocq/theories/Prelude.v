(** Finite sums over [R], first-argmin / argmax, and small list facts.
    Nothing here models Python code; it is the vocabulary used by the model
    and by the specifications. *)
From Coq Require Import Reals Lra Lia List Arith ZArith Bool.
Import ListNotations.
Open Scope R_scope.

(** ** Finite sums [f 0 + ... + f (n-1)] *)

Fixpoint sumf (n : nat) (f : nat -> R) : R :=
  match n with
  | O => 0
  | S k => sumf k f + f k
  end.

Definition kron_delta (i j : nat) : R := if Nat.eqb i j then 1 else 0.

Lemma kd_same : forall i, kron_delta i i = 1.
Proof. intros; unfold kron_delta; now rewrite Nat.eqb_refl. Qed.

Lemma kd_diff : forall i j, i <> j -> kron_delta i j = 0.
Proof. intros i j H; unfold kron_delta. now rewrite (proj2 (Nat.eqb_neq i j) H). Qed.

Lemma kd_sym : forall i j, kron_delta i j = kron_delta j i.
Proof. intros; unfold kron_delta; now rewrite Nat.eqb_sym. Qed.

Lemma sumf_ext : forall n f g, (forall i, (i < n)%nat -> f i = g i) -> sumf n f = sumf n g.
Proof.
  induction n as [|n IH]; intros f g H; simpl; auto.
  rewrite (IH f g), (H n); auto with arith.
Qed.

Lemma sumf_0 : forall n, sumf n (fun _ => 0) = 0.
Proof. induction n; simpl; lra. Qed.

Lemma sumf_zero : forall n f, (forall i, (i < n)%nat -> f i = 0) -> sumf n f = 0.
Proof. intros n f H. rewrite (sumf_ext n f (fun _ => 0)); auto using sumf_0. Qed.

Lemma sumf_const : forall n c, sumf n (fun _ => c) = INR n * c.
Proof.
  induction n; intros c. simpl; lra.
  simpl sumf. rewrite IHn, S_INR. lra.
Qed.

Lemma sumf_plus : forall n f g, sumf n (fun i => f i + g i) = sumf n f + sumf n g.
Proof. induction n; intros; simpl; [|rewrite IHn]; lra. Qed.

Lemma sumf_minus : forall n f g, sumf n (fun i => f i - g i) = sumf n f - sumf n g.
Proof. induction n; intros; simpl; [|rewrite IHn]; lra. Qed.

Lemma sumf_opp : forall n f, sumf n (fun i => - f i) = - sumf n f.
Proof. induction n; intros; simpl; [|rewrite IHn]; lra. Qed.

Lemma sumf_scal_l : forall n c f, sumf n (fun i => c * f i) = c * sumf n f.
Proof. induction n; intros; simpl; [|rewrite IHn]; lra. Qed.

Lemma sumf_scal_r : forall n c f, sumf n (fun i => f i * c) = sumf n f * c.
Proof. induction n; intros; simpl; [|rewrite IHn]; lra. Qed.

Lemma sumf_div : forall n c f, sumf n (fun i => f i / c) = sumf n f / c.
Proof. intros; unfold Rdiv; apply sumf_scal_r. Qed.

Lemma sumf_swap : forall n m f,
  sumf n (fun i => sumf m (fun j => f i j)) = sumf m (fun j => sumf n (fun i => f i j)).
Proof.
  induction n; intros m f; simpl.
  - now rewrite sumf_0.
  - rewrite IHn, <- sumf_plus. apply sumf_ext; intros; lra.
Qed.

Lemma sumf_kd_l : forall n k f, (k < n)%nat -> sumf n (fun i => kron_delta k i * f i) = f k.
Proof.
  induction n; intros k f H; [lia|simpl].
  destruct (Nat.eq_dec k n) as [->|Hne].
  - rewrite kd_same, sumf_zero; [lra|]. intros i Hi. rewrite kd_diff by lia. lra.
  - rewrite IHn by lia. rewrite kd_diff by lia. lra.
Qed.

Lemma sumf_kd_r : forall n k f, (k < n)%nat -> sumf n (fun i => f i * kron_delta i k) = f k.
Proof.
  intros. rewrite <- (sumf_kd_l n k f H). apply sumf_ext; intros.
  rewrite kd_sym. lra.
Qed.

Lemma sumf_single : forall n k f, (k < n)%nat -> (forall i, (i < n)%nat -> i <> k -> f i = 0) ->
  sumf n f = f k.
Proof.
  intros n k f Hk H. rewrite <- (sumf_kd_l n k f Hk). apply sumf_ext; intros i Hi.
  destruct (Nat.eq_dec k i) as [->|Hne].
  - rewrite kd_same; lra.
  - rewrite kd_diff by auto. rewrite H by auto. lra.
Qed.

Lemma sumf_nonneg : forall n f, (forall i, (i < n)%nat -> 0 <= f i) -> 0 <= sumf n f.
Proof.
  induction n; intros f H; simpl; [lra|].
  assert (0 <= sumf n f) by (apply IHn; auto with arith).
  assert (0 <= f n) by auto with arith. lra.
Qed.

Lemma sumf_le : forall n f g, (forall i, (i < n)%nat -> f i <= g i) -> sumf n f <= sumf n g.
Proof.
  induction n; intros f g H; simpl; [lra|].
  assert (sumf n f <= sumf n g) by (apply IHn; auto with arith).
  assert (f n <= g n) by auto with arith. lra.
Qed.

Lemma sumf_term_le : forall n f k, (forall i, (i < n)%nat -> 0 <= f i) -> (k < n)%nat -> f k <= sumf n f.
Proof.
  induction n; intros f k H Hk; [lia|simpl].
  assert (0 <= sumf n f) by (apply sumf_nonneg; auto with arith).
  assert (0 <= f n) by auto with arith.
  destruct (Nat.eq_dec k n) as [->|]; [lra|].
  assert (f k <= sumf n f) by (apply IHn; auto with arith; lia). lra.
Qed.

Lemma sumf_nonneg_eq0 : forall n f, (forall i, (i < n)%nat -> 0 <= f i) -> sumf n f = 0 ->
  forall i, (i < n)%nat -> f i = 0.
Proof.
  intros n f H H0 i Hi.
  assert (f i <= sumf n f) by (apply sumf_term_le; auto).
  specialize (H i Hi). lra.
Qed.

Lemma sumf_pos : forall n f k, (forall i, (i < n)%nat -> 0 <= f i) -> (k < n)%nat -> 0 < f k -> 0 < sumf n f.
Proof. intros n f k H Hk Hp. assert (f k <= sumf n f) by (apply sumf_term_le; auto). lra. Qed.

Lemma sumf_abs : forall n f, Rabs (sumf n f) <= sumf n (fun i => Rabs (f i)).
Proof.
  induction n; intros f; simpl. rewrite Rabs_R0; lra.
  eapply Rle_trans; [apply Rabs_triang|]. specialize (IHn f). lra.
Qed.

Lemma sumf_split : forall a b f, sumf (a + b) f = sumf a f + sumf b (fun i => f (a + i)%nat).
Proof.
  induction b; intros f; simpl.
  - rewrite Nat.add_0_r. lra.
  - rewrite Nat.add_succ_r; simpl. rewrite IHb. lra.
Qed.

Lemma sumf_shift : forall n f, sumf (S n) f = f O + sumf n (fun i => f (S i)).
Proof.
  intros. change (S n) with (1 + n)%nat. rewrite sumf_split. simpl. lra.
Qed.

Lemma sumf_le_split : forall n k f, (k <= n)%nat ->
  sumf n f = sumf k f + sumf (n - k) (fun i => f (k + i)%nat).
Proof. intros. rewrite <- sumf_split. f_equal. lia. Qed.

(** A sum over [a*b] indices in row-major order. *)
Lemma sumf_prod : forall a b f,
  sumf (a * b) f = sumf a (fun i => sumf b (fun j => f (i * b + j)%nat)).
Proof.
  induction a; intros b f; simpl; [reflexivity|].
  rewrite Nat.add_comm, sumf_split, IHa. reflexivity.
Qed.

Lemma sumf_rev : forall n f, sumf n f = sumf n (fun i => f (n - 1 - i)%nat).
Proof.
  induction n; intros f; [reflexivity|].
  rewrite (sumf_shift n (fun i => f (S n - 1 - i)%nat)). simpl sumf at 1.
  replace (S n - 1 - 0)%nat with n by lia.
  rewrite IHn, Rplus_comm. f_equal. apply sumf_ext; intros. f_equal; lia.
Qed.

Lemma sumf_mul : forall n m f g,
  sumf n f * sumf m g = sumf n (fun i => sumf m (fun j => f i * g j)).
Proof.
  intros. rewrite <- sumf_scal_r. apply sumf_ext; intros. now rewrite <- sumf_scal_l.
Qed.

(** Sum of squares. *)
Lemma sumf_sq_nonneg : forall n f, 0 <= sumf n (fun i => f i * f i).
Proof. intros; apply sumf_nonneg; intros; nra. Qed.

Lemma sumf_sq_eq0 : forall n f, sumf n (fun i => f i * f i) = 0 -> forall i, (i < n)%nat -> f i = 0.
Proof.
  intros n f H i Hi.
  assert (f i * f i = 0).
  { apply (sumf_nonneg_eq0 n (fun i => f i * f i)); auto. intros; nra. }
  nra.
Qed.

(** Cauchy-Schwarz. *)
Lemma cauchy_schwarz : forall n f g,
  Rsqr (sumf n (fun i => f i * g i)) <= sumf n (fun i => f i * f i) * sumf n (fun i => g i * g i).
Proof.
  intros n f g.
  set (A := sumf n (fun i => f i * f i)). set (B := sumf n (fun i => f i * g i)).
  set (C := sumf n (fun i => g i * g i)).
  assert (HA : 0 <= A) by apply sumf_sq_nonneg.
  assert (HC : 0 <= C) by apply sumf_sq_nonneg.
  assert (H : 0 <= sumf n (fun i => (C * f i - B * g i) * (C * f i - B * g i))) by apply sumf_sq_nonneg.
  assert (E : sumf n (fun i => (C * f i - B * g i) * (C * f i - B * g i))
              = C * C * A - 2 * (C * B) * B + B * B * C).
  { rewrite (sumf_ext n _ (fun i => (C * C * (f i * f i) - 2 * (C * B) * (f i * g i)) + B * B * (g i * g i))).
    - rewrite sumf_plus, sumf_minus, !sumf_scal_l. reflexivity.
    - intros; ring. }
  rewrite E in H. unfold Rsqr.
  destruct (Req_dec C 0) as [C0|C0].
  - assert (HB : B = 0).
    { unfold B. apply sumf_zero; intros i Hi.
      rewrite (sumf_sq_eq0 n g C0 i Hi). ring. }
    rewrite HB, C0. lra.
  - assert (0 < C) by lra. nra.
Qed.

(** ** Extrema of finite families *)

(** Index of the first minimum of [f 0 .. f n] (so of [n+1] values). *)
Fixpoint argmin_upto (n : nat) (f : nat -> R) : nat :=
  match n with
  | O => O
  | S k => let j := argmin_upto k f in
           if Rlt_dec (f (S k)) (f j) then S k else j
  end.

Definition argmax_upto (n : nat) (f : nat -> R) : nat := argmin_upto n (fun i => - f i).

Lemma argmin_upto_spec : forall n f,
  let k := argmin_upto n f in
  (k <= n)%nat /\ (forall i, (i <= n)%nat -> f k <= f i) /\ (forall i, (i < k)%nat -> f k < f i).
Proof.
  induction n; intros f k; subst k; simpl.
  - repeat split; auto; intros i Hi; try lia.
    replace i with O by lia. lra.
  - destruct (IHn f) as (H1 & H2 & H3).
    destruct (Rlt_dec (f (S n)) (f (argmin_upto n f))) as [L|L].
    + repeat split; auto.
      * intros i Hi. destruct (Nat.eq_dec i (S n)) as [->|]; [lra|].
        specialize (H2 i). assert (i <= n)%nat by lia. specialize (H2 H). lra.
      * intros i Hi. specialize (H2 i). assert (i <= n)%nat by lia. specialize (H2 H). lra.
    + repeat split; auto with arith.
      intros i Hi. destruct (Nat.eq_dec i (S n)) as [->|]; [lra|]. apply H2; lia.
Qed.

Lemma argmax_upto_spec : forall n f,
  let k := argmax_upto n f in
  (k <= n)%nat /\ (forall i, (i <= n)%nat -> f i <= f k) /\ (forall i, (i < k)%nat -> f i < f k).
Proof.
  intros n f k. destruct (argmin_upto_spec n (fun i => - f i)) as (H1 & H2 & H3).
  repeat split; auto.
  - intros i Hi. specialize (H2 i Hi). unfold k, argmax_upto. lra.
  - intros i Hi. specialize (H3 i Hi). unfold k, argmax_upto in *. lra.
Qed.

Definition min_upto (n : nat) (f : nat -> R) : R := f (argmin_upto n f).
Definition max_upto (n : nat) (f : nat -> R) : R := f (argmax_upto n f).

Lemma argmin_upto_ext : forall n f g, (forall i, (i <= n)%nat -> f i = g i) -> argmin_upto n f = argmin_upto n g.
Proof.
  induction n; intros f g H; simpl; auto.
  rewrite (IHn f g) by (intros; apply H; lia).
  destruct (argmin_upto_spec n g) as (Hk & _ & _).
  rewrite (H (S n)) by lia. rewrite (H (argmin_upto n g)) by lia. reflexivity.
Qed.

Lemma min_upto_spec : forall n f, (forall i, (i <= n)%nat -> min_upto n f <= f i) /\
  exists k, (k <= n)%nat /\ f k = min_upto n f.
Proof.
  intros. destruct (argmin_upto_spec n f) as (H1 & H2 & _). split; auto.
  exists (argmin_upto n f); auto.
Qed.

Lemma max_upto_spec : forall n f, (forall i, (i <= n)%nat -> f i <= max_upto n f) /\
  exists k, (k <= n)%nat /\ f k = max_upto n f.
Proof.
  intros. destruct (argmax_upto_spec n f) as (H1 & H2 & _). split; auto.
  exists (argmax_upto n f); auto.
Qed.

(** Uniqueness of the first minimum. *)
Lemma argmin_upto_unique : forall n f k, (k <= n)%nat ->
  (forall i, (i <= n)%nat -> f k <= f i) -> (forall i, (i < k)%nat -> f k < f i) ->
  argmin_upto n f = k.
Proof.
  intros n f k Hk H1 H2. destruct (argmin_upto_spec n f) as (A & B & C).
  destruct (Nat.lt_trichotomy (argmin_upto n f) k) as [L|[E|L]]; auto.
  - specialize (H2 _ L). specialize (B k Hk). lra.
  - specialize (C _ L). specialize (H1 _ A). lra.
Qed.

(** ** Lists *)

Lemma nth_map_seq : forall {A} (f : nat -> A) n k d, (k < n)%nat -> nth k (map f (seq 0 n)) d = f k.
Proof.
  intros A f n k d H. rewrite nth_indep with (d' := f 0%nat) by (rewrite map_length, seq_length; auto).
  rewrite map_nth, seq_nth by auto. reflexivity.
Qed.

Fixpoint sumr (l : list R) : R := match l with [] => 0 | x :: t => x + sumr t end.

Lemma sumr_app : forall l k, sumr (l ++ k) = sumr l + sumr k.
Proof. induction l; intros; simpl; [|rewrite IHl]; lra. Qed.

Lemma sumr_map_seq : forall n f, sumr (map f (seq 0 n)) = sumf n f.
Proof.
  induction n; intros f; [reflexivity|].
  rewrite seq_S, map_app, sumr_app, IHn. simpl. lra.
Qed.

Lemma sumr_nth : forall l, sumr l = sumf (length l) (fun i => nth i l 0).
Proof.
  induction l; simpl length; [reflexivity|]. rewrite sumf_shift. simpl. rewrite IHl. reflexivity.
Qed.

Lemma sqrt_sq_abs : forall x, sqrt (x * x) = Rabs x.
Proof. intros. rewrite <- (sqrt_Rsqr_abs x). reflexivity. Qed.
