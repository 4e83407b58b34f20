(** Linear algebra over finite index ranges: dependence of n+1 vectors in R^n,
    square orthonormal matrices. *)
From Coq Require Import Reals Lra Lia List Arith Classical.
From Verif Require Import Prelude.
Open Scope R_scope.

(** Any N > n vectors of R^n satisfy a non-trivial linear relation. *)
Lemma lin_dep_S : forall n (v : nat -> nat -> R),
  exists c, (exists i, (i <= n)%nat /\ c i <> 0) /\
            forall j, (j < n)%nat -> sumf (S n) (fun i => c i * v i j) = 0.
Proof.
  induction n; intros v.
  - exists (fun _ => 1). split; [exists O; split; [lia|lra]|]. intros; lia.
  - destruct (classic (forall i, (i <= S n)%nat -> v i n = 0)) as [Z|NZ].
    + (* last coordinate vanishes everywhere *)
      destruct (IHn v) as (c & (i0 & Hi0 & Hc) & H).
      exists (fun i => if Nat.leb i n then c i else 0). split.
      * exists i0. split; [lia|]. destruct (Nat.leb_spec i0 n); [auto|lia].
      * intros j Hj. change (sumf (S n) (fun i => (if Nat.leb i n then c i else 0) * v i j)
             + (if Nat.leb (S n) n then c (S n) else 0) * v (S n) j = 0).
        destruct (Nat.leb_spec (S n) n); [lia|].
        destruct (Nat.eq_dec j n) as [->|].
        -- rewrite sumf_zero. lra. intros i Hi. rewrite Z by lia. lra.
        -- rewrite (sumf_ext _ _ (fun i => c i * v i j)).
           ++ rewrite H by lia. lra.
           ++ intros i Hi. destruct (Nat.leb_spec i n); [reflexivity|lia].
    + apply not_all_ex_not in NZ. destruct NZ as (p & Hp). apply imply_to_and in Hp.
      destruct Hp as (Hp & Hvp).
      (* eliminate with pivot p; the remaining n+1 vectors are skip p *)
      set (sk := fun i => if Nat.ltb i p then i else S i).
      set (u := fun i j => v (sk i) j - v (sk i) n / v p n * v p j).
      destruct (IHn u) as (c & (i0 & Hi0 & Hc) & H).
      set (ci := fun i => if Nat.ltb i p then c i else
                          if Nat.eqb i p then - sumf (S n) (fun k => c k * (v (sk k) n / v p n))
                          else c (i - 1)%nat).
      assert (Hsk : forall i, ci (sk i) = c i).
      { intros i. unfold ci, sk. destruct (Nat.ltb_spec i p).
        - destruct (Nat.ltb_spec i p); [auto|lia].
        - destruct (Nat.ltb_spec (S i) p); [lia|]. destruct (Nat.eqb_spec (S i) p); [lia|].
          f_equal; lia. }
      assert (Hci : forall g, sumf (S (S n)) (fun i => ci i * g i) =
                 ci p * g p + sumf (S n) (fun k => c k * g (sk k))).
      { intros g.
        rewrite (sumf_le_split (S (S n)) p) by lia.
        replace (S (S n) - p)%nat with (S (S n - p)) by lia. rewrite sumf_shift.
        rewrite Nat.add_0_r.
        rewrite (sumf_le_split (S n) p (fun k => c k * g (sk k))) by lia.
        rewrite (sumf_ext p (fun k => c k * g (sk k)) (fun i => ci i * g i)).
        2:{ intros i Hi. rewrite <- Hsk. unfold sk. destruct (Nat.ltb_spec i p); [auto|lia]. }
        rewrite (sumf_ext (S n - p) (fun i => c (p + i)%nat * g (sk (p + i)%nat))
                   (fun i => ci (p + S i)%nat * g (p + S i)%nat)).
        2:{ intros i Hi. rewrite <- Hsk. unfold sk. destruct (Nat.ltb_spec (p + i) p); [lia|].
            replace (p + S i)%nat with (S (p + i)) by lia. reflexivity. }
        lra. }
      exists ci. split.
      * exists (sk i0). split; [unfold sk; destruct (Nat.ltb i0 p); lia|]. now rewrite Hsk.
      * intros j Hj. rewrite Hci.
        assert (Hcip : ci p = - sumf (S n) (fun k => c k * (v (sk k) n / v p n))).
        { unfold ci. destruct (Nat.ltb_spec p p); [lia|]. now rewrite Nat.eqb_refl. }
        rewrite Hcip.
        replace (- sumf (S n) (fun k => c k * (v (sk k) n / v p n)) * v p j)
          with (- sumf (S n) (fun k => c k * (v (sk k) n / v p n) * v p j))
          by (rewrite sumf_scal_r; ring).
        rewrite Rplus_comm. change (?a + - ?b) with (a - b). rewrite <- sumf_minus.
        rewrite (sumf_ext _ _ (fun k => c k * u k j)) by (intros; unfold u; ring).
        destruct (Nat.eq_dec j n) as [->|]; [|apply H; lia].
        apply sumf_zero. intros i Hi. unfold u. field_simplify_eq; [ring|auto].
Qed.

Lemma lin_dep : forall n N (v : nat -> nat -> R), (n < N)%nat ->
  exists c, (exists i, (i < N)%nat /\ c i <> 0) /\
            forall j, (j < n)%nat -> sumf N (fun i => c i * v i j) = 0.
Proof.
  intros n N v HN. destruct (lin_dep_S n v) as (c & (i0 & Hi0 & Hc) & H).
  exists (fun i => if Nat.leb i n then c i else 0). split.
  - exists i0. split; [lia|]. destruct (Nat.leb_spec i0 n); [auto|lia].
  - intros j Hj. rewrite (sumf_le_split N (S n)) by lia.
    rewrite (sumf_ext (S n) _ (fun i => c i * v i j)).
    2:{ intros i Hi. destruct (Nat.leb_spec i n); [auto|lia]. }
    rewrite H by auto. rewrite sumf_zero; [lra|].
    intros i Hi. destruct (Nat.leb_spec (S n + i) n); [lia|lra].
Qed.

(** [k] columns of [W] (rows 0..m-1) are orthonormal. *)
Definition orthonormal (m k : nat) (W : nat -> nat -> R) : Prop :=
  forall a b, (a < k)%nat -> (b < k)%nat -> sumf m (fun i => W i a * W i b) = kron_delta a b.

(** Linear independence of [k] vectors [v 0 .. v (k-1)] of R^m. *)
Definition indep (m k : nat) (v : nat -> nat -> R) : Prop :=
  forall c, (forall j, (j < m)%nat -> sumf k (fun i => c i * v i j) = 0) ->
            forall i, (i < k)%nat -> c i = 0.

Lemma indep_le : forall m k v, indep m k v -> (k <= m)%nat.
Proof.
  intros m k v H. destruct (Nat.le_gt_cases k m) as [|L]; auto.
  destruct (lin_dep m k v L) as (c & (i & Hi & Hc) & E). exfalso. apply Hc. now apply (H c).
Qed.

(** m independent vectors span R^m. *)
Lemma indep_span : forall m v, indep m m v ->
  forall x : nat -> R, exists c, forall j, (j < m)%nat -> x j = sumf m (fun i => c i * v i j).
Proof.
  intros m v H x.
  destruct (lin_dep m (S m) (fun i j => if Nat.ltb i m then v i j else x j) ltac:(lia)) as (c & (i0 & Hi0 & Hc) & E).
  assert (E' : forall j, (j < m)%nat -> sumf m (fun i => c i * v i j) + c m * x j = 0).
  { intros j Hj. specialize (E j Hj). simpl in E. destruct (Nat.ltb_spec m m); [lia|].
    rewrite <- E. f_equal. apply sumf_ext. intros i Hi. destruct (Nat.ltb_spec i m); [auto|lia]. }
  destruct (Req_dec (c m) 0) as [Z|NZ].
  - exfalso. apply Hc. destruct (Nat.eq_dec i0 m) as [->|]; [auto|].
    apply (H c); [|lia]. intros j Hj. specialize (E' j Hj). rewrite Z in E'. lra.
  - exists (fun i => - c i / c m). intros j Hj. specialize (E' j Hj).
    rewrite (sumf_ext _ _ (fun i => (- / c m) * (c i * v i j))) by (intros; field; auto).
    rewrite sumf_scal_l. replace (sumf m (fun i => c i * v i j)) with (- (c m * x j)) by lra.
    field; auto.
Qed.

Lemma orthonormal_coef : forall m k W c j, orthonormal m k W -> (j < k)%nat ->
  sumf m (fun i => W i j * sumf k (fun a => c a * W i a)) = c j.
Proof.
  intros m k W c j H Hj.
  rewrite (sumf_ext m _ (fun i => sumf k (fun a => c a * (W i j * W i a)))).
  2:{ intros. rewrite <- sumf_scal_l. apply sumf_ext; intros; ring. }
  rewrite sumf_swap.
  rewrite (sumf_ext k _ (fun a => kron_delta j a * c a)).
  - apply (sumf_kd_l k j c); auto.
  - intros a Ha. rewrite sumf_scal_l, H by auto. ring.
Qed.

Lemma orthonormal_indep : forall m k W, orthonormal m k W -> indep m k (fun a i => W i a).
Proof.
  intros m k W H c E i Hi. rewrite <- (orthonormal_coef m k W c i H Hi).
  apply sumf_zero. intros j Hj. rewrite E by auto. ring.
Qed.

Lemma orthonormal_le : forall m k W, orthonormal m k W -> (k <= m)%nat.
Proof. intros m k W H. eapply indep_le, orthonormal_indep; eauto. Qed.

(** Square orthonormal columns: expansion, and orthonormal rows. *)
Lemma ortho_expand : forall m W, orthonormal m m W -> forall x i, (i < m)%nat ->
  x i = sumf m (fun a => sumf m (fun j => W j a * x j) * W i a).
Proof.
  intros m W H x i Hi.
  destruct (indep_span m _ (orthonormal_indep m m W H) x) as (c & Hc).
  rewrite (Hc i Hi). apply sumf_ext; intros a Ha. f_equal.
  rewrite <- (orthonormal_coef m m W c a H Ha). apply sumf_ext; intros j Hj. now rewrite (Hc j Hj).
Qed.

Lemma ortho_rows : forall m W, orthonormal m m W -> forall i k, (i < m)%nat -> (k < m)%nat ->
  sumf m (fun a => W i a * W k a) = kron_delta i k.
Proof.
  intros m W H i k Hi Hk.
  rewrite (ortho_expand m W H (fun j => kron_delta j k) i Hi).
  apply sumf_ext; intros a Ha.
  rewrite (sumf_kd_r m k (fun j => W j a)) by auto. ring.
Qed.

Lemma ortho_transpose : forall m W, orthonormal m m W -> orthonormal m m (fun i j => W j i).
Proof. intros m W H a b Ha Hb. apply ortho_rows; auto. Qed.

(** Parseval. *)
Lemma ortho_parseval2 : forall m W, orthonormal m m W -> forall x y,
  sumf m (fun a => sumf m (fun j => W j a * x j) * sumf m (fun j => W j a * y j)) = sumf m (fun i => x i * y i).
Proof.
  intros m W H x y.
  rewrite (sumf_ext m (fun i => x i * y i)
     (fun i => sumf m (fun a => sumf m (fun j => W j a * x j) * (W i a * y i)))).
  - rewrite sumf_swap. apply sumf_ext; intros a Ha. rewrite <- sumf_scal_l. reflexivity.
  - intros i Hi. rewrite (ortho_expand m W H x i Hi) at 1. rewrite <- sumf_scal_r.
    apply sumf_ext; intros; ring.
Qed.

Lemma ortho_parseval : forall m W, orthonormal m m W -> forall x,
  sumf m (fun a => sumf m (fun j => W j a * x j) * sumf m (fun j => W j a * x j)) = sumf m (fun i => x i * x i).
Proof. intros; now apply ortho_parseval2. Qed.

(** Bessel: k orthonormal columns of R^m. *)
Lemma bessel : forall m k W, orthonormal m k W -> forall x,
  sumf k (fun a => sumf m (fun j => W j a * x j) * sumf m (fun j => W j a * x j)) <= sumf m (fun i => x i * x i).
Proof.
  intros m k W H x.
  set (p := fun a => sumf m (fun j => W j a * x j)).
  assert (Hn : 0 <= sumf m (fun i => (x i - sumf k (fun a => p a * W i a)) * (x i - sumf k (fun a => p a * W i a))))
    by apply sumf_sq_nonneg.
  assert (E1 : sumf m (fun i => x i * sumf k (fun a => p a * W i a)) = sumf k (fun a => p a * p a)).
  { rewrite (sumf_ext m _ (fun i => sumf k (fun a => p a * (W i a * x i)))).
    - rewrite sumf_swap. apply sumf_ext; intros. now rewrite sumf_scal_l.
    - intros. rewrite <- sumf_scal_l. apply sumf_ext; intros; ring. }
  assert (E2 : sumf m (fun i => sumf k (fun a => p a * W i a) * sumf k (fun a => p a * W i a)) = sumf k (fun a => p a * p a)).
  { rewrite (sumf_ext m _ (fun i => sumf k (fun b => p b * (W i b * sumf k (fun a => p a * W i a))))).
    - rewrite sumf_swap. apply sumf_ext; intros b Hb. rewrite sumf_scal_l.
      now rewrite (orthonormal_coef m k W p b H Hb).
    - intros. rewrite <- sumf_scal_r. apply sumf_ext; intros; ring. }
  rewrite (sumf_ext m _ (fun i => x i * x i - 2 * (x i * sumf k (fun a => p a * W i a))
      + sumf k (fun a => p a * W i a) * sumf k (fun a => p a * W i a))) in Hn by (intros; ring).
  rewrite sumf_plus, sumf_minus, sumf_scal_l, E1, E2 in Hn. unfold p in *. lra.
Qed.
