(** Symmetric tridiagonal matrices with zero diagonal, the polynomials of their
    three-term recurrence, and moments. *)
From Coq Require Import Reals Lra Lia List Arith.
From Verif Require Import Prelude LinAlg Spectral.
Import ListNotations.
Open Scope R_scope.

Section Tri.
  (** s k (k >= 1) couples positions k-1 and k *)
  Variable s : nat -> R.

  Definition tri (i k : nat) : R :=
    if Nat.eqb k (S i) then s k else if Nat.eqb i (S k) then s i else 0.
  (** the infinite matrix acting on a sequence *)
  Definition Tap (u : nat -> R) (i : nat) : R :=
    (match i with O => 0 | S i' => s i * u i' end) + s (S i) * u (S i).
  Fixpoint Tpow (k : nat) : nat -> R :=
    match k with O => kron_delta 0 | S k' => Tap (Tpow k') end.
  (** the orthonormal polynomials *)
  Fixpoint opair (x : R) (i : nat) : R * R :=
    match i with
    | O => (0, 1)
    | S i' => let (a, b) := opair x i' in (b, (x * b - match i' with O => 0 | _ => s i' * a end) / s (S i'))
    end.
  Definition op (i : nat) (x : R) : R := snd (opair x i).

  Hypothesis Hs : forall k, (1 <= k)%nat -> s k <> 0.

  Lemma op_0 : forall x, op 0 x = 1.  Proof. reflexivity. Qed.
  Lemma opair_fst : forall x i, fst (opair x (S i)) = op i x.
  Proof. intros. unfold op. simpl. destruct (opair x i). reflexivity. Qed.
  Lemma op_1 : forall x, s 1%nat * op 1 x = x.
  Proof. intros. unfold op. simpl. field. apply Hs; lia. Qed.
  Lemma op_SS : forall x i, s (S (S i)) * op (S (S i)) x = x * op (S i) x - s (S i) * op i x.
  Proof.
    intros. unfold op at 1. change (opair x (S (S i))) with
      (let (a, b) := opair x (S i) in (b, (x * b - s (S i) * a) / s (S (S i)))).
    assert (F := opair_fst x i). unfold op at 1. destruct (opair x (S i)) as [a b]. cbn [fst snd] in *. subst a.
    field. apply Hs; lia.
  Qed.
  Lemma op_rec : forall x i, x * op i x = s (S i) * op (S i) x + match i with O => 0 | S i' => s i * op i' x end.
  Proof.
    intros x [|i].
    - rewrite op_1, op_0. ring.
    - rewrite op_SS. ring.
  Qed.

  Lemma Tpow_support : forall k i, (k < i)%nat -> Tpow k i = 0.
  Proof.
    induction k; intros i Hi; simpl.
    - apply kd_diff. lia.
    - unfold Tap. destruct i as [|i]; [lia|]. rewrite !IHk by lia. ring.
  Qed.

  Lemma Tap_adj : forall n u v, u n = 0 -> v n = 0 ->
    sumf n (fun i => Tap u i * v i) = sumf n (fun i => u i * Tap v i).
  Proof.
    assert (A : forall n u v, sumf n (fun i => Tap u i * v i) =
        sumf n (fun i => s (S i) * (u i * v (S i) + u (S i) * v i)) - match n with O => 0 | S n' => s n * u n' * v n end).
    { induction n as [|[|n] IH]; intros.
      - simpl. ring.
      - simpl. unfold Tap. ring.
      - change (sumf (S (S n)) (fun i => Tap u i * v i)) with (sumf (S n) (fun i => Tap u i * v i) + Tap u (S n) * v (S n)).
        rewrite IH. simpl. unfold Tap. ring. }
    intros n u v Hu Hv. rewrite A.
    rewrite (sumf_ext n (fun i => u i * Tap v i) (fun i => Tap v i * u i)) by (intros; ring).
    rewrite A. rewrite (sumf_ext n (fun i => s (S i) * (v i * u (S i) + v (S i) * u i)) (fun i => s (S i) * (u i * v (S i) + u (S i) * v i))) by (intros; ring).
    destruct n; [ring|]. rewrite Hu, Hv. ring.
  Qed.

  Lemma Tpow_dot : forall a b n, (a + b < n)%nat -> sumf n (fun i => Tpow a i * Tpow b i) = Tpow (a + b) 0.
  Proof.
    induction a; intros b n Hn.
    - change (Tpow 0) with (kron_delta 0). rewrite (sumf_kd_l n 0 (fun i => Tpow b i)) by lia. reflexivity.
    - change (Tpow (S a)) with (Tap (Tpow a)).
      rewrite Tap_adj by (apply Tpow_support; lia).
      change (Tap (Tpow b)) with (Tpow (S b)). rewrite IHa by lia. f_equal. lia.
  Qed.

  (** monomials in terms of the polynomials *)
  Lemma pow_op : forall x k n, (k < n)%nat -> x ^ k = sumf n (fun i => Tpow k i * op i x).
  Proof.
    intros x. assert (A : forall n u, sumf n (fun i => Tap u i * op i x) =
        x * sumf n (fun i => u i * op i x) + match n with O => 0 | S n' => s n * (u n * op n' x - u n' * op n x) end).
    { induction n as [|n IH]; intros u; [simpl; ring|].
      change (sumf (S n) (fun i => Tap u i * op i x)) with (sumf n (fun i => Tap u i * op i x) + Tap u n * op n x).
      change (sumf (S n) (fun i => u i * op i x)) with (sumf n (fun i => u i * op i x) + u n * op n x).
      rewrite IH. rewrite Rmult_plus_distr_l. replace (x * (u n * op n x)) with (u n * (x * op n x)) by ring.
      rewrite (op_rec x n). unfold Tap. destruct n; ring. }
    induction k; intros n Hn.
    - change (Tpow 0) with (kron_delta 0). rewrite (sumf_kd_l n 0 (fun i => op i x)) by lia. reflexivity.
    - change (Tpow (S k)) with (Tap (Tpow k)). rewrite A. rewrite <- IHk by lia. destruct n as [|n]; [lia|].
      rewrite !Tpow_support by lia. simpl. ring.
  Qed.

  (** ** the leading N-by-N block *)
  Variable N : nat.
  Lemma tri_sym : forall i k, tri i k = tri k i.
  Proof.
    intros. unfold tri. destruct (Nat.eqb_spec k (S i)), (Nat.eqb_spec i (S k)); try lia; auto.
  Qed.
  Lemma tri_apply : forall u i, (i < N)%nat ->
    sumf N (fun k => tri i k * u k) =
    (match i with O => 0 | S i' => s i * u i' end) + (if Nat.ltb (S i) N then s (S i) * u (S i) else 0).
  Proof.
    intros u i Hi.
    rewrite (sumf_ext N _ (fun k => (match i with O => 0 | S i' => kron_delta i' k end) * (s i * u k) + kron_delta (S i) k * (s (S i) * u k))).
    2: { intros k Hk. unfold tri, kron_delta. destruct (Nat.eqb_spec k (S i)).
         - subst. rewrite Nat.eqb_refl. destruct i; [ring|]. destruct (Nat.eqb_spec i (S (S i))); [lia|ring].
         - destruct (Nat.eqb_spec (S i) k); [lia|]. destruct i.
           + simpl. ring.
           + simpl. destruct (Nat.eqb_spec i k); ring. }
    rewrite sumf_plus. f_equal.
    - destruct i; [apply sumf_zero; intros; ring|]. now rewrite (sumf_kd_l N i (fun k => s (S i) * u k)) by lia.
    - destruct (Nat.ltb_spec (S i) N).
      + now rewrite (sumf_kd_l N (S i) (fun k => s (S i) * u k)) by lia.
      + apply sumf_zero. intros k Hk. rewrite kd_diff by lia. ring.
  Qed.

  Fixpoint Jpow (k : nat) : nat -> R :=
    match k with O => kron_delta 0 | S k' => fun i => sumf N (fun j => tri i j * Jpow k' j) end.
  Lemma Jpow_Tpow : forall k i, (k <= N)%nat -> (i < N)%nat -> Jpow k i = Tpow k i.
  Proof.
    induction k; intros i Hk Hi; [reflexivity|]. simpl.
    rewrite (sumf_ext N _ (fun j => tri i j * Tpow k j)) by (intros; rewrite IHk; [reflexivity|lia|lia]).
    rewrite tri_apply by auto. unfold Tap. f_equal.
    destruct (Nat.ltb_spec (S i) N); [reflexivity|]. rewrite Tpow_support by lia. ring.
  Qed.
  Lemma Jpow_dot : forall a b, sumf N (fun i => Jpow a i * Jpow b i) = sumf N (fun i => Jpow (a + b) i * kron_delta 0 i).
  Proof.
    induction a; intros b.
    - apply sumf_ext. intros. simpl. ring.
    - change (S a + b)%nat with (S (a + b)). rewrite plus_n_Sm. rewrite <- IHa.
      change (Jpow (S a)) with (fun i => sumf N (fun j => tri i j * Jpow a j)).
      change (Jpow (S b)) with (fun i => sumf N (fun j => tri i j * Jpow b j)). cbv beta.
      rewrite (sumf_ext N _ (fun i => sumf N (fun j => tri i j * Jpow a j * Jpow b i))) by (intros; rewrite <- sumf_scal_r; reflexivity).
      rewrite sumf_swap. apply sumf_ext. intros j Hj. rewrite <- sumf_scal_l. apply sumf_ext. intros i Hi.
      rewrite (tri_sym i j). ring.
  Qed.
  (** the block has the moments of the infinite matrix up to 2N-1 *)
  Lemma Jpow_moment : forall k, (k < 2 * N)%nat -> Jpow k 0 = Tpow k 0.
  Proof.
    intros k Hk. assert (N0 : (0 < N)%nat) by lia.
    set (a := Nat.min k (N - 1)). set (b := (k - a)%nat).
    assert (Ha : (a < N)%nat) by (unfold a; lia). assert (Hb : (b <= N)%nat) by (unfold b, a; lia).
    assert (E : (a + b)%nat = k) by (unfold b, a; lia).
    assert (J := Jpow_dot a b). rewrite E in J.
    rewrite (sumf_ext N (fun i => Jpow k i * kron_delta 0 i) (fun i => Jpow k i * kron_delta i 0)) in J by (intros; now rewrite kd_sym).
    rewrite (sumf_kd_r N 0 (Jpow k)) in J by auto. rewrite <- J, <- E.
    rewrite <- (Tpow_dot a b (N + (a + b + 1))) by lia. rewrite sumf_split.
    rewrite (sumf_zero (a + b + 1)) by (intros; rewrite Tpow_support by lia; ring). rewrite Rplus_0_r.
    apply sumf_ext. intros i Hi. rewrite !Jpow_Tpow by lia. reflexivity.
  Qed.

  (** eigenvectors *)
  Lemma eigvec_op : forall lam v, (forall i, (i < N)%nat -> sumf N (fun k => tri i k * v k) = lam * v i) ->
    (forall i, (i < N)%nat -> v i = v 0%nat * op i lam) /\ ((0 < N)%nat -> v 0%nat * op N lam = 0).
  Proof.
    intros lam v H.
    assert (A : forall i, ((i < N)%nat -> v i = v 0%nat * op i lam)).
    { intros i. induction i as [i IH] using lt_wf_ind. intros Hi. destruct i as [|[|i]].
      - rewrite op_0. ring.
      - assert (E := H 0%nat ltac:(lia)). rewrite tri_apply in E by lia. destruct (Nat.ltb_spec 1 N); [|lia].
        apply (Rmult_eq_reg_l (s 1%nat)); [|apply Hs; lia].
        replace (s 1%nat * (v 0%nat * op 1 lam)) with (v 0%nat * (s 1%nat * op 1 lam)) by ring. rewrite op_1. lra.
      - assert (E := H (S i) ltac:(lia)). rewrite tri_apply in E by lia. destruct (Nat.ltb_spec (S (S i)) N); [|lia].
        apply (Rmult_eq_reg_l (s (S (S i)))); [|apply Hs; lia].
        replace (s (S (S i)) * (v 0%nat * op (S (S i)) lam)) with (v 0%nat * (s (S (S i)) * op (S (S i)) lam)) by ring.
        rewrite op_SS. rewrite (IH i), (IH (S i)) in E by lia. lra. }
    split; [exact A|]. intros HN.
    assert (E := H (N - 1)%nat ltac:(lia)). rewrite tri_apply in E by lia.
    destruct (Nat.ltb_spec (S (N - 1)) N); [lia|]. rewrite Rplus_0_r in E.
    assert (R1 := op_rec lam (N - 1)). replace (S (N - 1)) with N in R1 by lia.
    apply (Rmult_eq_reg_l (s N)); [|apply Hs; lia]. rewrite Rmult_0_r.
    replace (s N * (v 0%nat * op N lam)) with (v 0%nat * (s N * op N lam)) by ring.
    rewrite (A (N - 1)%nat) in E by lia.
    destruct (N - 1)%nat eqn:EN.
    - assert (Q : s N * op N lam = lam * op 0 lam) by lra. rewrite Q. lra.
    - rewrite (A n) in E by lia. assert (Q : s N * op N lam = lam * op (S n) lam - s (S n) * op n lam) by lra.
      rewrite Q. lra.
  Qed.
  Lemma op_eigvec : forall lam, op N lam = 0 -> (forall i, (i < N)%nat -> sumf N (fun k => tri i k * op k lam) = lam * op i lam).
  Proof.
    intros lam H i Hi. rewrite tri_apply by auto. rewrite op_rec.
    destruct (Nat.ltb_spec (S i) N); [ring|]. replace (S i) with N by lia. rewrite H. destruct i; ring.
  Qed.

  (** any unit, independent eigenvectors *)
  Variable lam : nat -> R.
  Variable V : nat -> nat -> R.
  Hypothesis Hunit : forall j, (j < N)%nat -> sumf N (fun i => V i j * V i j) = 1.
  Hypothesis Hind : indep N N (fun j i => V i j).
  Hypothesis Heig : eigcols N tri lam V.

  Lemma tri_V0 : forall j, (j < N)%nat -> V 0%nat j <> 0.
  Proof.
    intros j Hj E. destruct (eigvec_op (lam j) (fun i => V i j)) as [A _]; [intros; now apply Heig|].
    assert (U := Hunit j Hj). rewrite sumf_zero in U; [lra|]. intros i Hi. rewrite A, E by auto. ring.
  Qed.
  Lemma tri_distinct : forall i j, (i < N)%nat -> (j < N)%nat -> i <> j -> lam i <> lam j.
  Proof.
    intros i j Hi Hj Hij E.
    destruct (eigvec_op (lam i) (fun k => V k i)) as [A _]; [intros; now apply Heig|].
    destruct (eigvec_op (lam j) (fun k => V k j)) as [B _]; [intros; now apply Heig|].
    cbv beta in A, B. rewrite <- E in B.
    assert (C := Hind (fun k => V 0%nat j * kron_delta i k - V 0%nat i * kron_delta j k)).
    specialize (C) with (i := i). cbv beta in C. rewrite kd_same, kd_diff in C by auto.
    apply (tri_V0 j Hj). rewrite <- (Rmult_1_r (V 0%nat j)). rewrite <- C at 1; auto; [ring|].
    intros k Hk.
    rewrite (sumf_ext N _ (fun l => V 0%nat j * (kron_delta i l * V k l) - V 0%nat i * (kron_delta j l * V k l))) by (intros; ring).
    rewrite sumf_minus, !sumf_scal_l. rewrite !(sumf_kd_l N _ (fun l => V k l)) by auto.
    rewrite (A k), (B k) by auto. ring.
  Qed.
  Lemma tri_orthonormal : orthonormal N N V.
  Proof.
    intros a b Ha Hb. destruct (Nat.eq_dec a b) as [->|Hn].
    - rewrite kd_same. now apply Hunit.
    - rewrite kd_diff by auto. apply (eig_orthogonal N tri (fun i => V i a) (fun i => V i b) (lam a) (lam b)).
      + intros; apply tri_sym.
      + intros; now apply Heig.
      + intros; now apply Heig.
      + now apply tri_distinct.
  Qed.
  Lemma Jpow_spectral : forall k i, (0 < N)%nat -> (i < N)%nat -> Jpow k i = sumf N (fun j => V 0%nat j * lam j ^ k * V i j).
  Proof.
    intros k i N0 Hi. revert i Hi. induction k; intros i Hi.
    - simpl. rewrite <- (ortho_rows N V tri_orthonormal 0 i) by auto. apply sumf_ext. intros; ring.
    - simpl. rewrite (sumf_ext N _ (fun j => sumf N (fun l => tri i j * (V 0%nat l * lam l ^ k * V j l)))) by
        (intros; rewrite IHk by auto; now rewrite sumf_scal_l).
      rewrite sumf_swap. apply sumf_ext. intros l Hl.
      rewrite (sumf_ext N _ (fun j => (V 0%nat l * lam l ^ k) * (tri i j * V j l))) by (intros; ring).
      rewrite sumf_scal_l, (Heig i l) by auto. ring.
  Qed.
  (** the quadrature rule reproduces the moments up to 2N-1 *)
  Lemma rule_moment : forall k, (k < 2 * N)%nat ->
    sumf N (fun j => V 0%nat j * V 0%nat j * lam j ^ k) = Tpow k 0.
  Proof.
    intros k Hk. rewrite <- Jpow_moment by auto. rewrite Jpow_spectral by lia. apply sumf_ext. intros; ring.
  Qed.
  Lemma node_root : forall j, (j < N)%nat -> op N (lam j) = 0.
  Proof.
    intros j Hj. destruct (eigvec_op (lam j) (fun k => V k j)) as [_ B]; [intros; now apply Heig|].
    specialize (B ltac:(lia)). apply Rmult_integral in B. destruct B; auto. now apply tri_V0 in H.
  Qed.
  (** every root is a node *)
  Lemma root_node : forall x, op N x = 0 -> exists j, (j < N)%nat /\ lam j = x.
  Proof.
    intros x Hx. destruct (Nat.eq_dec N 0) as [EN|HN]; [rewrite EN, op_0 in Hx; lra|].
    assert (D : (exists j, (j < N)%nat /\ lam j = x) \/ (forall j, (j < N)%nat -> lam j <> x)).
    { clear -s. induction N as [|n IH]; [right; intros; lia|].
      destruct IH as [(j & Hj & E)|IH]; [left; exists j; split; auto; lia|].
      destruct (Req_EM_T (lam n) x); [left; exists n; split; auto; lia|].
      right. intros j Hj. destruct (Nat.eq_dec j n); [subst; auto|apply IH; lia]. }
    destruct D as [D|D]; auto. exfalso.
    assert (Z : forall i, (i < N)%nat -> op i x = 0).
    { intros i Hi. rewrite (ortho_expand N V tri_orthonormal (fun i => op i x) i) by auto.
      apply sumf_zero. intros j Hj.
      assert (D0 : dot N (fun k => V k j) (fun k => op k x) = 0); [|unfold dot in D0; rewrite D0; ring].
      apply (eig_orthogonal N tri (fun k => V k j) (fun k => op k x) (lam j) x); [| | |now apply D].
      - intros; apply tri_sym.
      - intros; now apply Heig.
      - now apply op_eigvec. }
    assert (Z0 := Z 0%nat ltac:(lia)). rewrite op_0 in Z0. lra.
  Qed.
End Tri.
