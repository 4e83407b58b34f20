(** Reference implementations meeting the contracts of np.linalg.eigh,
    np.linalg.norm(., ord=2) and np.linalg.det, for every input. *)
From Coq Require Import Reals Lra Lia List Arith.
From Verif Require Import Prelude Py NumArr LinAlg Spectral Det SpectralThm M_Subspaces P_Subspaces.
Import ListNotations.
Open Scope R_scope.

Definition eigh_ref (C : nd R) : res (nd R * nd R) :=
  match shape C with
  | [m; k] =>
      if Nat.eqb m k
      then let p := proj1_sig (spectral_theorem m (lower (ent C)) (lower_sym (ent C) m)) in
           Ok (mk1 m (fst p), mk2 m m (snd p))
      else Err LinAlgError
  | _ => Err LinAlgError
  end.

Lemma eigh_ref_contract : eigh_contract eigh_ref.
Proof.
  intros C e V H. unfold eigh_ref in H. destruct (shape C) as [|m [|k [|]]] eqn:EC; try discriminate.
  destruct (Nat.eqb_spec m k) as [<-|]; [|discriminate].
  destruct (spectral_theorem m (lower (ent C)) (lower_sym (ent C) m)) as (p & HO & HE). cbn [proj1_sig] in H.
  inversion H; subst e V. exists m. repeat split; auto.
Qed.

Lemma eigh_ref_total : eigh_total eigh_ref.
Proof. intros m C Hm HC. unfold eigh_ref. rewrite HC, Nat.eqb_refl. eauto. Qed.

(** [v] is the spectral norm (largest singular value) of the r-by-c matrix A *)
Definition is_norm2 (r c : nat) (A : nat -> nat -> R) (v : R) : Prop :=
  0 <= v /\
  (forall x, sumf r (fun i => sumf c (fun j => A i j * x j) * sumf c (fun j => A i j * x j)) <= v * v * sumf c (fun j => x j * x j)) /\
  exists x, sumf c (fun j => x j * x j) = 1 /\
    sumf r (fun i => sumf c (fun j => A i j * x j) * sumf c (fun j => A i j * x j)) = v * v.

Definition norm2_contract (norm2 : nd R -> R) : Prop :=
  forall r c A, shape A = [r; c] -> (0 < r)%nat -> (0 < c)%nat -> is_norm2 r c (ent A) (norm2 A).
Definition det_contract (det : nd R -> R) : Prop :=
  forall n A, shape A = [n; n] -> det A = determinant n (ent A).

Lemma is_norm2_unique : forall r c A v v', is_norm2 r c A v -> is_norm2 r c A v' -> v = v'.
Proof.
  assert (L : forall r c A v v', is_norm2 r c A v -> is_norm2 r c A v' -> v <= v').
  { intros r c A v v' (H0 & _ & (x & Hx & Ex)) (H0' & H' & _). specialize (H' x). rewrite Hx, Ex, Rmult_1_r in H'.
    apply Rsqr_incr_0; auto. }
  intros r c A v v' H H'. apply Rle_antisym; eapply L; eauto.
Qed.

Definition gram (r : nat) (A : nat -> nat -> R) (a b : nat) : R := sumf r (fun i => A i a * A i b).
Lemma gram_sym : forall r c A, msym c (gram r A).
Proof. intros r c A i k _ _. apply sumf_ext; intros; ring. Qed.
Lemma gram_quad : forall r c A x, quad c (gram r A) x = sumf r (fun i => sumf c (fun j => A i j * x j) * sumf c (fun j => A i j * x j)).
Proof.
  intros. unfold quad, gram. rewrite (sumf_ext r _ (fun i => sumf c (fun a => sumf c (fun b => x a * (A i a * A i b) * x b)))).
  2: { intros i Hi. rewrite sumf_mul. apply sumf_ext; intros; apply sumf_ext; intros; ring. }
  rewrite (sumf_swap r c). apply sumf_ext; intros a Ha. rewrite (sumf_swap r c). apply sumf_ext; intros b Hb.
  rewrite <- sumf_scal_l, <- sumf_scal_r. apply sumf_ext; intros; ring.
Qed.

Definition norm2_ref (A : nd R) : R :=
  let c := ncols A in
  let p := proj1_sig (spectral_theorem c (gram (nrows A) (ent A)) (gram_sym (nrows A) c (ent A))) in
  sqrt (max_upto (c - 1) (fst p)).

Lemma norm2_ref_contract : norm2_contract norm2_ref.
Proof.
  intros r c A HA Hr Hc. unfold norm2_ref. rewrite (nrows_shape2 _ A r c HA), (ncols_shape2 _ A r c HA).
  destruct (spectral_theorem c _ _) as ((lam & V) & HO & HE). cbn [proj1_sig fst snd] in *.
  destruct (max_upto_spec (c - 1) lam) as (H1 & (k & Hk & H2)). set (mx := max_upto (c - 1) lam) in *.
  assert (Hk' : (k < c)%nat) by lia.
  assert (Hq : forall x, quad c (gram r (ent A)) x = sumf r (fun i => sumf c (fun j => ent A i j * x j) * sumf c (fun j => ent A i j * x j))) by (intros; apply gram_quad).
  assert (Hmx : 0 <= mx).
  { rewrite <- H2, <- (quad_eigvec c _ lam V HO HE k Hk'), Hq. apply sumf_nonneg; intros; apply Rle_0_sqr. }
  split; [apply sqrt_pos|]. rewrite sqrt_sqrt by auto. split.
  - intros x. rewrite <- Hq, (quad_spectral c _ lam V HO HE x).
    rewrite <- (ortho_parseval c V HO x), <- sumf_scal_l. apply sumf_le; intros j Hj.
    apply Rmult_le_compat_r; [apply Rle_0_sqr|apply H1; lia].
  - exists (fun i => V i k). split; [rewrite (HO k k Hk' Hk'), kd_same; auto|].
    rewrite <- Hq, (quad_eigvec c _ lam V HO HE k Hk'). exact H2.
Qed.

Definition det_ref (A : nd R) : R := determinant (nrows A) (ent A).
Lemma det_ref_contract : det_contract det_ref.
Proof. intros n A H. unfold det_ref. now rewrite (nrows_shape2 _ A n n H). Qed.
