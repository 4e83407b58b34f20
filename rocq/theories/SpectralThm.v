(** The spectral theorem for real symmetric matrices: the contract given to
    np.linalg.eigh can be met for every matrix. *)
From Coq Require Import Reals Lra Lia List Arith Ranalysis5.
From Verif Require Import Prelude LinAlg Spectral Det.
Import ListNotations.
Open Scope R_scope.

Definition msym (m : nat) (C : mat) : Prop := forall i k, (i < m)%nat -> (k < m)%nat -> C i k = C k i.
(** eigenvalues and an orthonormal eigenbasis, as data *)
Definition diagonalisable (m : nat) (C : mat) : Type :=
  {p : (nat -> R) * mat | orthonormal m m (snd p) /\ eigcols m C (fst p) (snd p)}.

(** ** One eigenvector, from a diagonalisation of the leading block *)

Definition secular (m : nat) (c : R) (bq d : nat -> R) (x : R) : R :=
  x - c - sumf m (fun j => bq j * bq j / (x - d j)).

Lemma secular_cont : forall m c bq d x, (forall j, (j < m)%nat -> d j < x) -> continuity_pt (secular m c bq d) x.
Proof.
  intros m c bq d x H. unfold secular.
  apply (continuity_pt_minus (fun x => x - c) (fun x => sumf m (fun j => bq j * bq j / (x - d j)))).
  - apply continuity_pt_minus; [apply derivable_continuous_pt, derivable_pt_id|apply continuity_pt_const; intros ? ?; reflexivity].
  - induction m as [|m IH].
    + apply continuity_pt_const. intros ? ?; reflexivity.
    + apply (continuity_pt_plus (fun x => sumf m (fun j => bq j * bq j / (x - d j))) (fun x => bq m * bq m / (x - d m))).
      * apply IH. intros; apply H; lia.
      * apply (continuity_pt_div (fun _ => bq m * bq m) (fun x => x - d m)).
        -- apply continuity_pt_const. intros ? ?; reflexivity.
        -- apply continuity_pt_minus; [apply derivable_continuous_pt, derivable_pt_id|apply continuity_pt_const; intros ? ?; reflexivity].
        -- specialize (H m ltac:(lia)). lra.
Qed.

Lemma secular_root : forall m c bq d, (forall j, (j < m)%nat -> bq j <> 0) ->
  {x | (forall j, (j < m)%nat -> d j < x) /\ secular m c bq d x = 0}.
Proof.
  intros m c bq d Hb. destruct m as [|m].
  { exists c. split; [intros; lia|]. unfold secular; simpl; ring. }
  destruct (argmax_upto_spec m d) as (Hk & HD & _). set (k := argmax_upto m d) in *. set (D := d k) in *.
  assert (Ek : d k = D) by reflexivity.
  set (B := sumf (S m) (fun j => bq j * bq j)).
  assert (HB : 0 <= B) by apply sumf_sq_nonneg.
  set (K := Rabs (D + 1 - c) + 1). assert (HK : 0 < K) by (unfold K; pose proof (Rabs_pos (D + 1 - c)); lra).
  assert (Hkk : 0 < bq k * bq k).
  { specialize (Hb k ltac:(lia)). destruct (Rlt_dec 0 (bq k)); nra. }
  set (ep := Rmin 1 (bq k * bq k / K)).
  assert (Hq : 0 < bq k * bq k / K) by (apply Rdiv_lt_0_compat; auto).
  assert (Hep : 0 < ep <= 1) by (unfold ep; pose proof (Rmin_l 1 (bq k * bq k / K)); split; [apply Rmin_glb_lt; lra|lra]).
  set (lo := D + ep). set (hi := Rmax (D + 1) (c + B) + 1).
  assert (Hlohi : lo < hi) by (unfold lo, hi; pose proof (Rmax_l (D + 1) (c + B)); lra).
  assert (Hpos : forall x, lo <= x -> forall j, (j < S m)%nat -> d j < x).
  { intros x Hx j Hj. specialize (HD j ltac:(lia)). unfold lo in Hx. lra. }
  assert (Flo : secular (S m) c bq d lo < 0).
  { unfold secular.
    assert (bq k * bq k / (lo - d k) <= sumf (S m) (fun j => bq j * bq j / (lo - d j))).
    { apply (sumf_term_le (S m) (fun j => bq j * bq j / (lo - d j))); [|lia]. intros j Hj.
      specialize (Hpos lo ltac:(lra) j Hj). apply Rmult_le_pos; [apply Rle_0_sqr|left; apply Rinv_0_lt_compat; lra]. }
    assert (K <= bq k * bq k / (lo - d k)).
    { replace (lo - d k) with ep by (unfold lo; lra).
      apply (Rmult_le_reg_r ep); [lra|]. unfold Rdiv. rewrite Rmult_assoc, Rinv_l, Rmult_1_r by lra.
      apply Rle_trans with (K * (bq k * bq k / K)).
      - apply Rmult_le_compat_l; [lra|apply Rmin_r].
      - right. field. lra. }
    pose proof (Rle_abs (D + 1 - c)). unfold K in *. unfold lo in *. lra. }
  assert (Fhi : 0 < secular (S m) c bq d hi).
  { unfold secular. assert (sumf (S m) (fun j => bq j * bq j / (hi - d j)) <= B).
    { apply sumf_le; intros j Hj. specialize (HD j ltac:(lia)).
      assert (1 <= hi - d j) by (unfold hi; pose proof (Rmax_l (D + 1) (c + B)); lra).
      apply (Rmult_le_reg_r (hi - d j)); [lra|]. unfold Rdiv. rewrite Rmult_assoc, Rinv_l, Rmult_1_r by lra.
      pose proof (Rle_0_sqr (bq j)) as Q. unfold Rsqr in Q. nra. }
    pose proof (Rmax_r (D + 1) (c + B)). unfold hi in *. lra. }
  destruct (IVT_interv (secular (S m) c bq d) lo hi) as (z & Hz & Ez); auto.
  { intros a Ha. apply secular_cont. apply Hpos. lra. }
  exists z. split; auto. apply Hpos. lra.
Qed.

Lemma eigenvector_exists : forall m C, msym (S m) C -> diagonalisable m C ->
  {p : R * (nat -> R) | sumf (S m) (fun i => snd p i * snd p i) <> 0 /\
    forall i, (i < S m)%nat -> sumf (S m) (fun k => C i k * snd p k) = fst p * snd p i}.
Proof.
  intros m C HS ((d & Q) & HO & HE). cbn [fst snd] in HO, HE.
  set (bq := fun j => sumf m (fun i => C i m * Q i j)).
  assert (Hdec : forall n, {j | (j < n)%nat /\ bq j = 0} + {forall j, (j < n)%nat -> bq j <> 0}).
  { induction n as [|n IH]; [right; intros; lia|]. destruct IH as [(j & Hj & E)|H]; [left; exists j; split; [lia|auto]|].
    destruct (Req_EM_T (bq n) 0) as [E|E]; [left; exists n; split; [lia|auto]|].
    right. intros j Hj. destruct (Nat.eq_dec j n) as [->|]; auto. apply H; lia. }
  destruct (Hdec m) as [(j & Hj & E)|Hb].
  - exists (d j, (fun i => if Nat.ltb i m then Q i j else 0)). cbn [fst snd]. split.
    + cbn [sumf]. destruct (Nat.ltb_spec m m); [lia|].
      rewrite (sumf_ext m _ (fun i => Q i j * Q i j)) by (intros i Hi; destruct (Nat.ltb_spec i m); [auto|lia]).
      rewrite (HO j j Hj Hj), kd_same. lra.
    + intros i Hi. cbn [sumf]. destruct (Nat.ltb_spec m m); [lia|].
      rewrite (sumf_ext m _ (fun k => C i k * Q k j)) by (intros k Hk; destruct (Nat.ltb_spec k m); [auto|lia]).
      destruct (Nat.ltb_spec i m).
      * rewrite (HE i j) by auto. ring.
      * replace i with m by lia. rewrite (sumf_ext m _ (fun k => C k m * Q k j)) by (intros; rewrite (HS m i0) by lia; auto).
        fold (bq j). rewrite E. ring.
  - destruct (secular_root m (C m m) bq d Hb) as (lam & Hd & Hr).
    set (y := fun j => bq j / (lam - d j)).
    exists (lam, (fun i => if Nat.ltb i m then sumf m (fun j => Q i j * y j) else 1)). cbn [fst snd]. split.
    + cbn [sumf]. destruct (Nat.ltb_spec m m); [lia|].
      assert (0 <= sumf m (fun i => (if Nat.ltb i m then sumf m (fun j => Q i j * y j) else 1) * (if Nat.ltb i m then sumf m (fun j => Q i j * y j) else 1)))
        by apply sumf_sq_nonneg. lra.
    + intros i Hi. cbn [sumf]. destruct (Nat.ltb_spec m m); [lia|].
      rewrite (sumf_ext m _ (fun k => sumf m (fun j => C i k * Q k j * y j))).
      2: { intros k Hk. destruct (Nat.ltb_spec k m); [|lia]. rewrite <- sumf_scal_l. apply sumf_ext; intros; ring. }
      rewrite sumf_swap. destruct (Nat.ltb_spec i m).
      * rewrite (sumf_ext m _ (fun j => d j * Q i j * y j)).
        2: { intros j Hj. rewrite sumf_scal_r, (HE i j) by auto. reflexivity. }
        assert (Eb : C i m = sumf m (fun j => Q i j * bq j)).
        { rewrite (ortho_expand m Q HO (fun i => C i m) i) by auto. apply sumf_ext; intros j Hj. unfold bq.
          rewrite Rmult_comm. f_equal. apply sumf_ext; intros; ring. }
        rewrite Rmult_1_r, Eb, <- sumf_plus, <- sumf_scal_l. apply sumf_ext; intros j Hj. unfold y.
        specialize (Hd j Hj). field. lra.
      * replace i with m by lia.
        rewrite (sumf_ext m _ (fun j => bq j * bq j / (lam - d j))).
        2: { intros j Hj. rewrite sumf_scal_r. unfold y. unfold Rdiv. rewrite Rmult_assoc. f_equal.
             apply sumf_ext; intros k Hk. rewrite (HS m k) by lia. reflexivity. }
        unfold secular in Hr. lra.
Qed.

(** ** Deflation with a Householder reflection *)
Lemma deflate : forall m C, msym (S m) C -> (forall C', msym m C' -> diagonalisable m C') -> diagonalisable (S m) C.
Proof.
  intros m C HS IH. set (n := S m).
  destruct (eigenvector_exists m C HS) as ((lam & x0) & Hx0 & HE0); cbn [fst snd] in *.
  { apply IH. intros i k Hi Hk. apply HS; lia. }
  (* normalise *)
  assert (Hpos : 0 < sumf n (fun i => x0 i * x0 i)) by (pose proof (sumf_sq_nonneg n x0); fold n in Hx0; lra).
  set (r := sqrt (sumf n (fun i => x0 i * x0 i))).
  assert (Hr : r * r = sumf n (fun i => x0 i * x0 i)) by (apply sqrt_sqrt; lra).
  assert (Hr0 : r <> 0) by (apply Rgt_not_eq, sqrt_lt_R0; auto).
  set (x := fun i => x0 i / r).
  assert (Hx : sumf n (fun i => x i * x i) = 1).
  { rewrite (sumf_ext n _ (fun i => x0 i * x0 i / (r * r))) by (intros; unfold x; field; auto).
    rewrite sumf_div, <- Hr. field. auto. }
  assert (HE : forall i, (i < n)%nat -> sumf n (fun k => C i k * x k) = lam * x i).
  { intros i Hi. rewrite (sumf_ext n _ (fun k => C i k * x0 k / r)) by (intros; unfold x; field; auto).
    rewrite sumf_div. fold n in HE0. rewrite HE0 by auto. unfold x. field. auto. }
  clear HE0 Hx0 Hpos Hr.
  (* reflection exchanging e_m and x *)
  set (u := fun i => x i - kron_delta i m).
  set (q := sumf n (fun i => u i * u i)).
  set (H := fun i k => kron_delta i k - 2 * (u i * u k) * / q).
  assert (Hq : q = - 2 * u m).
  { unfold q, u. rewrite (sumf_ext n _ (fun i => x i * x i - 2 * x i * kron_delta i m + kron_delta i m * kron_delta i m)) by (intros; ring).
    rewrite sumf_plus, sumf_minus, Hx.
    rewrite (sumf_kd_r n m (fun i => 2 * x i)), (sumf_kd_r n m (fun i => kron_delta i m)) by (unfold n; lia). rewrite kd_same. ring. }
  assert (Hu0 : q = 0 -> forall i, (i < n)%nat -> u i = 0) by (intros E; apply sumf_sq_eq0; exact E).
  assert (Hsym : forall i k, H i k = H k i) by (intros; unfold H; rewrite kd_sym; ring).
  assert (HHm : forall i, (i < n)%nat -> H i m = x i).
  { intros i Hi. unfold H. destruct (Req_dec q 0) as [E|E].
    - rewrite (Hu0 E i Hi). pose proof (Hu0 E i Hi) as Z. unfold u in Z. lra.
    - replace (u i * u m) with (u i * (q * / -2)) by (rewrite Hq; field). unfold u. field. auto. }
  assert (HH : forall i k, (i < n)%nat -> (k < n)%nat -> sumf n (fun l => H i l * H l k) = kron_delta i k).
  { intros i k Hi Hk. unfold H. destruct (Req_dec q 0) as [E|E].
    - rewrite (sumf_ext n _ (fun l => kron_delta i l * kron_delta l k)).
      + now rewrite (sumf_kd_l n i (fun l => kron_delta l k)).
      + intros l Hl. rewrite (Hu0 E i Hi), (Hu0 E l Hl). ring.
    - rewrite (sumf_ext n _ (fun l => kron_delta i l * kron_delta l k - kron_delta i l * (2 * (u l * u k) * / q)
        - (2 * (u i * u l) * / q) * kron_delta l k + (4 * (u i * u k) * / q * / q) * (u l * u l))) by (intros; ring).
      rewrite sumf_plus, !sumf_minus, sumf_scal_l.
      rewrite (sumf_kd_l n i (fun l => kron_delta l k)), (sumf_kd_l n i (fun l => 2 * (u l * u k) * / q)),
        (sumf_kd_r n k (fun l => 2 * (u i * u l) * / q)) by auto. fold q. field. auto. }
  (* D = H C H *)
  set (D := fun i k => sumf n (fun a => sumf n (fun b => H i a * C a b * H b k))).
  assert (DS : msym n D).
  { intros i k Hi Hk. unfold D. rewrite sumf_swap. apply sumf_ext; intros b Hb. apply sumf_ext; intros a Ha.
    rewrite (Hsym i a), (Hsym b k), (HS a b) by auto. ring. }
  assert (DM : forall i, (i < n)%nat -> D i m = lam * kron_delta i m).
  { intros i Hi. unfold D.
    rewrite (sumf_ext n _ (fun a => lam * (H i a * H a m))).
    - rewrite sumf_scal_l, HH by (unfold n in *; lia). reflexivity.
    - intros a Ha. rewrite (sumf_ext n _ (fun b => H i a * (C a b * x b))).
      + rewrite sumf_scal_l, HE, HHm by auto. ring.
      + intros b Hb. rewrite (HHm b Hb). ring. }
  destruct (IH D) as ((d & Q) & QO & QE); cbn [fst snd] in *.
  { intros i k Hi Hk. apply DS; unfold n; lia. }
  set (V' := fun i j => if Nat.ltb j m then (if Nat.ltb i m then Q i j else 0) else kron_delta i m).
  set (l' := fun j => if Nat.ltb j m then d j else lam).
  assert (VE : eigcols n D l' V').
  { intros i j Hi Hj. unfold V', l'. destruct (Nat.ltb_spec j m) as [Lj|Lj].
    - unfold n. cbn [sumf]. destruct (Nat.ltb_spec m m); [lia|].
      rewrite (sumf_ext m _ (fun k => D i k * Q k j)) by (intros k Hk; destruct (Nat.ltb_spec k m); [auto|lia]).
      destruct (Nat.ltb_spec i m).
      + rewrite (QE i j) by auto. ring.
      + replace i with m by (unfold n in *; lia). rewrite (sumf_zero m); [ring|].
        intros k Hk. rewrite (DS m k), DM, kd_diff by (unfold n; lia). ring.
    - rewrite (sumf_kd_r n m (fun k => D i k)) by (unfold n; lia). rewrite DM by auto. ring. }
  assert (VO : orthonormal n n V').
  { intros a b Ha Hb. unfold n. cbn [sumf]. unfold V'. destruct (Nat.ltb_spec m m) as [|_]; [lia|].
    destruct (Nat.ltb_spec a m) as [La|La]; destruct (Nat.ltb_spec b m) as [Lb|Lb].
    - rewrite (sumf_ext m _ (fun i => Q i a * Q i b)) by (intros i Hi; destruct (Nat.ltb_spec i m); [auto|lia]).
      rewrite (QO a b) by auto. ring.
    - rewrite (sumf_zero m); [|intros i Hi; rewrite kd_diff by lia; ring].
      rewrite (kd_diff a b) by lia. ring.
    - rewrite (sumf_zero m); [|intros i Hi; rewrite kd_diff by lia; ring].
      rewrite (kd_diff a b) by lia. ring.
    - replace a with m by (unfold n in *; lia). replace b with m by (unfold n in *; lia).
      rewrite (sumf_zero m); [|intros i Hi; rewrite kd_diff by lia; ring]. rewrite !kd_same. ring. }
  exists (l', fun i j => sumf n (fun k => H i k * V' k j)). cbn [fst snd]. split.
  - intros a b Ha Hb.
    rewrite (sumf_ext n _ (fun i => sumf n (fun k => sumf n (fun l => (V' k a * V' l b) * (H k i * H i l))))).
    2: { intros i Hi. rewrite sumf_mul. apply sumf_ext; intros k Hk. apply sumf_ext; intros l Hl. rewrite (Hsym k i). ring. }
    rewrite sumf_swap. rewrite <- (VO a b Ha Hb). apply sumf_ext; intros k Hk. rewrite sumf_swap.
    rewrite (sumf_ext n _ (fun l => kron_delta k l * (V' k a * V' l b))).
    + now rewrite (sumf_kd_l n k (fun l => V' k a * V' l b)).
    + intros l Hl. rewrite sumf_scal_l, HH by auto. ring.
  - intros i j Hi Hj. fold n. fold n in Hi, Hj.
    (* C H = H D *)
    assert (CH : forall a k, (a < n)%nat -> (k < n)%nat -> sumf n (fun b => C a b * H b k) = sumf n (fun l => H a l * D l k)).
    { intros a k Ha Hk. unfold D.
      rewrite (sumf_ext n (fun l => H a l * _) (fun l => sumf n (fun p => (H a l * H l p) * sumf n (fun b => C p b * H b k)))).
      - rewrite sumf_swap. rewrite (sumf_ext n (fun p => sumf n _) (fun p => kron_delta a p * sumf n (fun b => C p b * H b k))).
        + now rewrite (sumf_kd_l n a (fun p => sumf n (fun b => C p b * H b k))).
        + intros p Hp. rewrite sumf_scal_r, HH by auto. reflexivity.
      - intros l Hl. rewrite <- sumf_scal_l. apply sumf_ext; intros p Hp. rewrite <- !sumf_scal_l. apply sumf_ext; intros; ring. }
    rewrite (sumf_ext n _ (fun b => sumf n (fun k => C i b * H b k * V' k j))).
    2: { intros b Hb. rewrite <- sumf_scal_l. apply sumf_ext; intros; ring. }
    rewrite sumf_swap. rewrite (sumf_ext n _ (fun k => sumf n (fun l => H i l * (D l k * V' k j)))).
    2: { intros k Hk. rewrite sumf_scal_r, CH by auto. rewrite <- sumf_scal_r. apply sumf_ext; intros; ring. }
    rewrite sumf_swap. rewrite <- sumf_scal_l. apply sumf_ext; intros l Hl. rewrite sumf_scal_l, (VE l j) by auto. ring.
Qed.

Definition spectral_theorem : forall m C, msym m C -> diagonalisable m C.
Proof.
  induction m as [|m IH]; intros C HS.
  - exists (fun _ => 0, fun _ _ => 0). split; intros ? ? ?; lia.
  - apply deflate; auto.
Qed.
